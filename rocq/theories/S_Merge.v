(** Specification of weights and probabilities of independent error mechanisms. *)
From Coq Require Import Reals List.
From Verif Require Import S_GraphMap M_Merge.
Import ListNotations.
Local Open Scope R_scope.

(** Log-likelihood ratio of a probability. *)
Definition log_likelihood_ratio (p : R) : R := ln ((1 - p) / p).

(** Probability that exactly one of two independent events happens. *)
Definition exactly_one (p q : R) : R := p * (1 - q) + (1 - p) * q.

(** Probability that an odd number of independent events with probabilities [ps] happen. *)
Fixpoint odd_probability (ps : list R) : R :=
  match ps with
  | [] => 0
  | p :: ps => exactly_one p (odd_probability ps)
  end.

(** The weight and probability of an edge, if there is one. *)
Definition weight_and_probability (a : option (attr RN)) : option (R * R) :=
  match a with Some (_, w, p) => Some (w, p) | None => None end.
