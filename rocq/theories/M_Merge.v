(** Model of the weight / probability arithmetic of driver/user_graph.cc over real numbers.
    Simplification: C++ doubles are modelled by reals (no rounding, no infinities). *)
From Coq Require Import Reals List.
From Verif Require Import M_UserGraph.
Import ListNotations.
Local Open Scope R_scope.

(** std::copysign(1, a); for a = -0.0 the C++ value is -1, which is multiplied by 0 below. *)
Definition copysign1 (a : R) : R := if Rle_dec 0 a then 1 else -1.

(** user_graph.cc:33-37 merge_weights *)
Definition merge_weights (a b : R) : R :=
  let sgn := copysign1 a * copysign1 b in
  let signed_min := sgn * Rmin (Rabs a) (Rabs b) in
  signed_min + ln (1 + exp (- Rabs (a + b))) - ln (1 + exp (- Rabs (a - b))).

(** user_graph.cc:22-24 bernoulli_xor; also the expression at 93-94. *)
Definition bernoulli_xor (p1 p2 : R) : R := p1 * (1 - p2) + p2 * (1 - p1).

(** user_graph.cc:29-31 to_weight_for_correlations; also the expression log((1-p)/p) at 352, 354. *)
Definition to_weight (p : R) : R := ln ((1 - p) / p).

Definition Rleb (a b : R) : bool := if Rle_dec a b then true else false.
Definition Rltb (a b : R) : bool := if Rlt_dec a b then true else false.

(** MAX_USER_EDGE_WEIGHT, user_graph.h:57: 2^24 - 1. *)
Definition max_user_weight : R := 16777215.

(** The real-number instance of the numeric operations of M_UserGraph. *)
Definition RN : numops := {|
  num := R;
  w_ge := fun a b => Rleb b a;
  w_merge := merge_weights;
  w_exceeds := fun w => Rltb max_user_weight (Rabs w);
  p_valid := fun p => andb (Rleb 0 p) (Rleb p 1);
  p_outside := fun p => orb (Rltb p 0) (Rltb 1 p);
  p_xor := bernoulli_xor;
  p_none := -1 |}.

(** Merging a list of mechanisms into an edge that starts as the first of them (user_graph.cc:88-94
    applied repeatedly): probability and weight. *)
Definition merge_probs (p : R) (ps : list R) : R := fold_left (fun q p => bernoulli_xor p q) ps p.
Definition merge_weight_list (w : R) (ws : list R) : R := fold_left (fun a b => merge_weights b a) ws w.

(** user_graph.cc:537-539: weight implied for an affected edge by the causal edge's occurrence. *)
Definition implied_weight (joint marginal : R) : R := to_weight (Rmin (1 / 2) (joint / marginal)).
