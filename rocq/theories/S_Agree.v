(** Specification: answers to the same syndrome that fit together. *)
From Coq Require Import Reals ZArith List Bool Arith Permutation.
From Verif Require Import M_Bits S_Bits M_Merge M_Matching M_UserGraph S_UserGraph S_Pipeline S_Matching S_Weights.
Import ListNotations.
Local Open Scope nat_scope.

(** The weight [w] told for a syndrome is the weight [x] of a collection of [len] edges: exactly, if all weights are integers (of which a
    double can represent the sum), otherwise up to half a step for each of these edges and twice for every edge of the graph. *)
Definition agrees (g : ugraph RN) (w x : R) (len : nat) : Prop :=
  (forall M, (forall e, In e (edges g) -> Rabs (weight e) <= M) -> Rabs (w - x) <= INR (2 * length (edges g) + len) * half_step M)%R /\
  (integer_weights g -> (Rabs x <= IZR (2 ^ 52))%R -> w = x).

(** The row and the weight that one call replies, and the edges that another one replies. *)
Definition edges_agree (g : ugraph RN) (P : nat -> Prop) (row : list Z) (w : R) (out : list (nat * option nat)) : Prop :=
  exists F, shows_edges g out F /\ (exists evs, (forall v, In v evs <-> P v) /\ corrects g F evs) /\ agrees g w (total_weight F) (length F) /\
    (clear_cut g P -> row = map (fun i => Z.b2z (flips_observable i F)) (seq 0 (nobs g))).
(** The weight that one call replies, and the pairs that another one replies: there are sets of edges that join the pairs and have
    that weight in all, and with integral weights no sets that join these pairs weigh less. *)
Definition pairs_agree (g : ugraph RN) (w : R) (out : list (nat * option nat)) : Prop :=
  exists Qs, Forall2 (joins_pair g) out Qs /\ agrees g w (total_weight (concat Qs)) (length (concat Qs)) /\
    (integer_weights g -> forall Qs', Forall2 (joins_pair g) out Qs' -> (total_weight (concat Qs) <= total_weight (concat Qs'))%R).

(** A reply [r] to a call for the prediction for [z], and a reply [r'] to the call [c] for its edges or pairs: both are exceptions, or they agree. *)
Definition replies_agree (g : ugraph RN) (z : syndrome) (r : mreply) (c : mcall) (r' : mreply) : Prop :=
  (r = Raised /\ r' = Raised) \/
  exists row w, r = Row row w /\
    match c with
    | AskEdges _ => exists out, r' = EdgeList out /\ edges_agree g (event_at z) row w out
    | AskPairs _ => exists out, r' = PairList out /\ pairs_agree g w out
    | AskDict _ => exists t out, r' = PairDict t /\ (forall v x, dict_get t v = Some x <-> In (v, x) out \/ exists u, x = Some u /\ In (u, Some v) out) /\ pairs_agree g w out
    | _ => False
    end.
Definition asks_solution (c : mcall) (z : syndrome) : Prop := c = AskEdges z \/ c = AskPairs z \/ c = AskDict z.
(** The prediction that a row of a batch holds, packed or not. *)
Definition prediction_of (g : ugraph RN) (packed : bool) (bytes row : list Z) : Prop :=
  if packed then length bytes = packed_len (nobs g) /\ bytes_ok bytes /\ packs bytes row else bytes = row.
