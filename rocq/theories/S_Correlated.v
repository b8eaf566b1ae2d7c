(** Specification of decoding with edge correlations. *)
From Coq Require Import ZArith NArith List Bool Arith.
From Verif Require Import M_Core M_Build S_Build M_Reweight S_Reweight S_Flip S_ToEdges.
Import ListNotations.
Local Open Scope nat_scope.

(** The rules attached to the selected edges. *)
Fixpoint active (R : list (sedge * list urule)) (X : list bool) : list urule :=
  match R, X with (_, rs) :: R', b :: X' => (if b then rs else []) ++ active R' X' | _, _ => [] end.
(** The least of the weight of [e] and the weights implied by those rules of [L] that name its two ends. *)
Definition lowered_edge (L : list urule) (e : sedge) : sedge :=
  let '(u, x, w, obs) := e in
  (u, x, fold_right Z.min w (map implied (filter (fun r => same_edge (fst r) (u, x)) L)), obs).
(** The edges as they are after the edges selected by [X] have been observed. *)
Definition lowered (R : list (sedge * list urule)) (X : list bool) : list sedge := map (fun e => lowered_edge (active R X) (fst e)) R.
(** [X] is a selection of minimum weight for the given detection events. *)
Definition best (E : list sedge) (want : nat -> bool) (X : list bool) : Prop :=
  solves E want X /\ forall Y, solves E want Y -> (s_total (select E X) <= s_total (select E Y))%Z.
