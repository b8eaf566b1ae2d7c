(** Which rules a list of edges triggers for a given edge. *)
From Coq Require Import ZArith NArith List Bool Arith.
From Verif Require Import M_Core M_Reweight.
Import ListNotations.

(** Position of neighbour [x] in the list of [u]. *)
Definition at_index (G : graph) (u : nat) (x : option nat) (k : nat) : Prop :=
  exists w o, nth_error (nbrs G u) k = Some (x, w, o).
(** A rule (node1, node2, half) is about the edge between [u] and [x], in either orientation. *)
Definition about (r : urule) (u : nat) (x : option nat) : Prop :=
  let '(i, j, _) := r in (i = u /\ j = x) \/ (x = Some i /\ j = Some u).
(** [r] is one of the rules triggered by the edges in [edges] (pairs of entries, -1 is the boundary). *)
Fixpoint triggered (G : graph) (U : list (list (list urule))) (edges : list Z) (r : urule) : Prop :=
  match edges with
  | a :: b :: rest =>
      (exists k, at_index G (Z.to_nat a) (if (b =? -1)%Z then None else Some (Z.to_nat b)) k /\
                 In r (nth k (nth (Z.to_nat a) U []) [])) \/ triggered G U rest r
  | _ => False
  end.
Definition implied (r : urule) : Z := Z.abs (2 * snd r).
(** [m] is the minimum of [w] and the implied weights of the triggered rules about the edge u-x. *)
Definition is_min (G : graph) U edges (u : nat) (x : option nat) (w m : Z) : Prop :=
  (m <= w)%Z /\ (forall r, triggered G U edges r -> about r u x -> m <= implied r)%Z /\
  (m = w \/ exists r, triggered G U edges r /\ about r u x /\ m = implied r).
