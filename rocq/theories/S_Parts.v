(** Specification: graphs that fall into separate parts. *)
From Coq Require Import Reals List Bool.
From Verif Require Import M_Merge M_UserGraph.

(** No edge joins a node of the part [A] with a node outside it, unless one of the two is a boundary node. *)
Definition separate (g : ugraph RN) (A : nat -> bool) : Prop := forall (e : uedge RN) v, In e (edges g) -> node2 e = Some v -> ~ In (node1 e) (bnodes g) -> ~ In v (bnodes g) -> A (node1 e) = A v.
(** The events of [S] in the part [A] are those of [P], the others those of [Q]; boundary nodes do not matter. *)
Definition split_by (g : ugraph RN) (A : nat -> bool) (S P Q : nat -> Prop) : Prop := forall v, ~ In v (bnodes g) -> (P v <-> S v /\ A v = true) /\ (Q v <-> S v /\ A v = false).
