(** Specification: a graph with cheaper edges. *)
From Coq Require Import Reals List.
From Verif Require Import M_Merge M_UserGraph S_UserGraph.

(** For every edge of [g1] the graph [g2] has an edge between the same two nodes, or to the boundary, that weighs no more; boundary nodes are the same. *)
Definition no_dearer (g1 g2 : ugraph RN) : Prop :=
  (forall e1, In e1 (edges g1) -> exists e2, In e2 (edges g2) /\ joins e2 (node1 e1) (node2 e1) /\ (weight e2 <= weight e1)%R) /\
  forall v, In v (bnodes g1) <-> In v (bnodes g2).
