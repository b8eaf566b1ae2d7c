(** Specification: events of two syndromes taken together. *)
From Coq Require Import Reals List.
From Verif Require Import M_Merge M_UserGraph.

(** At nodes that are not boundary nodes, an event of [S] is an event of either [P] or [Q], not of both. *)
Definition combines (g : ugraph RN) (P Q S : nat -> Prop) : Prop := forall v, ~ In v (bnodes g) -> (S v <-> (P v /\ ~ Q v) \/ (Q v /\ ~ P v)).
(** No events, except at boundary nodes, where they do not matter. *)
Definition no_events (g : ugraph RN) (P : nat -> Prop) : Prop := forall v, ~ In v (bnodes g) -> ~ P v.
(** [g2] has all edges of [g1], and the same boundary nodes. *)
Definition has_more_edges (g1 g2 : ugraph RN) : Prop := incl (edges g1) (edges g2) /\ forall v, In v (bnodes g1) <-> In v (bnodes g2).
