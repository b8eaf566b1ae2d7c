(** Specification of the two ways to load a check matrix: with a virtual boundary, or with a boundary node. *)
From Coq Require Import Reals ZArith List Bool Arith.
From Verif Require Import M_Merge M_UserGraph S_UserGraph.
Import ListNotations.
Local Open Scope nat_scope.

(** The edge, with node [n] in place of the virtual boundary. *)
Definition to_node {N : numops} (n : nat) (e : uedge N) : uedge N :=
  mkE (node1 e) (Some (match node2 e with Some v => v | None => n end)) (obs e) (weight e) (prob e).
(** [gv] has the nodes below [n], and a virtual boundary.  [gb] has the same edges in the same order, with node [n] in place of the virtual
    boundary.  Node [n] is there, and is the only boundary node, if and only if an edge leads to the boundary. *)
Record same_layout {N : numops} (n : nat) (gv gb : ugraph N) : Prop := {
  l_edges : edges gb = map (to_node n) (edges gv);
  l_below : forall e, In e (edges gv) -> node1 e < n /\ forall v, node2 e = Some v -> v < n;
  l_nodes : num_nodes gv = n;
  l_virtual : bnodes gv = [];
  l_with : (exists e, In e (edges gv) /\ node2 e = None) -> num_nodes gb = S n /\ bnodes gb = [n];
  l_without : ~ (exists e, In e (edges gv) /\ node2 e = None) -> num_nodes gb = n /\ bnodes gb = [];
  l_nobs : nobs gb = nobs gv;
  l_allp : allp gb = allp gv }.
(** The same events at the nodes below [n]. *)
Definition events_below (n : nat) (P1 P2 : nat -> Prop) : Prop := forall v, v < n -> (P1 v <-> P2 v).
