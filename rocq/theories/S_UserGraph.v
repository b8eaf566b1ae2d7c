(** Specifications for the user graph. *)
From Coq Require Import Arith List Bool.
From Verif Require Import M_UserGraph.
Import ListNotations.

Section Spec.
Context {N : numops}.

(** Edge [e] joins [u] and [v], in either orientation ([None] is the virtual boundary). *)
Definition joins (e : uedge N) (u : nat) (v : option nat) : Prop :=
  (node1 e = u /\ node2 e = v) \/ (v = Some (node1 e) /\ node2 e = Some u).

(** At most one edge per unordered pair. *)
Definition simple (g : ugraph N) : Prop :=
  forall i j e e', nth_error (edges g) i = Some e -> nth_error (edges g) j = Some e' ->
    joins e (node1 e') (node2 e') -> i = j.

(** The pair [u], [v] was the argument of one of the calls (with a weight in range). *)
Definition added (ops : list (op N)) (u : nat) (v : option nat) : Prop :=
  exists u' v' o w p s, In (OpAdd u' v' o w p s) ops /\ w_exceeds N w = false /\
    ((u' = u /\ v' = v) \/ (v = Some u' /\ v' = Some u)).

(** Number of nodes needed by one call: one more than the largest node it names. *)
Definition nodes_needed (x : op N) : nat :=
  match x with
  | OpAdd u v _ w _ _ =>
      if w_exceeds N w then 0 else match v with Some v => S (Nat.max u v) | None => S u end
  | OpSetBoundary b => fold_right (fun u k => Nat.max (S u) k) 0 b
  | OpMinObs _ => 0
  end.

(** The attributes of the (first) edge joining u and v. *)
Definition attributes_of (e : uedge N) : list nat * num N * num N := (obs e, weight e, prob e).

(** The graph [g'] is [g] except for the attributes of the edge joining [u] and [v], which become [a]. *)
Definition only_edge_changed (g g' : ugraph N) (u : nat) (v : option nat) (a : list nat * num N * num N) : Prop :=
  nodes g' = nodes g /\ bnodes g' = bnodes g /\ nobs g' = nobs g /\ length (edges g') = length (edges g) /\
  forall i e, nth_error (edges g) i = Some e ->
    exists e', nth_error (edges g') i = Some e' /\ node1 e' = node1 e /\ node2 e' = node2 e /\
      ((joins e u v /\ attributes_of e' = a) \/ (~ joins e u v /\ e' = e)).

(** Every fault id carried by an edge is below num_fault_ids. *)
Definition fault_ids_in_range (g : ugraph N) : Prop :=
  forall e x, In e (edges g) -> In x (obs e) -> x < nobs g.

(** Every edge has a probability. *)
Definition every_edge_has_probability (g : ugraph N) : Prop :=
  forall e, In e (edges g) -> p_valid N (prob e) = true.

(** Two graphs agree on everything a decoder is built from, except the number of observables. *)
Definition same_structure (g g' : ugraph N) : Prop :=
  nodes g' = nodes g /\ edges g' = edges g /\ bnodes g' = bnodes g.
(** The call does not overwrite an edge's fault ids with ids that are too large: calls that may replace
    attributes (replace, smallest-weight) only use fault ids below the current num_fault_ids. *)
Definition safe_op (g : ugraph N) (x : op N) : Prop :=
  match x with
  | OpAdd u v o w p s => (s = REPLACE \/ s = SMALLEST_WEIGHT) -> forall y, In y o -> y < nobs g
  | _ => True
  end.

(** All calls of a sequence, each judged in the graph it is applied to. *)
Fixpoint safe_ops (g : ugraph N) (ops : list (op N)) : Prop :=
  match ops with [] => True | x :: ops' => safe_op g x /\ safe_ops (apply_op g x) ops' end.

(** The call supplies a probability. *)
Definition op_prob_ok (x : op N) : Prop :=
  match x with OpAdd _ _ _ _ p _ => p_valid N p = true | _ => True end.

End Spec.
