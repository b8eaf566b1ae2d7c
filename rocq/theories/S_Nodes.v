(** Specification of the nodes on a shortest path. *)
From Coq Require Import Reals ZArith List Bool Arith.
From Verif Require Import M_Merge M_UserGraph S_UserGraph S_Pipeline M_Matching S_Matching M_Nodes.
Import ListNotations.
Local Open Scope nat_scope.

(** [es] leads from [u] by way of the nodes [vs], the last of which is the destination [Some v], or from the last of which a boundary
    edge leads to the destination [None].  Between two nodes neither of which is a boundary node, every edge is one that joins them. *)
Fixpoint route (g : ugraph RN) (u : nat) (vs : list nat) (x : option nat) (es : list (uedge RN)) : Prop :=
  match vs, es with
  | [], [] => x = Some u
  | [], [e] => x = None /\ In e (edges g) /\ shows g (u, None) e
  | v :: vs', e :: es' => In e (edges g) /\ shows g (u, Some v) e /\ route g v vs' x es'
  | _, _ => False
  end.
(** [F] is no heavier than [F'], up to half a step for every edge of the two, and exactly if all weights are integers. *)
Definition no_heavier (g : ugraph RN) (F F' : list (uedge RN)) : Prop :=
  (forall M, (forall e, In e (edges g) -> Rabs (weight e) <= M)%R -> total_weight F <= total_weight F' + INR (length F + length F') * half_step M)%R /\
  ((forall e, In e (edges g) -> exists z, weight e = IZR z) -> total_weight F <= total_weight F')%R.
(** The nodes of a shortest path from [a], in order, [a] first; boundary nodes are left out. *)
Definition shortest (g : ugraph RN) (a : nat) (x : option nat) (l : list nat) : Prop :=
  exists vs es, l = a :: vs /\ route g a vs x es /\ forall vs' es', route g a vs' x es' -> no_heavier g es es'.

(** What is asked for: a path from node [a] to [x], a node or the boundary, and whether it has to be turned round. *)
Definition asks_path (g : ugraph RN) (src dst : option nat) (a : nat) (x : option nat) (turned : bool) : Prop :=
  (turned = false /\ src = Some a /\ ~ In a (bnodes g) /\ ((at_boundary g dst /\ x = None) \/ (~ at_boundary g dst /\ x = dst))) \/
  (turned = true /\ dst = Some a /\ ~ In a (bnodes g) /\ at_boundary g src /\ x = None).
Definition present (g : ugraph RN) (x : option nat) : Prop := match x with Some v => v < num_nodes g | None => True end.

(** What can be asked: nodes of the graph, between which there is a path, of a graph without negative weights. *)
Definition fair_nodes (g : ugraph RN) (c : ncall) : Prop :=
  match c with
  | Call c => fair g c
  | PathNodes src dst => present g src /\ present g dst /\ fault_ids_in_range g /\ scalable g /\ (forall e, In e (edges g) -> (0 <= weight e)%R) /\
      forall a x t, asks_path g src dst a x t -> x <> Some a /\ exists vs es, route g a vs x es
  end.
Definition right_nodes (g : ugraph RN) (c : ncall) (r : nreply) : Prop :=
  match c with
  | Call c => exists r0, r = Reply r0 /\ right g c r0
  | PathNodes src dst =>
      (forall a x t, asks_path g src dst a x t -> exists l, r = NodeList (if t then rev l else l) /\ shortest g a x l) /\
      (at_boundary g src -> at_boundary g dst -> r = NodesRaised)
  end.
Definition after_n (g : ugraph RN) (c : ncall) : ugraph RN := match c with Call c => after g c | PathNodes _ _ => g end.

(** Every call of a series, judged on the graph at that time. *)
Fixpoint all_fair_n (g : ugraph RN) (cs : list ncall) : Prop :=
  match cs with [] => True | c :: cs' => fair_nodes g c /\ all_fair_n (after_n g c) cs' end.
Fixpoint all_right_n (g : ugraph RN) (cs : list ncall) (rs : list nreply) : Prop :=
  match cs, rs with
  | [], [] => True
  | c :: cs', r :: rs' => right_nodes g c r /\ all_right_n (after_n g c) cs' rs'
  | _, _ => False
  end.
