(** Specification of the decoding problem, independent of the decoder.

    A matching graph is a list of neighbour lists (see M_Core.v: entry (neighbour or boundary, weight,
    observables)).  A correction is a list of its edges; it explains a syndrome if the detectors of odd
    degree are exactly the detection events. *)
From Coq Require Import ZArith NArith List Bool Arith.
From Verif Require Import M_Core.
Import ListNotations.

(** Graphs as they are built by MatchingGraph::add_edge / add_boundary_edge from a graph without parallel
    edges: even non-negative weights, each edge stored at both ends, no loops, the boundary first. *)
Record wf_graph (G : graph) : Prop := {
  wf_weight : forall u x w o, In (x, w, o) (nbrs G u) -> (0 <= w)%Z /\ Z.even w = true;
  wf_sym : forall u v w o, In (Some v, w, o) (nbrs G u) -> In (Some u, w, o) (nbrs G v);
  wf_noloop : forall u w o, ~ In (Some u, w, o) (nbrs G u);
  wf_simple : forall u, NoDup (map (fun e => fst (fst e)) (nbrs G u));
  wf_boundary_first : forall u e rest, nbrs G u = e :: rest -> forall w o, ~ In (None, w, o) rest }.

(** An undirected edge: smaller endpoint, other endpoint or boundary, weight, observables. *)
Definition edge : Type := nat * option nat * Z * N.
Definition is_edge (G : graph) (e : edge) : Prop :=
  let '(u, x, w, o) := e in
  In (x, w, o) (nbrs G u) /\ match x with Some v => u < v | None => True end.

(** Number of ends of edges of [F] at detector [v]. *)
Definition ends_at (v : nat) (e : edge) : nat :=
  let '(u, x, _, _) := e in
  (if u =? v then 1 else 0) + match x with Some v' => if v' =? v then 1 else 0 | None => 0 end.
Fixpoint degree (v : nat) (F : list edge) : nat :=
  match F with [] => 0 | e :: F' => ends_at v e + degree v F' end.
Fixpoint weight_of (F : list edge) : Z :=
  match F with [] => 0%Z | (_, _, w, _) :: F' => (w + weight_of F')%Z end.
Fixpoint obs_of (F : list edge) : N :=
  match F with [] => 0%N | (_, _, _, o) :: F' => N.lxor o (obs_of F') end.

(** [F] (a list of edges, possibly with repetitions) explains the detection events [evs]. *)
Definition explains (G : graph) (F : list edge) (evs : list nat) : Prop :=
  Forall (is_edge G) F /\ forall v, Nat.odd (degree v F) = true <-> In v evs.

(** Paths through the graph (edges may repeat), with total weight and observables. *)
Inductive walk (G : graph) (u : nat) : nat -> Z -> N -> Prop :=
| walk_nil : walk G u u 0 0
| walk_step : forall v l o x w ob,
    walk G u v l o -> In (Some x, w, ob) (nbrs G v) -> walk G u x (l + w) (N.lxor o ob).
(** A path from a detector to a detector, or to the boundary. *)
Definition path (G : graph) (u : nat) (x : option nat) (l : Z) (o : N) : Prop :=
  match x with
  | Some v => walk G u v l o
  | None => exists v l' o' w ob, walk G u v l' o' /\ In (None, w, ob) (nbrs G v) /\ l = (l' + w)%Z /\ o = N.lxor o' ob
  end.
