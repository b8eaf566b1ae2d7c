(** Specification of a shortest-path query. *)
From Coq Require Import ZArith NArith List Bool Arith.
From Verif Require Import M_Tracker M_Core S_Core M_Search.
Import ListNotations.
Local Open Scope nat_scope.

(** A search flooder at rest: no node reached or waiting, empty queue, clock at zero. *)
Record search_idle (s : search) : Prop := {
  si_nodes : forall v, sfrom s v = None /\ spre s v = None /\ has_desired (strk s v) = false /\ has_queued (strk s v) = false;
  si_queue : sque s = [];
  si_now : snow s = 0%Z;
  si_reached : sreached s = [] }.

(** The cells (node, neighbour index) [l] lead, one after the other, from the node [u] to [x]: a node, or
    the boundary. *)
Fixpoint leads (G : graph) (u : nat) (l : list (nat * nat)) (x : option nat) : Prop :=
  match l with
  | [] => x = Some u
  | (v, i) :: l' => v = u /\
      match nth_error (nbrs G u) i with
      | Some (Some u', _, _) => leads G u' l' x
      | Some (None, _, _) => l' = [] /\ x = None
      | None => False
      end
  end.
(** A cell that exists. *)
Definition is_cell (G : graph) (c : nat * nat) : Prop := nth_error (nbrs G (fst c)) (snd c) <> None.
(** The undirected edge of a cell. *)
Definition edge_at (G : graph) (c : nat * nat) : edge :=
  let '(v, i) := c in
  match nth_error (nbrs G v) i with
  | Some (Some u, w, o) => if v <? u then (v, Some u, w, o) else (u, Some v, w, o)
  | Some (None, w, o) => (v, None, w, o)
  | None => (0, None, 0%Z, 0%N)
  end.
Definition edges_at (G : graph) (l : list (nat * nat)) : list edge := map (edge_at G) l.
(** A query: a node of the graph and another one, or the boundary. *)
Definition valid_query (G : graph) (a : nat) (b : option nat) : Prop :=
  a < length G /\ match b with Some d => d < length G /\ d <> a | None => True end.
Definition connected (G : graph) (a : nat) (b : option nat) : Prop := exists w o, path G a b w o.
