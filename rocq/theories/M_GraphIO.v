(** Model of reading and writing networkx and rustworkx graphs (src/pymatching/matching.py:1488-1570 and 1581-1734,
    driver/user_graph.pybind.cc:364-385).

    Graphs come as what iterating over them yields: nodes with the value of the attribute "is_boundary", and edges with dictionaries of attributes.  Node labels are
    ints; other labels are not modelled.  Weights and probabilities are those of M_UserGraph.v.  A ValueError, a TypeError, and an exception of the C++
    code or of the conversion to its types are all [Throw].  Deprecated names and warnings are left out. *)
From Coq Require Import Arith ZArith List Bool.
From Verif Require Import M_Base M_UserGraph.
Import ListNotations.
Local Open Scope outcome_scope.

(** The value of "fault_ids" or "qubit_id": an int, something that can be made a set of ints, or anything else. *)
Inductive ids := IdInt (z : Z) | IdSet (l : list Z) | IdOther.

(** A set of integers, as an ordered list. *)
Fixpoint set_insert (x : nat) (l : list nat) : list nat :=
  match l with
  | [] => [x]
  | y :: l' => if x <? y then x :: l else if x =? y then l else y :: set_insert x l'
  end.
Definition set_of (l : list nat) : list nat := fold_right set_insert [] l.
(** An int as a size_t: pybind11 refuses negative ones (those that are too large are not modelled). *)
Definition as_size (z : Z) : outcome nat := if (z <? 0)%Z then Throw else Ok (Z.to_nat z).
Fixpoint as_sizes (l : list Z) : outcome (list nat) :=
  match l with [] => Ok [] | z :: l' => x <-- as_size z ;; xs <-- as_sizes l' ;; Ok (x :: xs) end.

Section GraphIO.
Variables (N : numops) (one : num N).

(** The dictionary of an edge; other keys are ignored. *)
Record attrs := mkA { a_fault_ids : option ids; a_qubit_id : option ids; a_weight : option (num N); a_prob : option (num N) }.
(** What graph.nodes(data=True) and graph.edges(data=True) yield, or node_indices() and weighted_edge_list(). *)
Record pygraph := mkPy { py_nodes : list (Z * bool); py_edges : list (Z * Z * attrs) }.

(** ** Reading *)
(** matching.py:1554-1564 and 1644-1654 *)
Definition read_ids (i : ids) : outcome (list nat) :=
  match i with
  | IdInt z => if (z =? -1)%Z then Ok [] else as_sizes [z]
  | IdSet l => xs <-- as_sizes l ;; Ok (set_of xs)
  | IdOther => Throw
  end.
(** matching.py:1546-1553 and 1636-1643 *)
Definition fault_ids_of (a : attrs) : outcome (list nat) :=
  match a_fault_ids a, a_qubit_id a with
  | Some _, Some _ => Throw
  | None, Some i | Some i, None => read_ids i
  | None, None => Ok []
  end.
(** matching.py:1545-1569 and 1635-1658: one edge *)
Definition read_edge (g : ugraph N) (x : Z * Z * attrs) : outcome (ugraph N) :=
  let '(u, v, a) := x in
  o <-- fault_ids_of a ;;
  u' <-- as_size u ;;
  v' <-- as_size v ;;
  let '(g', raised) := py_add g u' (Some v') o (match a_weight a with Some w => w | None => one end) (match a_prob a with Some p => p | None => p_none N end) SMALLEST_WEIGHT in
  if raised then Throw else Ok g'.
Fixpoint read_edges (g : ugraph N) (l : list (Z * Z * attrs)) : outcome (ugraph N) :=
  match l with [] => Ok g | x :: l' => g' <-- read_edge g x ;; read_edges g' l' end.
(** matching.py:1537-1570 load_from_networkx, 1629-1659 load_from_rustworkx *)
Definition read_graph (G : pygraph) (min_num_fault_ids : option nat) : outcome (ugraph N) :=
  b <-- as_sizes (map fst (filter snd (py_nodes G))) ;;
  read_edges (set_boundary (new_graph N (length (py_nodes G)) (match min_num_fault_ids with Some k => k | None => 0 end)) (set_of b)) (py_edges G).

(** ** Writing *)
(** user_graph.pybind.cc:364-385 get_edges *)
Definition edge_attrs (e : uedge N) : attrs :=
  mkA (Some (IdSet (map Z.of_nat (set_of (obs e))))) None (Some (weight e)) (Some (if p_outside N (prob e) then p_none N else prob e)).
(** The virtual boundary is written as one more node (matching.py:1675-1680, 1720-1725). *)
Definition written_edge (n : nat) (e : uedge N) : nat * nat * attrs := (node1 e, match node2 e with Some v => v | None => n end, edge_attrs e).
Definition has_virtual_boundary (g : ugraph N) : bool := existsb (fun e => match node2 e with None => true | Some _ => false end) (edges g).
Definition mem (x : nat) (l : list nat) : bool := existsb (Nat.eqb x) l.
Definition written_node (g : ugraph N) (i : nat) : Z * bool := (Z.of_nat i, mem i (bnodes g) || (has_virtual_boundary g && (i =? num_nodes g))).

(** An edge between the same two nodes. *)
Definition same_link (u v : nat) (x : nat * nat * attrs) : bool := let '(a, b, _) := x in ((a =? u) && (b =? v)) || ((a =? v) && (b =? u)).
(** Adding an edge to a graph without parallel edges: one that is there gets the new attributes. *)
Definition link (l : list (nat * nat * attrs)) (x : nat * nat * attrs) : list (nat * nat * attrs) :=
  let '(u, v, a) := x in
  if existsb (same_link u v) l then map (fun y => if same_link u v y then (fst y, a) else y) l else l ++ [x].

(** networkx.Graph: nodes in the order in which they were added; the edges of each node in the order in which they were added. *)
Definition touch (l : list nat) (u : nat) : list nat := if mem u l then l else l ++ [u].
Definition nx_nodes (l : list (nat * nat * attrs)) : list nat := fold_left (fun ns x => let '(u, v, _) := x in touch (touch ns u) v) l [].
(** networkx.Graph.edges: for each node the edges to nodes not seen before *)
Fixpoint nx_edges (seen order : list nat) (links : list (nat * nat * attrs)) : list (nat * nat * attrs) :=
  match order with
  | [] => []
  | n :: order' =>
      flat_map (fun x => let '(a, b, y) := x in
                         if a =? n then (if mem b seen then [] else [(n, b, y)])
                         else if b =? n then (if mem a seen then [] else [(n, a, y)]) else []) links
      ++ nx_edges (n :: seen) order' links
  end.
Definition listed (x : nat * nat * attrs) : Z * Z * attrs := let '(u, v, a) := x in (Z.of_nat u, Z.of_nat v, a).
(** matching.py:1672-1687 to_networkx *)
Definition to_networkx (g : ugraph N) : pygraph :=
  let es := map (written_edge (num_nodes g)) (edges g) in
  let order := nx_nodes es in
  mkPy (map (written_node g) order) (map listed (nx_edges [] order (fold_left link es []))).
(** matching.py:1716-1734 to_rustworkx; weighted_edge_list lists edges as they were added *)
Definition to_rustworkx (g : ugraph N) : pygraph :=
  let es := map (written_edge (num_nodes g)) (edges g) in
  let size := num_nodes g + (if has_virtual_boundary g then 1 else 0) in
  mkPy (map (written_node g) (seq 0 size)) (map listed (fold_left link es [])).
End GraphIO.
Arguments mkA {N}. Arguments a_fault_ids {N}. Arguments a_qubit_id {N}. Arguments a_weight {N}. Arguments a_prob {N}.
Arguments mkPy {N}. Arguments py_nodes {N}. Arguments py_edges {N}.
Arguments fault_ids_of {N}. Arguments read_edge {N}. Arguments read_edges {N}. Arguments read_graph {N}.
Arguments edge_attrs {N}. Arguments written_edge {N}. Arguments has_virtual_boundary {N}. Arguments written_node {N}. Arguments same_link {N}. Arguments link {N}.
Arguments nx_nodes {N}. Arguments nx_edges {N}. Arguments listed {N}. Arguments to_networkx {N}. Arguments to_rustworkx {N}.
