(** Model of the user-facing graph (driver/user_graph.{h,cc}, driver/user_graph.pybind.cc).

    Numbers: weights and probabilities are C++ doubles. The code in this file only uses the few
    operations of the record [numops]; the model is parametric in them, so the theorems hold for IEEE
    doubles, for reals, for integers, ... Laws are stated where a theorem needs them. *)
From Coq Require Import Arith List Bool.
From Verif Require Import M_Base.
Import ListNotations.

Record numops := {
  num : Type;
  w_ge : num -> num -> bool;        (* a >= b *)
  w_merge : num -> num -> num;      (* pm::merge_weights, user_graph.cc:33-37 *)
  w_exceeds : num -> bool;          (* std::abs(weight) > MAX_USER_EDGE_WEIGHT *)
  p_valid : num -> bool;            (* is_valid_probability, user_graph.cc:58-60: p >= 0 && p <= 1 *)
  p_outside : num -> bool;          (* p < 0 || p > 1 *)
  p_xor : num -> num -> num;        (* p * (1 - q) + q * (1 - p), first argument the new edge's *)
  p_none : num                      (* -1 *)
}.

Section UserGraph.
Variable N : numops.
Notation num := (num N).

(** user_graph.h:35-42 UserEdge; node2 = None stands for SIZE_MAX (the virtual boundary).
    implied_weights_for_other_edges is filled only when loading with correlations (M_Dem). *)
Record uedge := mkE { node1 : nat; node2 : option nat; obs : list nat; weight : num; prob : num }.

(** user_graph.h:44-55 UserNeighbor / UserNode. An iterator into the std::list of edges is the position
    of the edge (edges are never erased or reordered). pos = true is 1, pos = false is 0. *)
Record unode := mkN { nbrs : list (nat * bool); is_bd : bool }.

(** user_graph.h:61-137 UserGraph, without the cached decoder (see M_Cache in this file's end).
    boundary_nodes is the std::set as a list. *)
Record ugraph := mkG { nodes : list unode; edges : list uedge; bnodes : list nat; nobs : nat; allp : bool; needs : bool }.

(** user_graph.h:59 *)
Inductive strategy := DISALLOW | INDEPENDENT | SMALLEST_WEIGHT | KEEP_ORIGINAL | REPLACE.

Definition opt_eqb (a b : option nat) : bool :=
  match a, b with Some x, Some y => x =? y | None, None => true | _, _ => false end.

(** user_graph.cc:42-50: the lambda of index_of_neighbor. *)
Definition nbr_is (es : list uedge) (target : option nat) (nb : nat * bool) : bool :=
  match nth_error es (fst nb) with
  | Some e => if snd nb then opt_eqb (node2 e) target else opt_eqb (Some (node1 e)) target
  | None => false
  end.

(** user_graph.cc:42-56 UserNode::index_of_neighbor; None stands for SIZE_MAX. *)
Fixpoint index_of_neighbor (es : list uedge) (l : list (nat * bool)) (target : option nat) : option nat :=
  match l with
  | [] => None
  | nb :: l' => if nbr_is es target nb then Some 0
                else match index_of_neighbor es l' target with Some k => Some (S k) | None => None end
  end.

(** nodes.resize(k) when k is larger (user_graph.cc:118-120). *)
Definition resize (ns : list unode) (k : nat) : list unode := ns ++ repeat (mkN [] false) (k - length ns).

Fixpoint upd_nth {A} (l : list A) (i : nat) (f : A -> A) : list A :=
  match l, i with
  | [], _ => []
  | a :: l', O => f a :: l'
  | a :: l', S i' => a :: upd_nth l' i' f
  end.

Definition node_at (ns : list unode) (u : nat) : unode := nth u ns (mkN [] false).

(** user_graph.cc:62-109 merge_edge_or_boundary_edge on the edge at position [i]; the result is the new
    graph and whether an exception was thrown (the graph is in its state at the throw). *)
Definition merge_edge (g : ugraph) (i : nat) (o : list nat) (w p : num) (s : strategy) : ugraph * bool :=
  match nth_error (edges g) i with
  | None => (g, false)
  | Some e =>
      let store (f : uedge -> uedge) (newp : num) :=
        (mkG (nodes g) (upd_nth (edges g) i f) (bnodes g) (nobs g)
             (if p_outside N newp then false else allp g) true, false) in
      match s with
      | DISALLOW => (g, true)
      | KEEP_ORIGINAL => (g, false)
      | SMALLEST_WEIGHT =>
          if w_ge N w (weight e) then (g, false)
          else store (fun e => mkE (node1 e) (node2 e) o w p) p
      | REPLACE => store (fun e => mkE (node1 e) (node2 e) o w p) p
      | INDEPENDENT =>
          let nw := w_merge N w (weight e) in
          let np := if p_valid N (prob e) && p_valid N p then p_xor N p (prob e) else p_none N in
          store (fun e => mkE (node1 e) (node2 e) (obs e) nw np) np
      end
  end.

(** user_graph.cc:128-131: largest observable index + 1. *)
Definition raise_nobs (n : nat) (o : list nat) : nat := fold_left (fun n x => if n <? x + 1 then x + 1 else n) o n.

(** user_graph.cc:111-141 add_or_merge_edge (v = Some node2) and 143-169 add_or_merge_boundary_edge
    (v = None). Node indices come from non-negative int64 values (user_graph.pybind.cc:103-104), hence
    are never SIZE_MAX. *)
Definition add_or_merge (g : ugraph) (u : nat) (v : option nat) (o : list nat) (w p : num) (s : strategy) : ugraph * bool :=
  let m := match v with Some v => Nat.max u v | None => u end in
  let ns := resize (nodes g) (m + 1) in
  match index_of_neighbor (edges g) (nbrs (node_at ns u)) v with
  | None =>
      let k := length (edges g) in
      let ns1 := upd_nth ns u (fun x => mkN (nbrs x ++ [(k, true)]) (is_bd x)) in
      let ns2 := match v with
                 | Some v => if u =? v then ns1 else upd_nth ns1 v (fun x => mkN (nbrs x ++ [(k, false)]) (is_bd x))
                 | None => ns1
                 end in
      (mkG ns2 (edges g ++ [mkE u v o w p]) (bnodes g) (raise_nobs (nobs g) o)
           (if p_outside N p then false else allp g) true, false)
  | Some idx =>
      merge_edge (mkG ns (edges g) (bnodes g) (nobs g) (allp g) (needs g))
                 (fst (nth idx (nbrs (node_at ns u)) (0, true))) o w p s
  end.

(** user_graph.pybind.cc:91-152: the Python add_edge / add_boundary_edge; out-of-range weights are
    skipped with a warning. Negative node indices (which throw) are excluded by the type. *)
Definition py_add (g : ugraph) (u : nat) (v : option nat) (o : list nat) (w p : num) (s : strategy) : ugraph * bool :=
  if w_exceeds N w then (g, false) else add_or_merge g u v o w p s.

(** user_graph.cc:171-183: constructors. *)
Definition new_graph (num_nodes num_observables : nat) : ugraph :=
  mkG (repeat (mkN [] false) num_nodes) [] [] num_observables true true.

Definition set_flag (b : bool) (ns : list unode) (u : nat) : list unode := upd_nth ns u (fun x => mkN (nbrs x) b).

(** user_graph.cc:185-195 set_boundary; the argument is a std::set, i.e. a duplicate-free list. *)
Definition set_boundary (g : ugraph) (b : list nat) : ugraph :=
  let ns1 := fold_left (set_flag false) (bnodes g) (nodes g) in
  let ns2 := fold_left (fun ns u => set_flag true (if length ns <=? u then resize ns (u + 1) else ns) u) b ns1 in
  mkG ns2 (edges g) b (nobs g) (allp g) true.

(** user_graph.cc:393-397, 399-403, 405-415 *)
Definition has_edge (g : ugraph) (u : nat) (v : option nat) : bool :=
  if length (nodes g) <=? u then false
  else match index_of_neighbor (edges g) (nbrs (node_at (nodes g) u)) v with Some _ => true | None => false end.

(** user_graph.pybind.cc:388-425 get_edge_data / get_boundary_edge_data: None when it throws. *)
Definition get_edge_data (g : ugraph) (u : nat) (v : option nat) : option (list nat * num * num) :=
  if length (nodes g) <=? u then None
  else match index_of_neighbor (edges g) (nbrs (node_at (nodes g) u)) v with
       | None => None
       | Some idx => match nth_error (edges g) (fst (nth idx (nbrs (node_at (nodes g) u)) (0, true))) with
                     | Some e => Some (obs e, weight e, prob e)
                     | None => None
                     end
       end.

(** user_graph.cc:417-420 *)
Definition set_min_num_observables (g : ugraph) (n : nat) : ugraph :=
  mkG (nodes g) (edges g) (bnodes g) (if nobs g <? n then n else nobs g) (allp g) (needs g).

(** user_graph.cc:201-215 *)
Definition num_nodes (g : ugraph) : nat := length (nodes g).
Definition num_edges (g : ugraph) : nat := length (edges g).
Definition num_detectors (g : ugraph) : nat := num_nodes g - length (bnodes g).
Definition is_boundary_node (g : ugraph) (v : option nat) : bool :=
  match v with None => true | Some v => is_bd (node_at (nodes g) v) end.

(** A sequence of API calls that modify the graph; an exception leaves the graph as it was at the throw. *)
Inductive op :=
| OpAdd (u : nat) (v : option nat) (o : list nat) (w p : num) (s : strategy)
| OpSetBoundary (b : list nat)
| OpMinObs (n : nat).

Definition apply_op (g : ugraph) (x : op) : ugraph :=
  match x with
  | OpAdd u v o w p s => fst (py_add g u v o w p s)
  | OpSetBoundary b => set_boundary g b
  | OpMinObs n => set_min_num_observables g n
  end.

Definition run (g : ugraph) (ops : list op) : ugraph := fold_left apply_op ops g.

(** Caching of the decoder (user_graph.cc:212-226, 323-347). [build g s] stands for
    to_mwpm(NUM_DISTINCT_WEIGHTS, s), a function of the graph; the result has a search graph when it was
    asked for or when there are more than 64 observables; its search graph has as many nodes as the
    matching graph exactly when it is included or the graph has no nodes. *)
Section Cache.
Variable M : Type.
Variable build : ugraph -> bool -> M.

Record cached := mkC { graph : ugraph; mwpm : option (M * nat * bool) }.
  (* decoder, number of nodes of its matching graph, search graph included *)

Definition to_mwpm (g : ugraph) (ensure_search : bool) : M * nat * bool :=
  (build g ensure_search, num_nodes g, (64 <? nobs g) || ensure_search).

Definition clear_needs (g : ugraph) : ugraph := mkG (nodes g) (edges g) (bnodes g) (nobs g) (allp g) false.

(** user_graph.cc:217-226 get_mwpm *)
Definition get_mwpm (c : cached) : cached * M * bool :=
  match needs (graph c), mwpm c with
  | false, Some (m, n, s) => (c, m, s)
  | _, _ => let '(m, n, s) := to_mwpm (graph c) false in (mkC (clear_needs (graph c)) (Some (m, n, s)), m, s)
  end.

(** user_graph.cc:339-347 get_mwpm_with_search_graph *)
Definition get_mwpm_with_search (c : cached) : cached * M * bool :=
  match needs (graph c), mwpm c with
  | false, Some (m, n, s) =>
      if s || (n =? 0) then (c, m, s)
      else let '(m, n, s) := to_mwpm (graph c) true in (mkC (clear_needs (graph c)) (Some (m, n, s)), m, s)
  | _, _ => let '(m, n, s) := to_mwpm (graph c) true in (mkC (clear_needs (graph c)) (Some (m, n, s)), m, s)
  end.

Inductive cop := CMod (x : op) | CDecode (search : bool).
Definition apply_cop (c : cached) (x : cop) : cached :=
  match x with
  | CMod x => mkC (apply_op (graph c) x) (mwpm c)
  | CDecode true => fst (fst (get_mwpm_with_search c))
  | CDecode false => fst (fst (get_mwpm c))
  end.
Definition crun (c : cached) (ops : list cop) : cached := fold_left apply_cop ops c.
End Cache.
End UserGraph.

Arguments mkE {N}. Arguments node1 {N}. Arguments node2 {N}. Arguments obs {N}. Arguments weight {N}. Arguments prob {N}.
Arguments mkG {N}. Arguments nodes {N}. Arguments edges {N}. Arguments bnodes {N}. Arguments nobs {N}.
Arguments allp {N}. Arguments needs {N}.
Arguments nbr_is {N}. Arguments index_of_neighbor {N}.
Arguments merge_edge {N}. Arguments add_or_merge {N}. Arguments py_add {N}. Arguments set_boundary {N}.
Arguments has_edge {N}. Arguments get_edge_data {N}. Arguments set_min_num_observables {N}.
Arguments num_nodes {N}. Arguments num_edges {N}. Arguments num_detectors {N}. Arguments is_boundary_node {N}.
Arguments OpAdd {N}. Arguments OpSetBoundary {N}. Arguments OpMinObs {N}. Arguments apply_op {N}. Arguments run {N}.
Arguments mkC {N M}. Arguments graph {N M}. Arguments mwpm {N M}. Arguments to_mwpm {N M}.
Arguments clear_needs {N}. Arguments get_mwpm {N M}. Arguments get_mwpm_with_search {N M}.
Arguments CMod {N}. Arguments CDecode {N}. Arguments apply_cop {N M}. Arguments crun {N M}.
