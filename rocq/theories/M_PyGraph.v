(** Model of the methods of the Python class Matching that make and inspect a graph (src/pymatching/matching.py:668-929 and 1736-1839,
    driver/user_graph.pybind.cc:72-176, 364-428).

    Python ints are integers, the name of a merge strategy is the strategy or [None] if there is none of that name.  Weights and probabilities are those of
    M_UserGraph.v.  A ValueError, a TypeError, a MemoryError and an exception of the C++ code are all [Raised].  Warnings and other keyword arguments are left out.  There is memory for [cap] nodes; no other
    allocation fails.  The successor of fault id 2^64-1, which is 0 in user_graph.cc:131-134, is taken to be 2^64 (see [plain] in S_PyGraph.v). *)
From Coq Require Import Arith ZArith List Bool.
From Verif Require Import M_Base M_UserGraph M_GraphIO.
Import ListNotations.
Local Open Scope outcome_scope.

(** pybind11's conversions of an int to int64_t and size_t, of a set of ints to std::set<size_t> (in order); others are refused. *)
Definition int64_arg (z : Z) : outcome Z := if ((- 2 ^ 63 <=? z) && (z <? 2 ^ 63))%Z then Ok z else Throw.
Definition size_arg (z : Z) : outcome Z := if ((0 <=? z) && (z <? 2 ^ 64))%Z then Ok z else Throw.
Fixpoint size_args (l : list Z) : outcome (list nat) :=
  match l with [] => Ok [] | z :: l' => x <-- size_arg z ;; xs <-- size_args l' ;; Ok (Z.to_nat x :: xs) end.
Definition set_arg (i : ids) : outcome (list nat) := match i with IdSet l => xs <-- size_args l ;; Ok (set_of xs) | _ => Throw end.

(** matching.py:751-753, 830-832: None, an int, or something else that is passed on *)
Definition ids_arg (i : option ids) : outcome (list nat) :=
  match i with
  | None => Ok []
  | Some (IdInt z) => if (z =? -1)%Z then Ok [] else set_arg (IdSet [z])
  | Some i => set_arg i
  end.

Section PyGraph.
Variables (N : numops) (cap : nat).

Inductive pycall :=
| AddEdge (u v : Z) (fault_ids : option ids) (qubit_id : option (option ids)) (w : num N) (p : option (num N)) (s : option strategy)
| AddBoundaryEdge (u : Z) (fault_ids : option ids) (qubit_id : option (option ids)) (w : num N) (p : option (num N)) (s : option strategy)
| SetBoundaryNodes (b : ids)
| EnsureNumFaultIds (n : Z)
| HasEdge (u v : Z)
| HasBoundaryEdge (u : Z)
| GetEdgeData (u v : Z)
| GetBoundaryEdgeData (u : Z)
| Edges
| Boundary
| NumNodes
| NumEdges
| NumDetectors
| NumFaultIds.

(** Sets of ints are ordered lists without repetitions. *)
Inductive pyreply :=
| Undefined (* undefined behaviour *)
| Done
| Raised
| Truth (b : bool)
| Data (o : list nat) (w p : num N)
| EdgeList (l : list (nat * option nat * (list nat * num N * num N)))
| Nodes (l : list nat)
| Count (n : nat).

Definition prob_arg (p : option (num N)) : num N := match p with Some p => p | None => p_none N end.

(** user_graph.pybind.cc:91-118 add_edge and 125-148 add_boundary_edge after the conversions: the name of the strategy is looked up last *)
Definition pybind_add (g : ugraph N) (u : Z) (v : option Z) (o : list nat) (w p : num N) (s : option strategy) : ugraph N * bool :=
  if ((u <? 0) || match v with Some v => v <? 0 | None => false end)%Z then (g, true)
  else if w_exceeds N w then (g, false)
  else match s with
       | None => (g, true)
       | Some s =>
           let u := Z.to_nat u in
           let v := match v with Some v => Some (Z.to_nat v) | None => None end in
           let m := match v with Some v => Nat.max u v | None => u end in
           if (num_nodes g <? m + 1) && (cap <? m + 1) then (g, true) (* nodes.resize throws std::bad_alloc, user_graph.cc:118-120, 149-150 *)
           else add_or_merge g u v o w p s
       end.
Definition done (r : ugraph N * bool) : ugraph N * pyreply := (fst r, if snd r then Raised else Done).
Definition or_raised {A} (x : outcome A) (g : ugraph N) (f : A -> ugraph N * pyreply) : ugraph N * pyreply :=
  match x with Ok a => f a | _ => (g, Raised) end.

(** matching.py:745-756 add_edge *)
Definition add_edge (g : ugraph N) (u v : Z) (fault_ids : option ids) (qubit_id : option (option ids)) (w : num N) (p : option (num N)) (s : option strategy) : ugraph N * pyreply :=
  match fault_ids, qubit_id with
  | Some _, Some _ => (g, Raised)
  | _, _ =>
      let i := match fault_ids, qubit_id with None, Some q => q | _, _ => fault_ids end in
      or_raised (o <-- ids_arg i ;; u' <-- int64_arg u ;; v' <-- int64_arg v ;; Ok (o, u', v')) g
        (fun '(o, u', v') => done (pybind_add g u' (Some v') o w (prob_arg p) s))
  end.
(** matching.py:830-835 add_boundary_edge: qubit_id is a keyword argument that is not looked at *)
Definition add_boundary_edge (g : ugraph N) (u : Z) (fault_ids : option ids) (qubit_id : option (option ids)) (w : num N) (p : option (num N)) (s : option strategy) : ugraph N * pyreply :=
  or_raised (o <-- ids_arg fault_ids ;; u' <-- int64_arg u ;; Ok (o, u')) g (fun '(o, u') => done (pybind_add g u' None o w (prob_arg p) s)).

(** user_graph.cc:185-195 set_boundary, with the failures that M_UserGraph.set_boundary leaves out: nodes of the old boundary are written to without a bounds check; boundary_nodes is
    replaced before nodes.resize may throw std::bad_alloc; and n + 1 is 0 for n = 2^64-1, so nodes is made empty and then written to. *)
Definition set_boundary_nodes (g : ugraph N) (b : list nat) : ugraph N * pyreply :=
  if existsb (fun n => num_nodes g <=? n) (bnodes g) then (g, Undefined)
  else
    let g' := set_boundary g (filter (fun n => n <? cap) b) in
    match filter (fun n => negb (n <? cap)) b with
    | [] => (g', Done)
    | n :: _ => if (Z.of_nat n =? 2 ^ 64 - 1)%Z then (g, Undefined) else (mkG (nodes g') (edges g) b (nobs g) (allp g) (needs g), Raised)
    end.

(** A size_t as the index of a node: SIZE_MAX stands for the virtual boundary (user_graph.cc:42-56). *)
Definition target (z : Z) : option nat := if (z =? 2 ^ 64 - 1)%Z then None else Some (Z.to_nat z).
(** user_graph.pybind.cc:388-408, 413-426: get_edge_data and get_boundary_edge_data *)
Definition data (g : ugraph N) (u : Z) (v : option nat) : ugraph N * pyreply :=
  match get_edge_data g (Z.to_nat u) v with Some (o, w, p) => (g, Data (set_of o) w p) | None => (g, Raised) end.
(** user_graph.pybind.cc:364-385 get_edges *)
Definition listed_edge (e : uedge N) : nat * option nat * (list nat * num N * num N) :=
  (node1 e, node2 e, (set_of (obs e), weight e, if p_outside N (prob e) then p_none N else prob e)).

Definition pystep (g : ugraph N) (c : pycall) : ugraph N * pyreply :=
  match c with
  | AddEdge u v i q w p s => add_edge g u v i q w p s
  | AddBoundaryEdge u i q w p s => add_boundary_edge g u i q w p s
  | SetBoundaryNodes b => or_raised (set_arg b) g (set_boundary_nodes g)                                                                          (* matching.py:1758 *)
  | EnsureNumFaultIds n => or_raised (size_arg n) g (fun n => (set_min_num_observables g (Z.to_nat n), Done))                                     (* matching.py:1774 *)
  | HasEdge u v => or_raised (u' <-- size_arg u ;; v' <-- size_arg v ;; Ok (u', v')) g (fun '(u', v') => (g, Truth (has_edge g (Z.to_nat u') (target v'))))   (* matching.py:853 *)
  | HasBoundaryEdge u => or_raised (size_arg u) g (fun u => (g, Truth (has_edge g (Z.to_nat u) None)))                                            (* matching.py:873 *)
  | GetEdgeData u v => or_raised (u' <-- size_arg u ;; v' <-- size_arg v ;; Ok (u', v')) g (fun '(u', v') => data g u' (target v'))               (* matching.py:892 *)
  | GetBoundaryEdgeData u => or_raised (size_arg u) g (fun u => data g u None)                                                                    (* matching.py:909 *)
  | Edges => (g, EdgeList (map listed_edge (edges g)))                                                                                            (* matching.py:926 *)
  | Boundary => (g, Nodes (bnodes g))                                                                                                             (* matching.py:1801 *)
  | NumNodes => (g, Count (num_nodes g))
  | NumEdges => (g, Count (num_edges g))
  | NumDetectors => (g, Count (num_detectors g))
  | NumFaultIds => (g, Count (nobs g))
  end.
Fixpoint pyrun (g : ugraph N) (cs : list pycall) : ugraph N * list pyreply :=
  match cs with
  | [] => (g, [])
  | c :: cs' => let '(g1, r) := pystep g c in
      match r with Undefined => (g1, [r]) | _ => let '(g2, rs) := pyrun g1 cs' in (g2, r :: rs) end
  end.
End PyGraph.
Arguments AddEdge {N}. Arguments AddBoundaryEdge {N}. Arguments SetBoundaryNodes {N}. Arguments EnsureNumFaultIds {N}. Arguments HasEdge {N}. Arguments HasBoundaryEdge {N}.
Arguments GetEdgeData {N}. Arguments GetBoundaryEdgeData {N}. Arguments Edges {N}. Arguments Boundary {N}. Arguments NumNodes {N}. Arguments NumEdges {N}. Arguments NumDetectors {N}. Arguments NumFaultIds {N}.
Arguments Undefined {N}. Arguments set_boundary_nodes {N}. Arguments Done {N}. Arguments Raised {N}. Arguments Truth {N}. Arguments Data {N}. Arguments EdgeList {N}. Arguments Nodes {N}. Arguments Count {N}.
Arguments pystep {N}. Arguments pyrun {N}. Arguments listed_edge {N}. Arguments data {N}. Arguments or_raised {N A}. Arguments done {N}. Arguments pybind_add {N}. Arguments add_edge {N}. Arguments add_boundary_edge {N}. Arguments prob_arg {N}.
