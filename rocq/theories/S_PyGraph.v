(** Specification of the methods that make and inspect a graph: a table of edges, one for each unordered pair. *)
From Coq Require Import Arith ZArith List Bool Sorting.Sorted.
From Verif Require Import M_UserGraph M_GraphIO S_GraphMap M_PyGraph.
Import ListNotations.

Section Spec.
Context {N : numops}.
(** There is memory for this many nodes. *)
Variable cap : nat.
Notation pycall := (pycall N). Notation pyreply := (pyreply N).

(** Edges in the order in which their pairs were first added; [None] is the virtual boundary. *)
Record table := mkT { size : nat; entries : list (nat * option nat * attr N); declared : list nat; faults : nat }.
Definition about (u : nat) (v : option nat) (x : nat * option nat * attr N) : bool := same_pair u v (fst (fst x)) (snd (fst x)).
Definition lookup (t : table) (u : nat) (v : option nat) : option (attr N) := option_map snd (find (about u v) (entries t)).
Definition largest (u : nat) (v : option nat) : nat := match v with Some v => Nat.max u v | None => u end.
Definition enter (t : table) (u : nat) (v : option nat) (a : attr N) (s : strategy) : table :=
  match lookup t u v with
  | None => mkT (Nat.max (size t) (S (largest u v))) (entries t ++ [(u, v, a)]) (declared t) (fold_right Nat.max (faults t) (map S (fst (fst a))))
  | Some _ => mkT (size t) (map (fun x => if about u v x then (fst x, merged s (snd x) a) else x) (entries t)) (declared t) (faults t)
  end.

(** Sets of non-negative ints below [limit]. *)
Definition is_set (o : list nat) : Prop := StronglySorted lt o.
Definition same_set (l : list Z) (o : list nat) : Prop := is_set o /\ forall z, In z l <-> exists k, In k o /\ z = Z.of_nat k.
Definition below (limit : Z) (l : list nat) : Prop := forall k, In k l -> (Z.of_nat k < limit)%Z.
(** The fault ids that an argument stands for. *)
Definition ids_mean (i : option ids) (o : list nat) : Prop :=
  below (2 ^ 64) o /\
  match i with
  | None => o = []
  | Some (IdInt z) => (z = (-1)%Z /\ o = []) \/ exists k, z = Z.of_nat k /\ o = [k]
  | Some (IdSet l) => same_set l o
  | Some IdOther => False
  end.
(** The edge that a call asks to add. *)
Definition asks_for (c : pycall) (u : nat) (v : option nat) (a : attr N) (s : option strategy) : Prop :=
  let '(o, w, p) := a in
  match c with
  | AddEdge u' v' i q w' p' s' => u' = Z.of_nat u /\ (exists x, v = Some x /\ v' = Z.of_nat x /\ below (2 ^ 63) [u; x]) /\
      match i, q with Some _, Some _ => False | None, Some q => ids_mean q o | _, None => ids_mean i o end /\ w = w' /\ p = match p' with Some p => p | None => p_none N end /\ s = s'
  | AddBoundaryEdge u' i q w' p' s' => u' = Z.of_nat u /\ v = None /\ below (2 ^ 63) [u] /\ ids_mean i o /\ w = w' /\ p = match p' with Some p => p | None => p_none N end /\ s = s'
  | _ => False
  end.
(** The edge that a call asks about. *)
Definition asks_about (c : pycall) (u : nat) (v : option nat) : Prop :=
  match c with
  | HasEdge u' v' | GetEdgeData u' v' => u' = Z.of_nat u /\ exists x, v = Some x /\ v' = Z.of_nat x /\ below (2 ^ 64) [u; x]
  | HasBoundaryEdge u' | GetBoundaryEdgeData u' => u' = Z.of_nat u /\ v = None /\ below (2 ^ 64) [u]
  | _ => False
  end.
Definition shown (a : attr N) : attr N := let '(o, w, p) := a in (o, w, if p_outside N p then p_none N else p).

(** Reply [r] to call [c] is right for table [t], and [t'] is the table after it. *)
Definition right_step (t : table) (c : pycall) (r : pyreply) (t' : table) : Prop :=
  match c with
  | AddEdge _ _ _ _ _ _ _ | AddBoundaryEdge _ _ _ _ _ _ =>
      (forall u v o w p s, asks_for c u v (o, w, p) s ->
         if w_exceeds N w then r = Done /\ t' = t
         else match s, lookup t u v with
              | None, _ | Some DISALLOW, Some _ => r = Raised /\ t' = t
              | Some s, _ => if cap <=? largest u v then r = Raised /\ t' = t else r = Done /\ t' = enter t u v (o, w, p) s
              end) /\
      ((forall u v a s, ~ asks_for c u v a s) -> r = Raised /\ t' = t)
  | SetBoundaryNodes b =>
      (forall l o, b = IdSet l -> same_set l o -> below (2 ^ 64) o -> r = Done /\ t' = mkT (fold_right Nat.max (size t) (map S o)) (entries t) o (faults t)) /\
      ((forall l o, b = IdSet l -> same_set l o -> ~ below (2 ^ 64) o) -> r = Raised /\ t' = t)
  | EnsureNumFaultIds n =>
      (forall k, n = Z.of_nat k -> below (2 ^ 64) [k] -> r = Done /\ t' = mkT (size t) (entries t) (declared t) (Nat.max (faults t) k)) /\
      ((forall k, n = Z.of_nat k -> ~ below (2 ^ 64) [k]) -> r = Raised /\ t' = t)
  | HasEdge _ _ | HasBoundaryEdge _ =>
      t' = t /\ (forall u v, asks_about c u v -> r = Truth (if lookup t u v then true else false)) /\ ((forall u v, ~ asks_about c u v) -> r = Raised)
  | GetEdgeData _ _ | GetBoundaryEdgeData _ =>
      t' = t /\ (forall u v, asks_about c u v -> r = match lookup t u v with Some (o, w, p) => Data o w p | None => Raised end) /\ ((forall u v, ~ asks_about c u v) -> r = Raised)
  | Edges => t' = t /\ r = EdgeList (map (fun x => (fst x, shown (snd x))) (entries t))
  | Boundary => t' = t /\ r = Nodes (declared t)
  | NumNodes => t' = t /\ r = Count (size t)
  | NumEdges => t' = t /\ r = Count (length (entries t))
  | NumDetectors => t' = t /\ r = Count (length (filter (fun v => negb (existsb (Nat.eqb v) (declared t))) (seq 0 (size t))))
  | NumFaultIds => t' = t /\ r = Count (faults t)
  end.
Fixpoint right_replies (t : table) (cs : list pycall) (rs : list pyreply) : Prop :=
  match cs, rs with
  | [], [] => True
  | c :: cs', r :: rs' => exists t', right_step t c r t' /\ right_replies t' cs' rs'
  | _, _ => False
  end.
(** No call names node 2^64-1, which stands for the virtual boundary inside the library, or fault id 2^64-1; no boundary node is beyond the memory. *)
Definition names (z : Z) (i : option ids) : Prop := match i with Some (IdSet l) => In z l | Some (IdInt z') => z' = z | _ => False end.
Definition plain (c : pycall) : Prop :=
  match c with
  | AddEdge _ _ i q _ _ _ => ~ names (2 ^ 64 - 1) i /\ ~ names (2 ^ 64 - 1) (match q with Some q => q | None => None end)
  | AddBoundaryEdge _ i _ _ _ _ => ~ names (2 ^ 64 - 1) i
  | HasEdge _ v | GetEdgeData _ v => v <> (2 ^ 64 - 1)%Z
  | SetBoundaryNodes b => forall z, names z (Some b) -> (z < Z.of_nat cap)%Z
  | _ => True
  end.
End Spec.
Arguments table : clear implicits.
