(** Specification of reading and writing networkx and rustworkx graphs. *)
From Coq Require Import Reals ZArith List Bool Arith Permutation Sorted.
From Verif Require Import M_Base M_Dem S_Dem M_CheckMatrix M_GraphIO M_Merge M_CoreHeap M_Matching S_Matching M_UserGraph S_UserGraph.
Import ListNotations.
Local Open Scope nat_scope.

Definition smallest (P : nat -> Prop) (n : nat) : Prop := P n /\ forall k, P k -> n <= k.

(** ** Reading *)
(** The value stands for the set of fault ids [S]: -1 is no fault id, another int is one. *)
Definition denotes (i : ids) (S : nat -> Prop) : Prop :=
  match i with
  | IdInt z => (z = -1 /\ forall k, ~ S k)%Z \/ ((0 <= z)%Z /\ forall k, S k <-> Z.of_nat k = z)
  | IdSet l => (forall z, In z l -> (0 <= z)%Z) /\ forall k, S k <-> In (Z.of_nat k) l
  | IdOther => False
  end.
(** At most one of the keys may be there; without any there are no fault ids. *)
Definition meant (a : attrs RN) (S : nat -> Prop) : Prop :=
  match a_fault_ids a, a_qubit_id a with
  | None, None => forall k, ~ S k
  | Some i, None | None, Some i => denotes i S
  | Some _, Some _ => False
  end.
Definition edge := (Z * Z * attrs RN)%type.
Definition ends (x : edge) : Z * Z := fst x.
Definition meant_weight (x : edge) : R := match a_weight (snd x) with Some w => w | None => 1%R end.
Definition meant_prob (x : edge) : R := match a_prob (snd x) with Some p => p | None => (-1)%R end.
Definition readable (G : pygraph RN) : Prop :=
  (forall z, In (z, true) (py_nodes G) -> (0 <= z)%Z) /\
  forall x, In x (py_edges G) -> (0 <= fst (ends x))%Z /\ (0 <= snd (ends x))%Z /\ exists S, meant (snd x) S.

(** Edges whose weight is too large are skipped. *)
Definition kept (x : edge) : Prop := (Rabs (meant_weight x) <= max_user_weight)%R.
Definition between (u v : nat) (x : edge) : Prop := ends x = (Z.of_nat u, Z.of_nat v) \/ ends x = (Z.of_nat v, Z.of_nat u).
(** [x] is the first of the lightest edges between the nodes. *)
Definition first_lightest (xs : list edge) (u v : nat) (x : edge) : Prop :=
  between u v x /\ kept x /\ exists l1 l2, xs = l1 ++ x :: l2 /\
    (forall y, In y l1 -> between u v y -> kept y -> (meant_weight x < meant_weight y)%R) /\
    (forall y, In y l2 -> between u v y -> kept y -> (meant_weight x <= meant_weight y)%R).
(** [x] is the first edge between its nodes. *)
Definition first (xs : list edge) (x : edge) : Prop :=
  kept x /\ exists l1 l2, xs = l1 ++ x :: l2 /\ forall y u v, In y l1 -> kept y -> between u v y -> ~ between u v x.

(** The graph [g] is what [G] describes. *)
Record described (G : pygraph RN) (least : nat) (g : ugraph RN) : Prop := {
  d_edge : forall u v o w p, get_edge_data g u (Some v) = Some (o, w, p) ->
    exists x, first_lightest (py_edges G) u v x /\ meant (snd x) (fun k => In k o) /\ StronglySorted lt o /\ w = meant_weight x /\ p = meant_prob x;
  d_all : forall u v x, In x (py_edges G) -> kept x -> between u v x -> get_edge_data g u (Some v) <> None;
  d_virtual : forall u, get_edge_data g u None = None;
  d_boundary : forall v, In v (bnodes g) <-> In (Z.of_nat v, true) (py_nodes G);
  d_boundary_once : NoDup (bnodes g);
  d_nodes : smallest (fun n => length (py_nodes G) <= n /\ (forall v, In (Z.of_nat v, true) (py_nodes G) -> v < n) /\
              forall x u v, In x (py_edges G) -> kept x -> between u v x -> u < n) (num_nodes g);
  d_fault_ids : smallest (fun n => least <= n /\ forall x S k, first (py_edges G) x -> meant (snd x) S -> S k -> k < n) (nobs g)
}.

(** ** Writing and reading back *)
(** How a Matching object's graph comes about. *)
Inductive made : ugraph RN -> Prop :=
| made_new n k : made (new_graph RN n k)
| made_dem nd no dem : made (load_dem RD nd no dem)
| made_matrix rows cols faults fault_rows ws ps s virtual reps tws mes g :
    load_check_matrix rows cols faults fault_rows ws ps s virtual reps tws mes = Ok g -> made g
| made_read G k g : read_graph (N := RN) 1%R G k = Ok g -> made g
| made_changed g x : made g -> made (apply_op g x).
(** No fault id occurs twice on an edge or exceeds num_fault_ids, and no weight is too large. *)
Definition writable (g : ugraph RN) : Prop :=
  NoDup (bnodes g) /\ fault_ids_in_range g /\ forall e, In e (edges g) -> NoDup (obs e) /\ (Rabs (weight e) <= max_user_weight)%R.
Definition has_edge_at (g : ugraph RN) (u : nat) : Prop := exists v a, get_edge_data g u v = Some a.
Definition uses_virtual_boundary (g : ugraph RN) : Prop := exists u a, get_edge_data g u None = Some a.

(** The copy [g'] has the nodes and edges of [g]; the virtual boundary, if it has edges, becomes one more boundary node. *)
Definition same_data (a a' : list nat * R * R) : Prop :=
  let '(o, w, p) := a in let '(o', w', p') := a' in
  Permutation o o' /\ w' = w /\ (0 <= p <= 1 -> p' = p)%R /\ (~ (0 <= p <= 1) -> p' = -1)%R.
Definition same_option (a a' : option (list nat * R * R)) : Prop :=
  match a, a' with Some x, Some y => same_data x y | None, None => True | _, _ => False end.
Record same_graph (g g' : ugraph RN) : Prop := {
  s_edges : forall u v, u < num_nodes g -> v < num_nodes g -> same_option (get_edge_data g u (Some v)) (get_edge_data g' u (Some v));
  s_virtual : forall u, u < num_nodes g -> same_option (get_edge_data g u None) (get_edge_data g' u (Some (num_nodes g)));
  s_more : forall v, get_edge_data g' (num_nodes g) (Some v) = None \/ v < num_nodes g;
  s_boundary : forall v, In v (bnodes g') <-> In v (bnodes g) \/ (uses_virtual_boundary g /\ v = num_nodes g);
  s_nodes_virtual : uses_virtual_boundary g -> num_nodes g' = S (num_nodes g);
  s_nodes : ~ uses_virtual_boundary g -> num_nodes g' = num_nodes g;
  s_detectors : num_detectors g' = num_detectors g;
  s_fault_ids : nobs g' = nobs g
}.
(** A request for a decoding, with an array that the graph accepts. *)
Definition question (g : ugraph RN) (c : mcall) : Prop :=
  match c with
  | Modify _ => False
  | AskBatch packed _ z => accepted_batch g packed z
  | AskDecode z | AskEdges z | AskPairs z | AskDict z => accepted g z
  end.
(** A new Matching object on [g'] answers questions about [g] rightly. *)
Definition answers_for (g g' : ugraph RN) : Prop :=
  forall cs, Forall (question g) cs -> all_fair g cs ->
    exists K m' rs, (forall fuel, K <= fuel -> mrun fuel cyclic_ints (new_matching g') cs = Ok (m', rs)) /\ all_right g cs rs.
