(** C25, C26, C27, C30, C33, C40: the user graph. *)
From Coq Require Import Arith ZArith List Bool.
From Verif Require Import M_Base M_UserGraph S_UserGraph P_UserGraph S_GraphMap P_GraphMap.
Import ListNotations.

(** An instance of the numeric operations for the examples: integers, merged weight = signed minimum,
    probabilities 0 and 1, largest weight 100. *)
Definition ZN : numops := {|
  num := Z;
  w_ge := fun a b => Z.leb b a;
  w_merge := fun a b => (Z.sgn a * Z.sgn b * Z.min (Z.abs a) (Z.abs b))%Z;
  w_exceeds := fun a => Z.ltb 100 (Z.abs a);
  p_valid := fun p => (0 <=? p)%Z && (p <=? 1)%Z;
  p_outside := fun p => (p <? 0)%Z || (1 <? p)%Z;
  p_xor := fun p q => (p * (1 - q) + q * (1 - p))%Z;
  p_none := (-1)%Z |}.

Definition AddZ (u : nat) (v : option nat) (o : list nat) (w p : Z) (s : strategy) : op ZN := @OpAdd ZN u v o w p s.

Definition ex_ops : list (op ZN) :=
  [AddZ 0 (Some 3) [0; 2] 5%Z 0%Z DISALLOW; AddZ 3 None [] 2%Z 1%Z DISALLOW; AddZ 3 (Some 0) [7] 4%Z 1%Z INDEPENDENT;
   AddZ 1 (Some 9) [] 101%Z 1%Z DISALLOW; OpSetBoundary [4]; AddZ 2 (Some 2) [1] 6%Z 1%Z DISALLOW;
   AddZ 2 (Some 0) [1] 6%Z 1%Z DISALLOW; AddZ 0 (Some 2) [1] 6%Z 1%Z DISALLOW].

(** C25: after any sequence of calls there is at most one edge per unordered pair of nodes and at most
    one boundary edge per node; has_edge / has_boundary_edge hold exactly for the pairs added, in either
    order; get_edge_data does not depend on the order and returns the attributes of that edge; num_nodes
    is the maximum of the initial number and of one more than each node named in a call. *)
Theorem C25_user_graph_is_simple :
  forall (N : numops) n k ops, let g := run (new_graph N n k) ops in
  simple g /\
  (forall u v, has_edge g u v = true <-> added ops u v) /\
  (forall u v, has_edge g u (Some v) = has_edge g v (Some u)) /\
  (forall u v, get_edge_data g u (Some v) = get_edge_data g v (Some u)) /\
  (forall u v a, get_edge_data g u v = Some a <-> exists e, In e (edges g) /\ joins e u v /\ a = attributes_of e) /\
  num_nodes g = fold_left Nat.max (map nodes_needed ops) n.
Proof. exact @user_graph_simple. Qed.
Print Assumptions C25_user_graph_is_simple.

Example C25_ex : let g := run (new_graph ZN 2 0) ex_ops in
  num_edges g = 4 /\ num_nodes g = 5 /\ num_detectors g = 4 /\ nobs g = 3 /\
  has_edge g 3 (Some 0) = true /\ has_edge g 0 (Some 3) = true /\ has_edge g 3 None = true /\
  has_edge g 1 (Some 9) = false /\ get_edge_data g 3 (Some 0) = Some ([0; 2], 4%Z, 1%Z).
Proof. vm_compute. repeat split; reflexivity. Qed.

(** C26: the effect of adding an edge that exists already, for each strategy (second component: whether
    an exception is thrown). *)
Theorem C26_merge_strategies :
  forall (N : numops) n k ops u v o w p s e, let g := run (new_graph N n k) ops in
  w_exceeds N w = false -> In e (edges g) -> joins e u v ->
  let r := py_add g u v o w p s in
  match s with
  | DISALLOW => r = (g, true)
  | KEEP_ORIGINAL => r = (g, false)
  | SMALLEST_WEIGHT =>
      if w_ge N w (weight e) then r = (g, false)
      else snd r = false /\ only_edge_changed g (fst r) u v (o, w, p)
  | REPLACE => snd r = false /\ only_edge_changed g (fst r) u v (o, w, p)
  | INDEPENDENT =>
      snd r = false /\
      only_edge_changed g (fst r) u v
        (obs e, w_merge N w (weight e),
         if p_valid N (prob e) && p_valid N p then p_xor N p (prob e) else p_none N)
  end.
Proof. exact @merge_strategies. Qed.
Print Assumptions C26_merge_strategies.

(** C26: an edge that does not exist is appended with the given attributes, whatever the strategy. *)
Theorem C26_new_edge_added :
  forall (N : numops) n k ops u v o w p s, let g := run (new_graph N n k) ops in
  w_exceeds N w = false -> (forall e, In e (edges g) -> ~ joins e u v) ->
  exists g', py_add g u v o w p s = (g', false) /\ edges g' = edges g ++ [mkE u v o w p] /\ bnodes g' = bnodes g.
Proof. exact @add_new_edge. Qed.
Print Assumptions C26_new_edge_added.

(** C26, all sequences: the graph is a map from unordered pairs to attributes; the attributes of a pair
    are obtained by applying the documented effect of each call on that pair, in order. *)
Theorem C26_graph_is_map :
  forall (N : numops) n k ops x y,
  get_edge_data (run (new_graph N n k) ops) x y = effects x y None (op_calls ops).
Proof. exact @graph_is_map. Qed.
Print Assumptions C26_graph_is_map.

Example C26_map_ex : effects 3 (Some 0) None (op_calls ex_ops) = Some ([0; 2], 4%Z, 1%Z) /\ length (op_calls ex_ops) = 6.
Proof. vm_compute. auto. Qed.

Example C26_ex : let g := run (new_graph ZN 2 0) ex_ops in
  let data s (w : Z) := get_edge_data (fst (py_add g 0 (Some 3) [1] w 0%Z s)) 3 (Some 0) in
  snd (py_add g 0 (Some 3) [1] 3%Z 0%Z DISALLOW) = true /\
  data DISALLOW 3%Z = Some ([0; 2], 4%Z, 1%Z) /\
  data KEEP_ORIGINAL 3%Z = Some ([0; 2], 4%Z, 1%Z) /\
  data SMALLEST_WEIGHT 4%Z = Some ([0; 2], 4%Z, 1%Z) /\
  data SMALLEST_WEIGHT 3%Z = Some ([1], 3%Z, 0%Z) /\
  data REPLACE 9%Z = Some ([1], 9%Z, 0%Z) /\
  data INDEPENDENT 3%Z = Some ([0; 2], 3%Z, 1%Z).
Proof. vm_compute. repeat split; reflexivity. Qed.

(** C27, full statement: at all times every fault id of an edge is below num_fault_ids. It is false
    (next theorem). It holds for the sequences of calls in which replace / smallest-weight only use
    fault ids below the current num_fault_ids; what is missing is exactly those calls. *)
Theorem C27_fault_ids_in_range_partial :
  forall (N : numops) n k ops, safe_ops (new_graph N n k) ops -> fault_ids_in_range (run (new_graph N n k) ops).
Proof. exact @fault_ids_ok. Qed.
Print Assumptions C27_fault_ids_in_range_partial.

Example C27_ex : safe_ops (new_graph ZN 2 0) ex_ops.
Proof. vm_compute. repeat split; intros [H|H]; discriminate. Qed.

(** C27 refuted, for every numeric type: replacing the attributes of an edge does not raise
    num_fault_ids. *)
Theorem C27_fault_ids_in_range_refuted :
  forall (N : numops) (w p : num N), w_exceeds N w = false ->
  exists ops, let g := run (new_graph N 2 0) ops in
    nobs g = 1 /\ get_edge_data g 0 (Some 1) = Some ([5], w, p) /\ ~ fault_ids_in_range g.
Proof.
  intros N w p Hw. exists [OpAdd 0 (Some 1) [0] w p DISALLOW; OpAdd 0 (Some 1) [5] w p REPLACE].
  cbn. unfold py_add. rewrite Hw. cbn. split; [reflexivity|]. split; [reflexivity|].
  intros H. specialize (H _ 5 (or_introl eq_refl) (or_introl eq_refl)). cbn in H.
  apply Nat.ltb_lt in H. discriminate.
Qed.
Print Assumptions C27_fault_ids_in_range_refuted.

Example C27_refuted_ex : w_exceeds ZN 3%Z = false. Proof. reflexivity. Qed.

(** C30, full statement: the flag is true iff every edge has a probability in [0,1]. The direction
    from left to right holds (NaN aside); the other one is false (next theorem) because the flag is never
    set back. *)
Theorem C30_flag_implies_probabilities_partial :
  forall (N : numops), (forall p, p_valid N p = negb (p_outside N p)) ->
  forall n k ops, let g := run (new_graph N n k) ops in allp g = true -> every_edge_has_probability g.
Proof. exact @flag_implies_probabilities. Qed.
Print Assumptions C30_flag_implies_probabilities_partial.

(** C30: the flag is true if every call supplied a probability. *)
Theorem C30_flag_true_if_all_given_partial :
  forall (N : numops),
  (forall p, p_valid N p = negb (p_outside N p)) ->
  (forall p q, p_valid N p = true -> p_valid N q = true -> p_valid N (p_xor N p q) = true) ->
  forall n k ops, (forall x, In x ops -> op_prob_ok x) -> allp (run (new_graph N n k) ops) = true.
Proof. exact @flag_true_if_all_given. Qed.
Print Assumptions C30_flag_true_if_all_given_partial.

Example C30_ex : (forall p, p_valid ZN p = negb (p_outside ZN p)) /\
  (forall x, In x ex_ops -> op_prob_ok x) /\ allp (run (new_graph ZN 2 0) ex_ops) = true.
Proof.
  split; [|split; [|reflexivity]].
  - intros p. cbn. rewrite !Z.leb_antisym, negb_orb. reflexivity.
  - intros x H. cbn in H. repeat (destruct H as [<-|H]; [vm_compute; auto|]). destruct H.
Qed.

(** C30 refuted: after replacing the only edge without probability by one with a probability, every edge
    has one but the flag stays false (so add_noise silently does nothing). *)
Theorem C30_flag_iff_probabilities_refuted :
  forall (N : numops) (w bad good : num N), w_exceeds N w = false ->
  p_outside N bad = true -> p_valid N good = true ->
  exists ops, let g := run (new_graph N 2 0) ops in every_edge_has_probability g /\ allp g = false.
Proof.
  intros N w bad good Hw Hb Hg.
  exists [OpAdd 0 (Some 1) [] w bad DISALLOW; OpAdd 0 (Some 1) [] w good REPLACE].
  cbn. unfold py_add. rewrite Hw. cbn. rewrite Hb. split.
  - intros e [<-|[]]. exact Hg.
  - destruct (p_outside N good); reflexivity.
Qed.
Print Assumptions C30_flag_iff_probabilities_refuted.

Example C30_refuted_ex : w_exceeds ZN 3%Z = false /\ p_outside ZN (-1)%Z = true /\ p_valid ZN 1%Z = true.
Proof. auto. Qed.

(** C33: after any sequence of modifications and decodes, the decoder handed out (with or without search
    graph) was built from a graph with the same nodes, edges and boundary as the current one; its number
    of observables is the current one or smaller (set_min_num_observables does not invalidate the cache);
    asking for a decoder with a search graph gives one (unless there are no nodes); handing it out does not
    change the graph. *)
Theorem C33_caching_is_invisible :
  forall (N : numops) (M : Type) (build : ugraph N -> bool -> M) n k ops (search : bool),
  let c := crun build (mkC (new_graph N n k) None) ops in
  let '(c', m, s) := if search then get_mwpm_with_search build c else get_mwpm build c in
  same_structure (graph c) (graph c') /\ nobs (graph c') = nobs (graph c) /\
  (search = true -> s = true \/ num_nodes (graph c) = 0) /\
  exists g0 b, m = build g0 b /\ same_structure (graph c) g0 /\ nobs g0 <= nobs (graph c).
Proof. exact @caching_invisible. Qed.
Print Assumptions C33_caching_is_invisible.

Example C33_ex :
  let build (g : ugraph ZN) (b : bool) := (num_edges g, b) in
  let c := crun build (mkC (new_graph ZN 2 0) None)
     (map CMod ex_ops ++ [CDecode false; CMod (AddZ 5 None [] 1%Z 1%Z DISALLOW); CDecode false; CMod (@OpMinObs ZN 9)]) in
  let '(_, m, s) := get_mwpm build c in let '(_, m', s') := get_mwpm_with_search build c in
  m = (5, false) /\ s = false /\ m' = (5, true) /\ s' = true.
Proof. vm_compute. auto. Qed.

(** C40: an edge whose weight is out of range is skipped and the graph is unchanged. *)
Theorem C40_out_of_range_weight_skipped :
  forall (N : numops) (g : ugraph N) u v o w p s, w_exceeds N w = true -> py_add g u v o w p s = (g, false).
Proof. exact @exceeding_skipped. Qed.
Print Assumptions C40_out_of_range_weight_skipped.

(** C40: hence every stored weight is in range, provided merging two weights in range gives a weight in
    range (proved for the real-valued merge_weights in T_Merge). *)
Theorem C40_stored_weights_in_range :
  forall (N : numops),
  (forall a b, w_exceeds N a = false -> w_exceeds N b = false -> w_exceeds N (w_merge N a b) = false) ->
  forall n k ops e, In e (edges (run (new_graph N n k) ops)) -> w_exceeds N (weight e) = false.
Proof. exact @weights_in_range. Qed.
Print Assumptions C40_stored_weights_in_range.

Example C40_ex : w_exceeds ZN 101%Z = true /\ py_add (new_graph ZN 2 0) 0 None [] 101%Z 1%Z REPLACE = (new_graph ZN 2 0, false)
  /\ num_edges (run (new_graph ZN 2 0) ex_ops) = 4.
Proof. vm_compute. auto. Qed.
