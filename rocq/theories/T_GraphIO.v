(** C59: networkx and rustworkx graphs.

    Reading: a graph is read if and only if its boundary nodes and the ends of its edges are not negative and the fault ids of each edge have one of
    the documented forms; otherwise there is an exception.  What is read is what the graph describes: one edge for each pair of nodes that has
    an edge, with the attributes of the first of the lightest; the nodes with is_boundary as boundary; as many nodes and fault ids as needed.

    Writing: a graph written by to_rustworkx and read back is the same graph, where the virtual boundary, if it is used, has become a
    boundary node, and a Matching object made from it answers all questions about the original rightly.  The same holds for
    to_networkx if boundary nodes and the last node have edges. *)
From Coq Require Import Reals ZArith List Bool Arith Lia Lra.
From Verif Require Import M_Base M_Dem S_Dem M_CoreHeap M_GraphIO M_Merge S_Merge M_Bits S_Bits M_Matching S_Matching P_Merge S_GraphIO P_GraphIO P_GraphIOCases P_GraphMap M_UserGraph S_UserGraph P_UserGraph S_Pipeline P_GraphWrite T_Pipeline T_DemDecode.
Import ListNotations.
Local Open Scope nat_scope.

Theorem C59_reading : forall G min_num_fault_ids, readable G ->
  exists g, read_graph (N := RN) 1%R G min_num_fault_ids = Ok g /\ described G (match min_num_fault_ids with Some k => k | None => 0 end) g.
Proof. exact (fun G k H => match reading G k H with ex_intro _ g (conj E (conj _ (conj _ D))) => ex_intro _ g (conj E D) end). Qed.
Print Assumptions C59_reading.

Theorem C59_reading_refused : forall G min_num_fault_ids, ~ readable G -> read_graph (N := RN) 1%R G min_num_fault_ids = Throw.
Proof. exact read_graph_refused. Qed.
Print Assumptions C59_reading_refused.

Theorem C59_rustworkx : forall g, made g -> writable g ->
  exists g', read_graph (N := RN) 1%R (to_rustworkx g) (Some (nobs g)) = Ok g' /\ same_graph g g' /\ answers_for g g'.
Proof. exact made_rustworkx. Qed.
Print Assumptions C59_rustworkx.

Theorem C59_networkx : forall g, made g -> writable g ->
  (forall v, In v (bnodes g) -> has_edge_at g v) -> (uses_virtual_boundary g \/ num_nodes g = 0 \/ has_edge_at g (num_nodes g - 1)) ->
  exists g', read_graph (N := RN) 1%R (to_networkx g) (Some (nobs g)) = Ok g' /\ same_graph g g' /\ answers_for g g'.
Proof. exact made_networkx. Qed.
Print Assumptions C59_networkx.

(** ** What is lost *)
(** to_networkx: detectors without edges. *)
Theorem C59_networkx_detectors_refuted : exists g g', made g /\ writable g /\ read_graph (N := RN) 1%R (to_networkx g) (Some (nobs g)) = Ok g' /\
  num_detectors g = 3 /\ num_detectors g' = 0.
Proof. exact (ex_intro _ lonely lonely_lost). Qed.
Print Assumptions C59_networkx_detectors_refuted.

(** to_networkx: a boundary node without edges becomes a detector. *)
Theorem C59_networkx_boundary_refuted : exists g g', made g /\ writable g /\ read_graph (N := RN) 1%R (to_networkx g) (Some (nobs g)) = Ok g' /\
  In 1 (bnodes g) /\ ~ In 1 (bnodes g') /\ num_detectors g = 2 /\ num_detectors g' = 3.
Proof. exact (ex_intro _ walled walled_lost). Qed.
Print Assumptions C59_networkx_boundary_refuted.

Lemma quarter_small : (Rabs (log_likelihood_ratio (1/4)) <= max_user_weight)%R.
Proof. unfold log_likelihood_ratio, max_user_weight. eapply Rle_trans; [apply ln_small; lra|lra]. Qed.
(** Either: an error that flips an observable twice flips it once after writing and reading back. *)
Theorem C59_cancelling_refuted : exists dem g' w p, dem = ([(1/4, [Det 0; Obs 0; Obs 0])]%R : list (R * list target)) /\
  read_graph (N := RN) 1%R (to_rustworkx (N := RN) (load_dem RD 1 1 dem)) (Some 1) = Ok g' /\
  get_edge_data (N := RN) (load_dem RD 1 1 dem) 0 None = Some ([0; 0], w, p) /\ get_edge_data g' 0 (Some 1) = Some ([0], w, p).
Proof. exact (match cancelling_lost quarter_small with ex_intro _ g' H => ex_intro _ cancelling (ex_intro _ g' (ex_intro _ _ (ex_intro _ _ (conj eq_refl H)))) end). Qed.
Print Assumptions C59_cancelling_refuted.

(** Reading: two edges between the same nodes can leave an edge with a fault id that is not below num_fault_ids. *)
Theorem C59_parallel_edges_refuted : exists G g, readable G /\ read_graph (N := RN) 1%R G None = Ok g /\ ~ fault_ids_in_range g.
Proof. exact (match doubled_out with ex_intro _ g H => ex_intro _ doubled (ex_intro _ g (conj doubled_readable H)) end). Qed.
Print Assumptions C59_parallel_edges_refuted.

(** ** Cases that meet the hypotheses *)
(** Fault ids in all forms, edges between the same nodes, a self-loop, a boundary node. *)
Definition ex_python : pygraph RN := mkPy (N := RN) [(0, false); (1, false); (2, true)]%Z
  [ (0, 1, mkA (N := RN) (Some (IdInt 0)) None (Some 2%R) None)%Z; (1, 2, mkA (N := RN) None (Some (IdSet [2; 1; 2])) None None)%Z; (2, 0, mkA (N := RN) (Some (IdInt (-1))) None None (Some (1/10)%R))%Z;
    (1, 0, mkA (N := RN) (Some (IdSet [7])) None (Some 1%R) None)%Z; (0, 0, mkA (N := RN) None None (Some (-3)%R) None)%Z ].
Example C59_reading_example : readable ex_python.
Proof.
  split; [intros z [H|[H|[H|[]]]]; try discriminate; injection H as <-; lia|]. intros x [<-|[<-|[<-|[<-|[<-|[]]]]]]; cbn; (split; [lia|]); (split; [lia|]).
  - exists (fun k => k = 0). right. split; [lia|]. intros k. lia.
  - exists (fun k => k = 1 \/ k = 2). split; [intros z [<-|[<-|[<-|[]]]]; lia|]. intros k. split; [intros [->| ->]; cbn; auto|]. intros [H|[H|[H|[]]]]; lia.
  - exists (fun _ => False). left. auto.
  - exists (fun k => k = 7). split; [intros z [<-|[]]; lia|]. intros k. split; [intros ->; now left|]. intros [H|[]]. lia.
  - exists (fun _ => False). auto.
Qed.
(** Both keys. *)
Example C59_reading_refused_example : ~ readable (mkPy (N := RN) [(0, false)]%Z [(0, 0, mkA (N := RN) (Some (IdInt 0)) (Some (IdInt 0)) None None)%Z]).
Proof. intros [_ H]. destruct (H _ (or_introl eq_refl)) as (_ & _ & S & []). Qed.
(** The graph of C49_example: a boundary node, the virtual boundary, a negative weight. *)
Example C59_writing_example : let g := run (new_graph RN 2 0) ex_ops in
  made g /\ writable g /\ (forall v, In v (bnodes g) -> has_edge_at g v) /\ uses_virtual_boundary g /\
  let cs := [AskDecode (Syn1 [1; 0]%Z); AskEdges (Syn1 [1; 0; 0]%Z)] in Forall (question g) cs /\ all_fair g cs.
Proof.
  destruct C49_example as (Q1 & Q2 & Q3 & Q4 & H1 & HSC & H2 & H3 & H4 & H5). set (g := run (new_graph RN 2 0) ex_ops) in *. assert (HI : Inv g) by (apply run_inv, new_inv). cbv zeta. split; [|split; [|split; [|split; [|split]]]].
  - unfold g, ex_ops, run. cbn [fold_left]. repeat apply made_changed. apply made_new.
  - split; [rewrite Q2; repeat constructor; intros []|]. split; [exact H1|]. intros e. rewrite Q1. intros [<-|[<-|[<-|[]]]]; (split; [repeat constructor; intros []|]); apply in_range'; cbn; lra.
  - intros v. rewrite Q2. intros [<-|[]]. exists (Some 1), (attributes_of ex_e2). apply data_some; [exact HI|rewrite Q1; cbn; auto|]. right. split; reflexivity.
  - exists 0, (attributes_of ex_e3). apply data_some; [exact HI|rewrite Q1; cbn; auto|]. left. split; reflexivity.
  - apply Forall_cons; [|apply Forall_cons; [|apply Forall_nil]]; cbn [question accepted]; unfold num_detectors; rewrite Q2, Q3; cbn; lia.
  - assert (X : forall z, (forall v, event_at z v <-> v = 0) -> askable g (event_at z)). { intros z Hz. left. exists [0], [ex_e1; ex_e2]. split; [|split; assumption]. intros v. rewrite Hz. cbn. split; [intros [<-|[]]; reflexivity|intros ->; auto]. }
    assert (U : usable g) by (split; [|split]; assumption). cbn [all_fair fair after]. split; [|split; [|exact I]]; intros _.
    + split; [exact U|]. apply X. intros [|[|[|v]]]; cbn; split; intros H; auto; try lia.
    + split; [exact U|]. split; [exact H5|]. apply X. intros [|[|[|[|v]]]]; cbn; split; intros H; auto; try lia.
Qed.
