(** C49: from the calls that make a matching graph to the decoded answer.

    The graph is made by any sequence of calls (add_edge, add_boundary_edge, set_boundary_nodes, set_min_num_observables)
    with real weights.  Making the decoder discretises the weights, redirects edges at boundary nodes and fills in the
    matching graph and the search graph.  Decoding then returns, for any detection events on nodes that some set of edges
    explains, the observables flipped by a set of edges that explains them and that no other beats by more than the
    rounding of the weights.

    Assumed: all fault ids are below num_fault_ids (C27 tells which calls keep it so), and negative weights do not
    involve edges that the conversion drops (C05). *)
From Coq Require Import Reals ZArith NArith List Bool Arith Lia Lra.
From Verif Require Import S_Spread P_Spread P_UserGraph M_Base M_Core M_Session S_Core S_Session M_Build S_Build M_Flip S_Flip M_Search S_Search M_ToEdges S_ToEdges
  M_Discretise M_Merge M_Pipeline P_Pipeline M_UserGraph S_UserGraph S_Pipeline P_Pipeline3 T_Search.
Import ListNotations.
Local Open Scope nat_scope.

(** Making the decoder succeeds, and the new decoder is ready. *)
Theorem C49_decoder_is_made : forall n k (ops : list (op RN)) ensure_search_graph,
  let g := run (new_graph RN n k) ops in
  fault_ids_in_range g -> scalable g ->
  exists d, build_decoder g ensure_search_graph = Ok d /\ idle (adj (d_graph d)) init_state.
Proof. exact (fun n k ops ens IDS SC => calls_build n k ops IDS SC ens). Qed.
Print Assumptions C49_decoder_is_made.
Theorem C49_new_marks : forall n k (ops : list (op RN)) ensure_search_graph d sg,
  let g := run (new_graph RN n k) ops in
  fault_ids_in_range g -> build_decoder g ensure_search_graph = Ok d -> d_search d = Some sg -> unmarked (sadj sg) (marks_of sg).
Proof. exact calls_fresh_marks. Qed.
Print Assumptions C49_new_marks.

(** Observables and weight. *)
Theorem C49_decode : forall n k (ops : list (op RN)) ensure_search_graph d orc orc2 s q evs,
  let g := run (new_graph RN n k) ops in
  fault_ids_in_range g -> build_decoder g ensure_search_graph = Ok d -> conversion_harmless g ->
  idle (adj (d_graph d)) s -> search_idle q -> NoDup evs -> (forall v, In v evs -> v < num_nodes g) ->
  (exists F, corrects g F evs) ->
  exists K s' q' w F,
    (forall fuel, K <= fuel -> py_decode d fuel fuel orc orc2 exact_ints s q evs = Ok (s', q', (map (fun i => flips_observable i F) (seq 0 (nobs g)), w))) /\
    idle (adj (d_graph d)) s' /\ search_idle q' /\ corrects g F evs /\ near_best g F evs /\ weight_reported g w F.
Proof. exact (fun n k ops ens d orc orc2 s q evs IDS HD HARM HI HQ ND IR => calls_decode n k ops IDS ens d HD HARM orc orc2 s q evs HI HQ ND IR). Qed.
Print Assumptions C49_decode.

(** The same with the machine's 32-bit integers, if some correction has at most 64 edges, counting also every edge of
    negative weight. *)
Theorem C49_decode_machine : forall n k (ops : list (op RN)) ensure_search_graph d orc orc2 s q evs F,
  let g := run (new_graph RN n k) ops in
  fault_ids_in_range g -> build_decoder g ensure_search_graph = Ok d -> conversion_harmless g ->
  idle (adj (d_graph d)) s -> search_idle q -> NoDup evs -> (forall v, In v evs -> v < num_nodes g) ->
  corrects g F evs -> manageable g F ->
  exists K s' q' w F,
    (forall fuel, K <= fuel -> py_decode d fuel fuel orc orc2 machine_ints s q evs = Ok (s', q', (map (fun i => flips_observable i F) (seq 0 (nobs g)), w))) /\
    idle (adj (d_graph d)) s' /\ search_idle q' /\ corrects g F evs /\ near_best g F evs /\ weight_reported g w F.
Proof. exact (fun n k ops ens d orc orc2 s q evs F IDS HD HARM HI HQ ND IR => calls_decode_machine n k ops IDS ens d HD HARM orc orc2 s q evs HI HQ ND IR F). Qed.
Print Assumptions C49_decode_machine.

(** If no set of edges explains the detection events, decoding raises an error. *)
Theorem C49_no_correction : forall n k (ops : list (op RN)) ensure_search_graph d orc orc2 s q evs,
  let g := run (new_graph RN n k) ops in
  fault_ids_in_range g -> build_decoder g ensure_search_graph = Ok d ->
  idle (adj (d_graph d)) s -> NoDup evs -> (forall v, In v evs -> v < num_nodes g) ->
  (forall F, ~ corrects g F evs) ->
  exists K, forall fuel, K <= fuel -> py_decode d fuel fuel orc orc2 exact_ints s q evs = Throw.
Proof. exact (fun n k ops ens d orc orc2 s q evs IDS HD HI ND IR => calls_throw n k ops IDS ens d HD orc orc2 s q evs HI ND IR). Qed.
Print Assumptions C49_no_correction.

(** Solution edges; needs the search graph and no self-loop of negative weight (C05). *)
Theorem C49_decode_to_edges : forall n k (ops : list (op RN)) d orc orc2 s q M evs,
  let g := run (new_graph RN n k) ops in
  fault_ids_in_range g -> build_decoder g true = Ok d -> conversion_harmless g ->
  (forall e, In e (edges g) -> node2 e = Some (node1 e) -> (0 <= weight e)%R) ->
  idle (adj (d_graph d)) s -> search_idle q -> (forall sg, d_search d = Some sg -> unmarked (sadj sg) M) ->
  NoDup evs -> (forall v, In v evs -> v < num_nodes g) -> (exists F, corrects g F evs) ->
  exists K s' q' M' out F,
    (forall fuel, K <= fuel -> py_decode_to_edges d fuel fuel orc orc2 exact_ints s q M evs = Ok (s', q', M', out)) /\
    idle (adj (d_graph d)) s' /\ search_idle q' /\ (forall u i, M' u i = M u i) /\ shows_edges g out F /\ corrects g F evs /\ near_best g F evs.
Proof.
  exact (fun n k ops d orc orc2 s q M evs IDS HD HARM NL HI HQ UM ND IR => calls_edges n k ops IDS true d HD HARM orc orc2 s q evs HI HQ ND IR M UM NL eq_refl).
Qed.
Print Assumptions C49_decode_to_edges.
Theorem C49_decode_to_edges_machine : forall n k (ops : list (op RN)) d orc orc2 s q M evs F,
  let g := run (new_graph RN n k) ops in
  fault_ids_in_range g -> build_decoder g true = Ok d -> conversion_harmless g ->
  (forall e, In e (edges g) -> node2 e = Some (node1 e) -> (0 <= weight e)%R) ->
  idle (adj (d_graph d)) s -> search_idle q -> (forall sg, d_search d = Some sg -> unmarked (sadj sg) M) ->
  NoDup evs -> (forall v, In v evs -> v < num_nodes g) -> corrects g F evs -> manageable g F ->
  exists K s' q' M' out F,
    (forall fuel, K <= fuel -> py_decode_to_edges d fuel fuel orc orc2 machine_ints s q M evs = Ok (s', q', M', out)) /\
    idle (adj (d_graph d)) s' /\ search_idle q' /\ (forall u i, M' u i = M u i) /\ shows_edges g out F /\ corrects g F evs /\ near_best g F evs.
Proof.
  exact (fun n k ops d orc orc2 s q M evs F IDS HD HARM NL HI HQ UM ND IR => calls_edges_machine n k ops IDS true d HD HARM orc orc2 s q evs HI HQ ND IR M UM NL eq_refl F).
Qed.
Print Assumptions C49_decode_to_edges_machine.
Theorem C49_no_correction_to_edges : forall n k (ops : list (op RN)) d orc orc2 s q M evs,
  let g := run (new_graph RN n k) ops in
  fault_ids_in_range g -> build_decoder g true = Ok d ->
  idle (adj (d_graph d)) s -> NoDup evs -> (forall v, In v evs -> v < num_nodes g) -> (forall F, ~ corrects g F evs) ->
  exists K, forall fuel, K <= fuel -> py_decode_to_edges d fuel fuel orc orc2 exact_ints s q M evs = Throw.
Proof. exact (fun n k ops d orc orc2 s q M evs IDS HD HI ND IR => calls_edges_throw n k ops IDS true d HD orc orc2 s q evs HI ND IR M eq_refl). Qed.
Print Assumptions C49_no_correction_to_edges.

(** When the conversion is harmless. *)
Theorem C49_harmless_without_negative_weights : forall g : ugraph RN, (forall e, In e (edges g) -> (0 <= weight e)%R) -> conversion_harmless g.
Proof. exact harmless_positive. Qed.
Print Assumptions C49_harmless_without_negative_weights.
Theorem C49_harmless_without_boundary_nodes : forall n k (ops : list (op RN)), bnodes (run (new_graph RN n k) ops) = [] -> conversion_harmless (run (new_graph RN n k) ops).
Proof. exact (fun n k ops => harmless_virtual _ (calls_inv n k ops)). Qed.
Print Assumptions C49_harmless_without_boundary_nodes.

(** Node 2 is a boundary node; one weight is negative, and the weights are not integers.  The detection event at node 0 is
    explained by the edges 0-1 and 1-2. *)
Definition ex_ops : list (op RN) :=
  [ @OpAdd RN 0 (Some 1) [0] (3/2)%R (-1)%R INDEPENDENT; @OpAdd RN 1 (Some 2) [1] (-2)%R (-1)%R INDEPENDENT;
    @OpAdd RN 0 None [] (5/2)%R (-1)%R INDEPENDENT; @OpSetBoundary RN [2] ].
Definition ex_e1 : uedge RN := @mkE RN 0 (Some 1) [0] (3/2)%R (-1)%R.
Definition ex_e2 : uedge RN := @mkE RN 1 (Some 2) [1] (-2)%R (-1)%R.
Definition ex_e3 : uedge RN := @mkE RN 0 None [] (5/2)%R (-1)%R.
Lemma fits : forall w : R, (-16777215 <= w <= 16777215)%R -> w_exceeds RN w = false.
Proof. intros w H. cbn [w_exceeds RN]. unfold Rltb, max_user_weight. destruct (Rlt_dec _ _) as [L|]; [|reflexivity]. pose proof (Rabs_le w 16777215 (conj (proj1 H) (proj2 H))). lra. Qed.
Example C49_example : let g := run (new_graph RN 2 0) ex_ops in
  edges g = [ex_e1; ex_e2; ex_e3] /\ bnodes g = [2] /\ num_nodes g = 3 /\ nobs g = 2 /\
  fault_ids_in_range g /\ scalable g /\ conversion_harmless g /\ corrects g [ex_e1; ex_e2] [0] /\ manageable g [ex_e1; ex_e2] /\
  (forall e, In e (edges g) -> node2 e = Some (node1 e) -> (0 <= weight e)%R).
Proof.
  set (g := run _ _). assert (Q : edges g = [ex_e1; ex_e2; ex_e3] /\ bnodes g = [2] /\ num_nodes g = 3 /\ nobs g = 2).
  { unfold g, ex_ops, run. cbn [fold_left apply_op]. unfold py_add. rewrite !fits by lra. split; [reflexivity|]. split; [reflexivity|]. split; reflexivity. }
  destruct Q as (Q1 & Q2 & Q3 & Q4). cbv zeta. repeat (split; [assumption|]). split; [|split; [|split; [|split; [|split]]]].
  - intros e x He Hx. rewrite Q4. rewrite Q1 in He. destruct He as [<-|[<-|[<-|[]]]]; cbn in Hx; lia.
  - apply (scalable_some g ex_e1); [rewrite Q1; now left|]. cbn. rewrite Rabs_right; lra.
  - split.
    + intros e He Hb. rewrite Q1 in He. rewrite Q2 in Hb. destruct He as [<-|[<-|[<-|[]]]]; cbn in Hb; exfalso; lia.
    + intros e f u He Hf N [H1 H2] [H3 H4]. rewrite Q1 in He, Hf. rewrite Q2 in *.
      destruct He as [<-|[<-|[<-|[]]]], Hf as [<-|[<-|[<-|[]]]]; try (elim N; reflexivity); cbn [ex_e1 ex_e2 ex_e3 node1 node2 weight at_boundary] in *; rewrite ?Q2 in *; cbn in *;
        try lra; exfalso; clear - H2 H4; intuition congruence.
  - split; [|split].
    + constructor; [intros [H|[]]; discriminate|]. constructor; [intros []|constructor].
    + intros e [<-|[<-|[]]]; rewrite Q1; cbn; auto.
    + intros v Hv. rewrite Q2 in Hv. destruct v as [|[|[|v]]]; cbn in *; intuition congruence.
  - left. exists [ex_e2]. split; [|left; cbn; lia]. intros e He Hw. rewrite Q1 in He. destruct He as [<-|[<-|[<-|[]]]]; cbn in Hw |- *; auto; exfalso; lra.
  - intros e He Hl. rewrite Q1 in He. destruct He as [<-|[<-|[<-|[]]]]; cbn in Hl; congruence.
Qed.
(** One edge and no boundary: a single detection event has no correction. *)
Example C49_no_correction_example : let g := run (new_graph RN 2 0) [ @OpAdd RN 0 (Some 1) [0] (3/2)%R (-1)%R INDEPENDENT ] in
  fault_ids_in_range g /\ num_nodes g = 2 /\ forall F, ~ corrects g F [0].
Proof.
  set (g := run _ _). assert (Q : edges g = [ex_e1] /\ bnodes g = [] /\ num_nodes g = 2 /\ nobs g = 1).
  { unfold g, run. cbn [fold_left apply_op]. unfold py_add. rewrite !fits by lra. split; [reflexivity|]. split; [reflexivity|]. split; reflexivity. }
  destruct Q as (Q1 & Q2 & Q3 & Q4). cbv zeta. split; [|split; [exact Q3|]].
  - intros e x He Hx. rewrite Q4. rewrite Q1 in He. destruct He as [<-|[]]; cbn in Hx; lia.
  - intros F (N & HF & H). rewrite Q1 in HF. rewrite Q2 in H. pose proof (H 0 (fun x => x)) as H0. pose proof (H 1 (fun x => x)) as H1. destruct F as [|e F].
    + destruct H0 as [_ H0]. specialize (H0 (or_introl eq_refl)). discriminate.
    + assert (F = []) as -> by (inversion N as [|? ? N1 N2]; destruct F as [|f F]; [reflexivity|]; elim N1; destruct (HF e (or_introl eq_refl)) as [<-|[]]; destruct (HF f (or_intror (or_introl eq_refl))) as [<-|[]]; now left).
      destruct (HF e (or_introl eq_refl)) as [<-|[]]. destruct H1 as [H1 _]. specialize (H1 eq_refl). cbn in H1. lia.
Qed.
(** Seventy detectors, each with an edge of its own to the boundary, and an event at every one of them: the correction has seventy edges, each detector is one step from the boundary. *)
Definition star_ops : list (op RN) := map (fun i => @OpAdd RN i None [] 3%R (-1)%R INDEPENDENT) (seq 0 70).
Definition star_edge (i : nat) : uedge RN := @mkE RN i None [] 3%R (-1)%R.
Example C49_star_example : let g := run (new_graph RN 70 0) star_ops in
  edges g = map star_edge (seq 0 70) /\ bnodes g = [] /\ num_nodes g = 70 /\ corrects g (edges g) (seq 0 70) /\ compact g.
Proof.
  set (g := run _ _). assert (Q : edges g = map star_edge (seq 0 70) /\ bnodes g = [] /\ num_nodes g = 70).
  { assert (X : forall k, k <= 70 -> let g := run (new_graph RN 70 0) (map (fun i => @OpAdd RN i None [] 3%R (-1)%R INDEPENDENT) (seq 0 k)) in edges g = map star_edge (seq 0 k) /\ bnodes g = [] /\ num_nodes g = 70).
    { induction k as [|k IH]; intros Hk; [repeat split; reflexivity|]. cbv zeta in *. destruct (IH ltac:(lia)) as (I1 & I2 & I3). rewrite seq_S, map_app. unfold run in *. rewrite fold_left_app. set (g0 := fold_left apply_op (map _ (seq 0 k)) _) in *. cbn [map fold_left apply_op plus].
      assert (INV : Inv g0) by exact (run_inv (map (fun i => @OpAdd RN i None [] 3%R (-1)%R INDEPENDENT) (seq 0 k)) _ (new_inv 70 0)). unfold py_add. rewrite (fits 3) by lra. unfold add_or_merge. cbn [fst].
      replace (resize (nodes g0) (k + 1)) with (nodes g0) by (symmetry; apply resize_same; unfold num_nodes in I3; lia).
      destruct (index_of_neighbor (edges g0) (nbrs (node_at (nodes g0) k)) None) as [i|] eqn:Ei.
      - exfalso. destruct INV as (A & B & _). pose proof (find_spec (nodes g0) (edges g0) k None A B) as F. rewrite Ei in F. destruct F as (e & F1 & F2). apply nth_error_In in F1. rewrite I1 in F1. apply in_map_iff in F1 as (j & <- & F1). apply in_seq in F1.
        destruct F2 as [[F2 _]|[F2 _]]; [cbn in F2; lia|discriminate].
      - cbn [fst edges bnodes nodes]. rewrite I1, map_app. split; [reflexivity|]. split; [exact I2|]. unfold num_nodes. cbn [nodes]. rewrite upd_nth_length. exact I3. }
    exact (X 70 (le_n _)). }
  destruct Q as (Q1 & Q2 & Q3). cbv zeta. split; [exact Q1|]. split; [exact Q2|]. split; [exact Q3|]. split.
  - split; [rewrite Q1; apply FinFun.Injective_map_NoDup; [intros a b H; now injection H|apply seq_NoDup]|]. split; [intros e He; exact He|]. intros v _. rewrite Q1.
    assert (X : forall n s, Nat.odd (total_degree v (map star_edge (seq s n))) = (s <=? v) && (v <? s + n)).
    { induction n as [|n IH]; intros s; [cbn [seq map]; destruct (Nat.leb_spec s v), (Nat.ltb_spec v (s + 0)); try reflexivity; lia|]. cbn [seq map]. unfold total_degree in *. cbn [map fold_right]. rewrite Nat.odd_add, IH. unfold edge_ends, star_edge. cbn [node1 node2].
      destruct (Nat.eqb_spec s v), (Nat.leb_spec s v), (Nat.leb_spec (S s) v), (Nat.ltb_spec v (S s + n)), (Nat.ltb_spec v (s + S n)); try reflexivity; lia. }
    rewrite X, andb_true_iff, Nat.leb_le, Nat.ltb_lt, in_seq. reflexivity.
  - left. apply single_steps. intros [u [v|]] (e & He & S); [|reflexivity]. exfalso. rewrite Q1 in He. apply in_map_iff in He as (i & <- & _). unfold shows in S. cbn [fst snd] in S. destruct S as (_ & _ & [[_ S]|[_ S]]); discriminate S.
Qed.
