(** C53, C54: the Matching object.

    C53: a user makes a Matching object, changes its graph and asks for decodings, in any order and as often as they like.  Every reply is right
    for the graph as it was at the time of the call: a syndrome array of an accepted shape gets predictions, a weight, edges or pairs that
    belong to a correction as light as any (up to the rounding of the weights) if there is a correction, and an exception if there is none;
    an array of another shape gets an exception, and adding an edge gets an exception exactly if there is one already and merging is not
    allowed.  The decoder is kept between calls until an edge or the boundary changes, also by calls that raise, and runs on radix heaps
    and 32-bit times.  C53_any_syndrome and C53_few_nodes make no assumption about the syndromes.

    C54: the matched pairs of detection events.  Every event that is not at a boundary node is in exactly one pair, and the pairs can be
    joined, without using the boundary for pairs of two events, by sets of edges that together are as light as any correction. *)
From Coq Require Import Reals ZArith NArith List Bool Arith Lia Lra.
From Verif Require Import M_Base M_Core M_CoreHeap M_Build M_Bits S_Bits M_Discretise M_Merge M_Pipeline M_PipelineHeap M_UserGraph S_UserGraph S_Pipeline S_PipelineHeap M_Matching S_Matching
  P_Pipeline P_Pipeline3 P_PipelineHeap P_Matched P_Matching P_MatchingAny T_Pipeline.
Import ListNotations.
Local Open Scope nat_scope.

Theorem C53_session : forall n k (cs : list mcall), all_fair (new_graph RN n k) cs ->
  exists K m' rs, (forall fuel, K <= fuel -> mrun fuel cyclic_ints (new_matching (new_graph RN n k)) cs = Ok (m', rs)) /\ all_right (new_graph RN n k) cs rs.
Proof. exact session_ok. Qed.
Print Assumptions C53_session.

(** If the graph is compact whenever something is asked (no two connected nodes are further apart than 32 bits can tell), anything may be asked. *)
Theorem C53_any_syndrome : forall n k (cs : list mcall), always (fun g c => in_range g c /\ (asks c -> compact g)) (new_graph RN n k) cs ->
  exists K m' rs, (forall fuel, K <= fuel -> mrun fuel cyclic_ints (new_matching (new_graph RN n k)) cs = Ok (m', rs)) /\ all_right (new_graph RN n k) cs rs.
Proof. exact any_ok. Qed.
Print Assumptions C53_any_syndrome.

(** So it is, whatever the weights, with at most 64 nodes. *)
Theorem C53_few_nodes : forall n k (cs : list mcall), always (fun g c => in_range g c /\ (asks c -> num_nodes g <= 64)) (new_graph RN n k) cs ->
  exists K m' rs, (forall fuel, K <= fuel -> mrun fuel cyclic_ints (new_matching (new_graph RN n k)) cs = Ok (m', rs)) /\ all_right (new_graph RN n k) cs rs.
Proof. exact few_ok. Qed.
Print Assumptions C53_few_nodes.

Theorem C54_matched_pairs : forall n k (ops : list (op RN)) ensure_search_graph d r evs F,
  let g := run (new_graph RN n k) ops in
  fault_ids_in_range g -> build_decoder g ensure_search_graph = Ok d -> conversion_harmless g -> (forall e, In e (edges g) -> (0 <= weight e)%R) ->
  ready d r -> NoDup evs -> (forall v, In v evs -> v < num_nodes g) -> corrects g F evs -> manageable g F ->
  exists K r' l out, (forall fuel, K <= fuel -> match_edges_h fuel cyclic_ints d r evs = Ok (Some (r', l))) /\ pairs_of l = Ok out /\ ready d r' /\
    right_pairs g (fun v => In v evs) out.
Proof. exact calls_pairs_h. Qed.
Print Assumptions C54_matched_pairs.

(** ** Cases that meet the hypotheses *)
(** The graph of C49_example is made by calls.  Then: one syndrome, in two shapes; a batch of two packed shots; more observables, and the
    syndrome again with an entry for the boundary node; the weight of edge 1-2 becomes positive; the pairs for events at nodes 0 and 1;
    the same as a dictionary; an edge that exists already; arrays of wrong shapes. *)
Definition ex_e2' : uedge RN := @mkE RN 1 (Some 2) [1] 2%R (-1)%R.
Definition ex_calls : list mcall := map Modify ex_ops ++
  [ AskDecode (Syn1 [1; 0]%Z); AskEdges (Syn2 1 [[1]; [0]]%Z); AskBatch true true (Syn2 1 [[1]; [0]]%Z); Modify (@OpMinObs RN 70); AskDecode (Syn1 [1; 0; 1]%Z);
    Modify (@OpAdd RN 1 (Some 2) [1] 2%R (-1)%R REPLACE); AskPairs (Syn1 [1; 1]%Z); AskDict (Syn1 [1; 1]%Z);
    Modify (@OpAdd RN 2 (Some 1) [1] 2%R (-1)%R DISALLOW); AskDecode SynOther; AskBatch false false (Syn2 5 []) ].
Lemma harmless_nonneg : forall g : ugraph RN, (forall e, In e (edges g) -> (0 <= weight e)%R) -> conversion_harmless g.
Proof. intros g H. split; [intros e He _ _; now apply H|]. intros e f u He Hf _ _ _. pose proof (H e He). pose proof (H f Hf). lra. Qed.
Example C53_session_example : all_fair (new_graph RN 2 0) ex_calls.
Proof.
  destruct C49_example as (Q1 & Q2 & Q3 & Q4 & H1 & HSC & H2 & H3 & H4 & H5).
  unfold ex_calls. cbn [map app ex_ops all_fair fair after]. do 4 (split; [exact I|]).
  set (g := apply_op (apply_op (apply_op (apply_op _ _) _) _) _). change (run (new_graph RN 2 0) ex_ops) with g in *.
  assert (S0 : manageable g []).
  { left. exists [ex_e2]. split; [|left; cbn; lia]. intros e He Hw. rewrite Q1 in He. destruct He as [<-|[<-|[<-|[]]]]; cbn in Hw |- *; auto; exfalso; lra. }
  assert (C0 : corrects g [] []). { split; [constructor|]. split; [intros e []|]. intros v _. cbn. split; [discriminate|intros []]. }
  assert (U : usable g) by (split; [|split]; assumption).
  assert (X1 : explainable g (event_at (Syn1 [1; 0]%Z))).
  { exists [0], [ex_e1; ex_e2]. split; [|split; assumption]. intros [|[|[|v]]]; cbn; split; intros H; auto; try lia. }
  split; [intros _; split; [assumption|now left]|].
  assert (X2 : explainable g (event_at (Syn2 1 [[1]; [0]]%Z))).
  { exists [0], [ex_e1; ex_e2]. split; [|split; assumption]. intros v. cbn. split.
    - intros [<-|[]]. exists 0, 0. split; [lia|discriminate].
    - intros (t & c & (Ht & Hc & ->) & Hn). destruct t as [|t]; [|lia]. destruct c as [|[|c]]; [auto|cbn in Hn; lia|lia]. }
  split; [intros _; split; [exact U|]; split; [exact H5|left; exact X2]|].
  split.
  { intros _. split; [exact U|]. constructor; [|constructor; [|constructor]].
    - left. exists [0], [ex_e1; ex_e2]. split; [|split; assumption]. intros v. cbn [shot_event]. unfold packed_bit. do 8 (destruct v as [|v]; [cbn; split; intros H; auto; try lia; discriminate|]).
      split; [intros [H|[]]; lia|]. intros H. exfalso. rewrite nth_overflow in H; [rewrite Z.bits_0 in H; discriminate|]. cbn [length]. apply Nat.div_le_lower_bound; lia.
    - left. exists [], []. split; [|split; assumption]. intros v. cbn [shot_event]. unfold packed_bit. split; [intros []|]. intros H. destruct (v / 8) as [|[|j]]; cbn in H; rewrite Z.bits_0 in H; discriminate. }
  split; [exact I|]. set (g1 := apply_op g (@OpMinObs RN 70)). assert (U1 : usable g1).
  { split; [|exact (proj2 U)]. intros e o He Ho. pose proof (proj1 U e o He Ho) as L. rewrite Q4 in L. cbn [g1 apply_op set_min_num_observables nobs]. rewrite Q4. cbn. lia. }
  split.
  { intros _. split; [exact U1|]. left. exists [0; 2], [ex_e1; ex_e2]. split; [intros [|[|[|[|v]]]]; cbn; split; intros H; auto; try lia|]. split; [|exact H4].
    destruct H3 as (A & B & C). split; [exact A|]. split; [exact B|]. intros v Hv. change (~ In v (bnodes g)) in Hv. rewrite (C v Hv). rewrite Q2 in Hv. cbn in Hv |- *. intuition. }
  split; [exact I|]. set (g2 := apply_op g1 _).
  assert (P : edges g2 = [ex_e1; ex_e2'; ex_e3] /\ bnodes g2 = [2] /\ num_nodes g2 = 3 /\ nobs g2 = 70).
  { unfold g2, g1, g. cbn [fold_left apply_op]. unfold py_add. rewrite !fits by lra. repeat split; reflexivity. }
  destruct P as (P1 & P2 & P3 & P4).
  assert (POS : forall e, In e (edges g2) -> (0 <= weight e)%R). { rewrite P1. intros e [<-|[<-|[<-|[]]]]; cbn; lra. }
  assert (U2 : usable g2).
  { split; [|split; [apply (scalable_some g2 ex_e1); [rewrite P1; now left|]; cbn; rewrite Rabs_right; lra|exact (harmless_nonneg g2 POS)]]. intros e o. rewrite P1, P4. intros [<-|[<-|[<-|[]]]]; cbn; lia. }
  assert (X3 : explainable g2 (event_at (Syn1 [1; 1]%Z))).
  { exists [0; 1], [ex_e1]. split; [intros [|[|[|v]]]; cbn; split; intros H; auto; try lia|]. split.
    - split; [repeat constructor; intros []|]. split; [rewrite P1; intros e [<-|[]]; now left|]. intros v _. cbn. destruct v as [|[|v]]; cbn; split; intros H; auto; try discriminate. lia.
    - left. exists []. split; [|left; cbn; lia]. intros e He Hw. specialize (POS e He). lra. }
  assert (A3 : askable g2 (event_at (Syn1 [1; 1]%Z))) by now left. split; [intros _; auto|]. split; [intros _; auto|]. split; [exact I|].
  split; [intros []|]. split; [|exact I]. intros H. exfalso. cbn [accepted_batch] in H.
  assert (N : num_nodes (apply_op g2 (@OpAdd RN 2 (Some 1) [1] 2%R (-1)%R DISALLOW)) = 3).
  { unfold g2, g1, g. cbn [fold_left apply_op]. unfold py_add. rewrite !fits by lra. reflexivity. }
  rewrite N in H. lia.
Qed.
(** Nodes 0, 1, 2 in a row, no boundary.  A single event cannot be explained: the reply to the first syndrome has to be an exception, and so
    has that to the batch, whose second shot has three events.  The replies to the others have to be answers. *)
Definition row_calls : list mcall :=
  [ Modify (@OpAdd RN 0 (Some 1) [0] 1%R (-1)%R INDEPENDENT); Modify (@OpAdd RN 1 (Some 2) [1] (5/2)%R (-1)%R INDEPENDENT);
    AskDecode (Syn1 [1; 0; 0]%Z); AskDecode (Syn1 [1; 0; 1]%Z); AskBatch false false (Syn2 3 [[1; 0; 1]; [1; 1; 1]]%Z); AskPairs (Syn1 [0; 1; 0]%Z); AskEdges (Syn1 [0; 1; 1]%Z) ].
Example C53_few_nodes_example : always (fun g c => in_range g c /\ (asks c -> num_nodes g <= 64)) (new_graph RN 0 0) row_calls /\
  let g := run (new_graph RN 0 0) [@OpAdd RN 0 (Some 1) [0] 1%R (-1)%R INDEPENDENT; @OpAdd RN 1 (Some 2) [1] (5/2)%R (-1)%R INDEPENDENT] in
  accepted g (Syn1 [1; 0; 0]%Z) /\ ~ solvable g (event_at (Syn1 [1; 0; 0]%Z)) /\ solvable g (event_at (Syn1 [1; 0; 1]%Z)).
Proof.
  set (e1 := @mkE RN 0 (Some 1) [0] 1%R (-1)%R). set (e2 := @mkE RN 1 (Some 2) [1] (5/2)%R (-1)%R).
  unfold row_calls. cbn [always in_range asks after]. set (g := apply_op (apply_op _ _) _). change (run (new_graph RN 0 0) _) with g.
  assert (P : edges g = [e1; e2] /\ bnodes g = [] /\ num_nodes g = 3 /\ nobs g = 2).
  { unfold g. cbn [apply_op]. unfold py_add. rewrite !fits by lra. repeat split; reflexivity. }
  destruct P as (P1 & P2 & P3 & P4).
  assert (POS : forall e, In e (edges g) -> (0 <= weight e)%R). { rewrite P1. intros e [<-|[<-|[]]]; cbn; lra. }
  assert (U : usable g).
  { split; [|split; [apply (scalable_some g e1); [rewrite P1; now left|]; cbn; rewrite Rabs_right; lra|exact (harmless_nonneg g POS)]]. intros e o. rewrite P1, P4. intros [<-|[<-|[]]]; cbn; lia. }
  assert (NL : no_negative_loop g) by (intros e He _; now apply POS). split.
  - do 2 (split; [split; [exact I|intros []]|]). do 2 (split; [split; [exact U|intros _; lia]|]). split; [split; [split; [exact U|]|intros _; lia]|].
    + constructor; [|constructor; [|constructor]]; intros v; rewrite P3; cbn [shot_event]; intros H; destruct (Nat.lt_ge_cases v 3) as [L|L]; auto; rewrite nth_overflow in H by (cbn; lia); contradiction.
    + split; [split; [split; assumption|intros _; lia]|]. split; [split; [split; assumption|intros _; lia]|exact I].
  - cbv zeta. split; [cbn [accepted]; unfold num_detectors; rewrite P2, P3; cbn; lia|]. split.
    + intros (evs & F & HE & ND & IN & HO). rewrite P1 in IN. rewrite P2 in HO.
      assert (H0 : Nat.odd (total_degree 0 F) = true) by (apply HO; [intros []|]; apply HE; cbn; discriminate).
      assert (H1 : Nat.odd (total_degree 1 F) <> true) by (intros H; apply HO in H; [|intros []]; apply HE in H; now cbn in H).
      assert (H2 : Nat.odd (total_degree 2 F) <> true) by (intros H; apply HO in H; [|intros []]; apply HE in H; now cbn in H). clear HO HE.
      destruct F as [|a F]; [discriminate|]. destruct (IN a (or_introl eq_refl)) as [<-|[<-|[]]].
      * destruct F as [|b F]; [now apply H1|]. apply NoDup_cons_iff in ND as [N1 N2]. destruct (IN b (or_intror (or_introl eq_refl))) as [<-|[<-|[]]]; [apply N1; now left|].
        destruct F as [|c F]; [now apply H2|]. apply NoDup_cons_iff in N2 as [N2 _]. destruct (IN c (or_intror (or_intror (or_introl eq_refl)))) as [<-|[<-|[]]]; [apply N1; right; now left|apply N2; now left].
      * destruct F as [|b F]; [now apply H2|]. apply NoDup_cons_iff in ND as [N1 N2]. destruct (IN b (or_intror (or_introl eq_refl))) as [<-|[<-|[]]]; [|apply N1; now left].
        destruct F as [|c F]; [now apply H2|]. apply NoDup_cons_iff in N2 as [N2 _]. destruct (IN c (or_intror (or_intror (or_introl eq_refl)))) as [<-|[<-|[]]]; [apply N2; now left|apply N1; right; now left].
    + exists [0; 2], [e1; e2]. split; [intros [|[|[|[|v]]]]; cbn; split; intros H; auto; try lia|]. split; [|split; [rewrite P1; intros e He; exact He|]].
      * constructor; [|repeat constructor; intros []]. intros [H|[]]. discriminate.
      * intros v _. destruct v as [|[|[|v]]]; cbn; split; intros H; auto; try discriminate; lia.
Qed.
(** The hypotheses of C54 for the events at nodes 0 and 1 of that graph with the weight of edge 1-2 made positive. *)
Definition ex_ops' : list (op RN) := ex_ops ++ [@OpAdd RN 1 (Some 2) [1] 2%R (-1)%R REPLACE].
Example C54_example : let g := run (new_graph RN 2 0) ex_ops' in
  fault_ids_in_range g /\ conversion_harmless g /\ (forall e, In e (edges g) -> (0 <= weight e)%R) /\ (forall v, In v [0; 1] -> v < num_nodes g) /\
  corrects g [ex_e1] [0; 1] /\ manageable g [ex_e1] /\ exists d, build_decoder g false = Ok d /\ ready d (run_init d).
Proof.
  set (g := run _ _). cbv zeta. assert (P : edges g = [ex_e1; ex_e2'; ex_e3] /\ bnodes g = [2] /\ num_nodes g = 3 /\ nobs g = 2).
  { unfold g, ex_ops', ex_ops, run. cbn [fold_left apply_op app]. unfold py_add. rewrite !fits by lra. repeat split; reflexivity. }
  destruct P as (P1 & P2 & P3 & P4).
  assert (POS : forall e, In e (edges g) -> (0 <= weight e)%R). { rewrite P1. intros e [<-|[<-|[<-|[]]]]; cbn; lra. }
  assert (IDS : fault_ids_in_range g). { intros e o. rewrite P1, P4. intros [<-|[<-|[<-|[]]]]; cbn; lia. }
  split; [exact IDS|]. split; [exact (harmless_nonneg g POS)|]. split; [exact POS|]. split; [rewrite P3; intros v [<-|[<-|[]]]; lia|]. split; [|split].
  - split; [repeat constructor; intros []|]. split; [rewrite P1; intros e [<-|[]]; now left|]. intros v _. cbn. destruct v as [|[|v]]; cbn; split; intros H; auto; try discriminate. lia.
  - left. exists []. split; [|left; cbn; lia]. intros e He Hw. specialize (POS e He). lra.
  - assert (SC : scalable g) by (apply (scalable_some g ex_e1); [rewrite P1; now left|]; cbn; rewrite Rabs_right; lra).
    destruct (calls_build 2 0 ex_ops' IDS SC false) as (d & HD & _). exists d. split; [exact HD|]. exact (new_ready 2 0 ex_ops' IDS false d HD).
Qed.
