(** The search on the radix heap is the search of M_Search.v in which the oracle picks what the heap delivers. *)
From Coq Require Import ZArith NArith List Bool Arith Lia Permutation.
From Verif Require Import M_Base M_Cyclic M_RadixHeap S_RadixHeap P_RadixHeap M_Tracker M_Core M_CoreHeap M_Build M_Flip M_Search M_ToEdges M_SearchHeap S_Core S_Search S_SearchHeap
  P_Tree P_CoreGeo P_CoreSched P_CoreQueue P_Reweight P_Search P_Search2 P_Search3 P_CoreSim P_CoreHeap.
Import ListNotations.
Local Open Scope Z_scope.

Definition spunctual (s : search) : Prop := forall t i, In (t, i) (sque s) -> snow s <= t.
Record sgood (s : search) : Prop := {
  sg_q : forall v, has_queued (strk s v) = true -> In (queued_time (strk s v), INode v) (sque s);
  sg_up : forall t i, In (t, i) (sque s) -> t < snow s + window;
  sg_d : forall v, has_queued (strk s v) = true -> has_desired (strk s v) = true -> queued_time (strk s v) <= desired_time (strk s v) < snow s + window }.
Record sstep (s s' : search) : Prop := {
  ss_tick : stick s' = stick s;
  ss_now : snow s' = snow s;
  ss_que : exists new, sque s' = new ++ sque s;
  ss_good : sgood s -> sgood s' }.
Lemma sstep_refl : forall s, sstep s s. Proof. intros s. split; auto. exists []. reflexivity. Qed.
Lemma sstep_trans : forall a b c, sstep a b -> sstep b c -> sstep a c.
Proof. intros a b c [A1 A2 [n1 A3] A4] [B1 B2 [n2 B3] B4]. split; [congruence|congruence| |auto]. exists (n2 ++ n1). rewrite B3, A3. apply app_assoc. Qed.
Lemma sstep_punctual : forall s s', sstep s s' -> spunctual s' -> spunctual s.
Proof. intros s s' [_ E [new Q] _] H t i Hi. rewrite <- E. apply (H t i). rewrite Q. apply in_or_app. now right. Qed.
Lemma sstep_ext : forall s s', strk s' = strk s -> sque s' = sque s -> snow s' = snow s -> stick s' = stick s -> sstep s s'.
Proof. intros s s' E1 E2 E3 E4. split; auto; [exists []; now rewrite E2|]. intros [A1 A2 A3]. split; rewrite ?E1, ?E2, ?E3; auto. Qed.

Lemma wake_step : forall s v t, sstep s (wake spy_ints s v t).
Proof.
  intros s v t. pose proof (spy_lt (snow s) t) as HL. unfold wake, set_desired. set (t' := to_time spy_ints (snow s) t) in *. set (x := strk s v).
  destruct (negb (has_queued x) || later spy_ints (queued_time x) t') eqn:E; cbn [fold_left]; (split; [reflexivity|reflexivity| |]).
  - exists [(t', INode v)]. reflexivity.
  - intros [A1 A2 A3]. split; cbn [set_strk set_sque strk sque snow].
    + intros u. unfold upd. destruct (Nat.eqb_spec u v) as [->|]; [intros _; now left|]. intros Hu. right. now apply A1.
    + intros a i [Ha|Ha]; [injection Ha as <- <-; exact HL|eapply A2; eassumption].
    + intros u. unfold upd. destruct (Nat.eqb_spec u v) as [->|]; [intros _ _; cbn [queued_time desired_time]; lia|]. apply A3.
  - exists []. reflexivity.
  - apply orb_false_iff in E as [E EL]. apply negb_false_iff in E. cbn [later spy_ints] in EL. rewrite Z.gtb_ltb in EL. apply Z.ltb_ge in EL. intros [A1 A2 A3]. split; cbn [set_strk strk sque snow]; auto.
    + intros u. unfold upd. destruct (Nat.eqb_spec u v) as [->|]; [intros _; now apply A1|]. apply A1.
    + intros u. unfold upd. destruct (Nat.eqb_spec u v) as [->|]; [intros _ _; cbn [queued_time desired_time]; lia|]. apply A3.
Qed.
Lemma wake_same : forall s v t, sgood s -> spunctual (wake spy_ints s v t) -> wake cyclic_ints s v t = wake spy_ints s v t.
Proof.
  intros s v t HG HP. pose proof (sstep_punctual _ _ (wake_step s v t) HP) as HP0. assert (HW : snow s <= t < snow s + window).
  { destruct (Z_le_dec (snow s) t) as [H1|H1]; [destruct (Z_lt_dec t (snow s + window)) as [H2|H2]; [lia|]|]; exfalso;
    (assert (Et : to_time spy_ints (snow s) t = snow s - 1) by (apply outside_time; lia));
    unfold wake, set_desired in HP; rewrite Et in HP; destruct (negb (has_queued (strk s v)) || later spy_ints (queued_time (strk s v)) (snow s - 1)) eqn:E; cbn [fold_left] in HP;
    [ pose proof (HP (snow s - 1) (INode v) (or_introl eq_refl)) as X; cbn [set_strk set_sque snow] in X; lia
    | apply orb_false_iff in E as [E EL]; apply negb_false_iff in E; cbn [later spy_ints] in EL; rewrite Z.gtb_ltb in EL; apply Z.ltb_ge in EL; pose proof (HP0 _ _ (sg_q _ HG v E)); lia
    | pose proof (HP (snow s - 1) (INode v) (or_introl eq_refl)) as X; cbn [set_strk set_sque snow] in X; lia
    | apply orb_false_iff in E as [E EL]; apply negb_false_iff in E; cbn [later spy_ints] in EL; rewrite Z.gtb_ltb in EL; apply Z.ltb_ge in EL; pose proof (HP0 _ _ (sg_q _ HG v E)); lia ]. }
  destruct (window_time _ _ HW) as [T1 T2]. unfold wake, set_desired. rewrite T1, T2. destruct (has_queued (strk s v)) eqn:E; [|reflexivity]. cbn [negb orb].
  rewrite (cyclic_later (snow s)); [reflexivity| |assumption]. pose proof (sg_q _ HG v E) as Hi. split; [exact (HP0 _ _ Hi)|exact (sg_up _ HG _ _ Hi)].
Qed.

Section Search.
Variable G : graph.
Lemma sreschedule_sim : forall s v s', sreschedule G spy_ints s v = Ok s' -> sstep s s' /\ (sgood s -> spunctual s' -> sreschedule G cyclic_ints s v = Ok s').
Proof.
  intros s v s'. unfold sreschedule. destruct (find_next G s v) as [[[k t]|]| | |]; cbn [bindO]; try discriminate; intros E; injection E as <-.
  - split; [apply wake_step|]. intros HG HP. f_equal. now apply wake_same.
  - split; [|auto]. split; [reflexivity|reflexivity|exists []; reflexivity|]. intros [A1 A2 A3]. split; cbn [set_strk strk sque snow]; auto.
    + intros u. unfold upd. destruct (Nat.eqb_spec u v) as [->|]; [|apply A1]. cbn [set_no_desired has_queued queued_time]. apply A1.
    + intros u. unfold upd. destruct (Nat.eqb_spec u v) as [->|]; [|apply A3]. cbn [set_no_desired has_desired]. discriminate.
Qed.
Lemma reach_step : forall s v a p d, sstep s (reach s v a p d). Proof. intros. apply sstep_ext; reflexivity. Qed.
Lemma start_sim : forall s v s', start_at G spy_ints s v = Ok s' -> sstep s s' /\ (sgood s -> spunctual s' -> start_at G cyclic_ints s v = Ok s').
Proof.
  intros s v s' E. destruct (sreschedule_sim _ _ _ E) as [S1 S2]. pose proof (reach_step s v (Some v) None 0) as S0. split; [eapply sstep_trans; eassumption|]. intros HG HP. apply S2; [now apply (ss_good _ _ S0)|assumption].
Qed.
Lemma slook_sim : forall s v s' c, slook G spy_ints s v = Ok (s', c) -> sstep s s' /\ (sgood s -> spunctual s' -> slook G cyclic_ints s v = Ok (s', c)).
Proof.
  intros s v s' c. unfold slook. destruct (find_next G s v) as [[[k t]|]| | |]; cbn [bindO]; try discriminate; [|intros E; injection E as <- <-; split; [apply sstep_refl|auto]].
  destruct (t =? snow s); [|intros E; injection E as <- <-; split; [apply wake_step|]; intros HG HP; now rewrite wake_same].
  destruct (nth_error (nbrs G v) k) as [[[[u|] w] o]|]; try discriminate; [|intros E; injection E as <- <-; split; [apply sstep_refl|auto]].
  destruct (sfrom s v); [|intros E; injection E as <- <-; split; [apply sstep_refl|auto]]. destruct (sfrom s u); [intros E; injection E as <- <-; split; [apply sstep_refl|auto]|].
  destruct (index_of_neighbor G u (Some v)) as [i| | |]; cbn [bindO]; try discriminate. unfold explore. destruct (nth_error (nbrs G u) i) as [[[[y|] w'] o']|]; cbn [bindO]; try discriminate.
  set (s0 := reach s u _ _ _). destruct (sreschedule G spy_ints s0 u) as [s1| | |] eqn:E1; cbn [bindO]; try discriminate. intros E; injection E as <- <-.
  destruct (sreschedule_sim _ _ _ E1) as [S1 S2]. assert (S0 : sstep s s0) by apply reach_step. pose proof (wake_step s1 v (snow s1)) as S3. split; [eapply sstep_trans; [exact S0|eapply sstep_trans; eassumption]|].
  intros HG HP. pose proof (ss_good _ _ S0 HG) as G0. rewrite S2; [|assumption|eapply sstep_punctual; eassumption]. cbn [bindO]. rewrite wake_same; [reflexivity|now apply (ss_good _ _ S1)|assumption].
Qed.

(** ** The queue *)
Record slink (s : search) (h : heap) : Prop := {
  sl_good : sgood s;
  sl_rep : exists new known, sque s = new ++ known /\ Holds h (snow s) known }.
Lemma slink_step : forall s s' h, slink s h -> sstep s s' -> slink s' h.
Proof.
  intros s s' h [H1 (new & known & H2 & H3)] [_ S2 [n2 S3] S4]. split; [auto|]. exists (n2 ++ new), known. split; [rewrite S3, H2; apply app_assoc|]. now rewrite S2.
Qed.
Lemma push_pending_spec : forall q n h new known, q = new ++ known -> Holds h n known -> (forall t i, In (t, i) q -> n <= t < n + window) ->
  exists h', push_pending h q = Ok h' /\ Holds h' n q.
Proof.
  intros q n h new known E H W. unfold push_pending. assert (En : num_enqueued h = Z.of_nat (length known)) by (destruct H as (_ & A & _ & _ & _ & H); exact H).
  rewrite En, Nat2Z.id, E, app_length. replace (length new + length known - length known)%nat with (length new) by lia. rewrite firstn_app, Nat.sub_diag, firstn_all. cbn [firstn]. rewrite app_nil_r.
  apply push_list; [exact H|]. intros t i Hi. apply (W t i). rewrite E. apply in_or_app. now left.
Qed.
Lemma spush : forall s h, slink s h -> spunctual s -> exists h', push_pending h (sque s) = Ok h' /\ Holds h' (snow s) (sque s).
Proof.
  intros s h [Hg (new & known & E & H)] HP. eapply push_pending_spec; [exact E|exact H|]. intros t i Hi. split; [exact (HP t i Hi)|exact (sg_up _ Hg t i Hi)].
Qed.
Lemma spick : forall s t i, In (t, i) (sque s) -> (forall t' i', In (t', i') (sque s) -> t <= t') ->
  exists c, forall orc, orc (stick s) = c -> sdequeue orc s = Some (t, i, mkSearch (sfrom s) (spre s) (sdist s) (strk s) (remove_first t i (sque s)) t (S (stick s)) (sreached s) (sbnd s)).
Proof.
  intros s t i Hi Hm. unfold sdequeue. destruct (sque s) as [|[t0 i0] q'] eqn:E; [destruct Hi|]. destruct (min_time_spec q' t0) as (H1 & H2 & H3).
  assert (Em : min_time t0 q' = t).
  { assert (min_time t0 q' <= t) by (destruct Hi as [Hi|Hi]; [injection Hi as -> ->; exact H1|eauto]).
    assert (t <= min_time t0 q') by (destruct H3 as [->|[j H3]]; [apply (Hm t0 i0); now left|apply (Hm _ j); now right]). lia. }
  rewrite Em. set (cands := filter _ _). assert (Hc : In (t, i) cands) by (apply filter_In; split; [exact Hi|apply Z.eqb_refl]).
  destruct (In_nth_error _ _ Hc) as (c & Ec). exists c. intros orc ->. assert (c < length cands)%nat by (apply nth_error_Some; congruence). rewrite Nat.mod_small by lia. rewrite Ec. reflexivity.
Qed.
Lemma sheap_dequeue_spec : forall s h, slink s h -> spunctual s ->
  (sque s = [] /\ exists h', sheap_dequeue s h = Ok (None, s, h') /\ slink s h') \/
  exists t i h', let s1 := mkSearch (sfrom s) (spre s) (sdist s) (strk s) (remove_first t i (sque s)) t (S (stick s)) (sreached s) (sbnd s) in
    sheap_dequeue s h = Ok (Some (mkEv (wrap 32 t) i), s1, h') /\ In (t, i) (sque s) /\ (forall t' i', In (t', i') (sque s) -> t <= t') /\ Holds h' t (sque s1).
Proof.
  intros s h HL HP. destruct (spush s h HL HP) as (h1 & E1 & H1). unfold sheap_dequeue. rewrite E1. cbn [bindO].
  pose proof (rep_dequeue 32 ltac:(lia) item h1 _ H1) as D. cbn [S_RadixHeap.pending] in D. destruct (sque s) as [|e q] eqn:Eq.
  - left. split; [reflexivity|]. rewrite D. cbn [bindO]. exists h1. split; [reflexivity|]. split; [apply HL|]. exists [], []. split; [exact Eq|exact H1].
  - right. destruct D as (h2 & t & i & rest & D1 & D2 & D3 & D4). rewrite D1. cbn [bindO ev_data]. assert (Et : cur_time h2 = t) by apply D4. rewrite Et.
    assert (Hi : In (t, i) (e :: q)) by (eapply Permutation_in; [symmetry; exact D2|]; now left).
    exists t, i, h2. cbv zeta. split; [reflexivity|]. split; [exact Hi|]. split; [exact D3|]. cbn [sque].
    apply (Holds_perm h2 t rest); [|exact D4]. apply (Permutation_cons_inv (a := (t, i))). rewrite <- D2. now apply remove_first_perm.
Qed.

Section Deq.
Variables (s : search) (t : Z) (v : nat).
Hypothesis HG : sgood s.
Hypothesis HP : spunctual s.
Hypothesis Hin : In (t, INode v) (sque s).
Let s1 := mkSearch (sfrom s) (spre s) (sdist s) (strk s) (remove_first t (INode v) (sque s)) t (S (stick s)) (sreached s) (sbnd s).
Lemma sdecide_same : decision_h (strk s v) (wrap 32 t) = dequeue_decision (strk s v) t.
Proof.
  assert (Ht : snow s <= t < snow s + window) by (split; [exact (HP _ _ Hin)|exact (sg_up _ HG _ _ Hin)]).
  apply (decision_same (snow s) _ t Ht).
  - intros Hq. pose proof (sg_q _ HG v Hq) as Hi. split; [exact (HP _ _ Hi)|exact (sg_up _ HG _ _ Hi)].
  - intros Hq Hd. pose proof (HP _ _ (sg_q _ HG v Hq)). pose proof (sg_d _ HG v Hq Hd). lia.
Qed.
Lemma sdecide_good : match dequeue_decision (strk s v) t with (_, x, new) =>
  let s2 := fold_left (fun s t => set_sque s ((t, INode v) :: sque s)) new (set_strk s1 v x) in
  sgood s2 /\ stick s2 = S (stick s) /\ snow s2 = t /\ exists new, sque s2 = new ++ sque s1 end.
Proof.
  assert (Hn : snow s <= t) by exact (HP _ _ Hin). pose proof HG as [A1 A3 A4].
  assert (R : forall e, In e (remove_first t (INode v) (sque s)) -> In e (sque s)) by (intros; eapply remove_first_In; eassumption).
  assert (K : forall t' i', In (t', i') (sque s) -> (t', i') <> (t, INode v) -> In (t', i') (remove_first t (INode v) (sque s))) by (intros; now apply remove_first_other).
  pose proof (decision_cases t (strk s v)) as D. destruct (dequeue_decision (strk s v) t) as [[k x'] new]. cbv zeta.
  destruct D as [[-> D]|(-> & -> & D1 & D2)]; cbn [fold_left]; (split; [|split; [reflexivity|split; [reflexivity|]]]); [|exists []; reflexivity| |eexists [_]; reflexivity];
    (split; cbn [set_sque set_strk s1 strk sque snow]).
  - intros u. unfold upd. destruct (Nat.eqb_spec u v) as [->|Hu]; intros Hq.
    + destruct (D Hq) as [-> Hne]. apply K; [now apply A1|congruence].
    + apply K; [now apply A1|congruence].
  - intros t' i' Hi. pose proof (A3 t' i' (R _ Hi)). lia.
  - intros u. unfold upd. destruct (Nat.eqb_spec u v) as [->|Hu]; intros Hq Hd; [destruct (D Hq) as [-> _]; pose proof (A4 v Hq Hd); lia|pose proof (A4 u Hq Hd); lia].
  - intros u. unfold upd. destruct (Nat.eqb_spec u v) as [->|Hu]; intros Hq; [now left|right; apply K; [now apply A1|congruence]].
  - pose proof (A4 v D1 D2). intros t' i' [Hi|Hi]; [injection Hi as <- <-; lia|pose proof (A3 t' i' (R _ Hi)); lia].
  - intros u. unfold upd. destruct (Nat.eqb_spec u v) as [->|Hu]; intros Hq Hd; [cbn [queued_time desired_time]; pose proof (A4 v D1 D2); lia|pose proof (A4 u Hq Hd); lia].
Qed.
End Deq.

Hypothesis WF : wf_graph G.
Hypothesis AO : wfine spy_ints G.

Lemma sinv_punctual : forall R X s, sinv G R X s -> spunctual s.
Proof. intros R X s HI t i Hi. exact (proj1 (i_que _ _ _ _ HI t i Hi)). Qed.

Lemma srun_h_spec : forall R n m s h, sinv G R nobody s -> slink s h -> (length G - length (sreached s) <= n)%nat -> (mu G s <= m)%nat ->
  exists k s' h' c cs, (forall f, (k <= f)%nat -> srun_h G cyclic_ints f s h = Ok (s', h', c)) /\ slink s' h' /\ spunctual s' /\ stick s' = (stick s + length cs)%nat /\
    forall orc, follows orc (stick s) cs -> forall f, (k <= f)%nat -> srun G orc spy_ints f s = Ok (s', c).
Proof.
  intros R. induction n as [n IHn] using lt_wf_ind. induction m as [m IHm] using lt_wf_ind. intros s h HI HL Hn Hm.
  pose proof (sinv_punctual _ _ _ HI) as HP. destruct (sheap_dequeue_spec s h HL HP) as [(E & h' & E1 & L1)|(t & i & h' & E1 & Hi & Hmin & HH)].
  - exists 1%nat, s, h', None, []. split; [|split; [assumption|split; [assumption|split; [cbn [length]; lia|]]]].
    + intros f Hf. destruct f as [|k]; [lia|]. cbn [srun_h]. rewrite E1. reflexivity.
    + intros orc _ f Hf. destruct f as [|k]; [lia|]. cbn [srun]. unfold sdequeue. now rewrite E.
  - destruct (spick s t i Hi Hmin) as (c0 & Hc0). set (s1 := mkSearch _ _ _ _ _ _ _ _ _) in *. cbv zeta in E1.
    destruct (decision_spec G (fun _ => c0) R s t i s1 HI (Hc0 _ eq_refl)) as (v & -> & Hv & Hdec).
    pose proof (sdecide_same s t v (sl_good _ _ HL) HP Hi) as DS. pose proof (sdecide_good s t v (sl_good _ _ HL) HP Hi) as DG.
    change (strk s1 v) with (strk s v) in Hdec.
    assert (StepH : forall k, srun_h G cyclic_ints (S k) s h = match dequeue_decision (strk s v) t with (keep, x, new) =>
          let s2 := fold_left (fun s t => set_sque s ((t, INode v) :: sque s)) new (set_strk s1 v x) in
          if keep then bindO (slook G cyclic_ints s2 v) (fun r => match snd r with None => srun_h G cyclic_ints k (fst r) h' | Some c => Ok (fst r, h', Some c) end)
          else srun_h G cyclic_ints k s2 h' end) by (intros k; cbn [srun_h]; rewrite E1; cbn [bindO ev_data ev_time]; change (strk s1 v) with (strk s v); rewrite DS; reflexivity).
    assert (Step : forall orc k, orc (stick s) = c0 -> srun G orc spy_ints (S k) s = match dequeue_decision (strk s v) t with (keep, x, new) =>
          let s2 := fold_left (fun s t => set_sque s ((t, INode v) :: sque s)) new (set_strk s1 v x) in
          if keep then bindO (slook G spy_ints s2 v) (fun r => match snd r with None => srun G orc spy_ints k (fst r) | Some c => Ok (fst r, Some c) end)
          else srun G orc spy_ints k s2 end) by (intros orc k Ho; cbn [srun]; rewrite (Hc0 orc Ho); reflexivity).
    fold s1 in DG. destruct (dequeue_decision (strk s v) t) as [[keep x] new]. cbv zeta in *. set (s2 := fold_left _ _ _) in *. destruct Hdec as (F1 & F2 & F3 & F4 & F5 & Hdec).
    destruct DG as (DG1 & DG2 & DG3 & DG4).
    assert (L2 : slink s2 h') by (split; [assumption|]; destruct DG4 as [nw DG4]; exists nw, (sque s1); split; [assumption|]; rewrite DG3; exact HH).
    assert (FO : forall orc cs, follows orc (stick s) (c0 :: cs) -> orc (stick s) = c0 /\ follows orc (stick s2) cs).
    { intros orc cs HF. apply (follows_app orc _ [c0] cs) in HF as [G1 G2]. split; [specialize (G1 0%nat c0 eq_refl); now rewrite Nat.add_0_r in G1|]. rewrite DG2. cbn [length] in G2. now rewrite Nat.add_1_r in G2. }
    assert (Hbest : best G s2 v = best G s v) by (unfold best; apply scan_ext; intros e _; unfold cand; now rewrite F1, F2, F3).
    destruct keep.
    + destruct Hdec as (I2 & Q2 & D2 & M2). assert (Hv2 : sfrom s2 v <> None) by (now rewrite F1).
      destruct (slook_spec G WF spy_ints AO R s2 v I2 Hv2 Q2 D2) as (s3 & c & E3 & Hc). destruct (slook_sim s2 v s3 c E3) as [S3 S4]. pose proof (slink_step _ _ _ L2 S3) as L3. destruct c as [c|].
      * destruct Hc as (Ec0 & Ec & Hcol). pose proof (sinv_punctual _ _ _ I2) as P2. rewrite <- Ec0 in P2. specialize (S4 DG1 P2).
        exists 1%nat, s3, h', (Some c), [c0]. split; [|split; [assumption|split; [assumption|split; [rewrite (ss_tick _ _ S3), DG2; cbn [length]; lia|]]]].
        -- intros f Hf. destruct f as [|f]; [lia|]. rewrite StepH, S4. reflexivity.
        -- intros orc HF f Hf. destruct f as [|f]; [lia|]. rewrite Step by apply (FO _ _ HF). rewrite E3. reflexivity.
      * destruct Hc as [I3 Hc]. specialize (S4 DG1 (sinv_punctual _ _ _ I3)).
        assert (IH : exists k s' h'' c cs, (forall f, (k <= f)%nat -> srun_h G cyclic_ints f s3 h' = Ok (s', h'', c)) /\ slink s' h'' /\ spunctual s' /\ stick s' = (stick s3 + length cs)%nat /\
            forall orc, follows orc (stick s3) cs -> forall f, (k <= f)%nat -> srun G orc spy_ints f s3 = Ok (s', c)).
        { destruct Hc as [[Eb ->]|[(k & t' & Eb & Hne & ->)|Hlen]].
          - apply (IHm (mu G s2)); [lia|assumption|assumption|rewrite F4; lia|lia].
          - rewrite Hbest in Eb. destruct (wake_any spy_ints s2 v t') as (tk & q & Ew).
            assert (Hvn : (v < length G)%nat) by (destruct (sfrom s v) as [r|] eqn:E; [|congruence]; exact (proj1 (i_src _ _ _ _ HI v r E))).
            assert (FT : timely spy_ints (snow s2) t').
            { pose proof (best_spec G s2 v) as B. rewrite Hbest, Eb in B. destruct B as [(e & B1 & B2) _]. exact (cand_fits G WF spy_ints AO R (eq v) s2 I2 v e t' Hv2 (nth_error_In _ _ B1) B2). }
            assert (Emu : mu G (wake spy_ints s2 v t') = S (mu G s2)) by (eapply mu_wake; eauto; rewrite Hbest; exact Eb).
            rewrite Eb in M2. destruct (Z.eqb_spec t t') as [->|Hnt]; [congruence|]. cbn [negb b2n] in M2.
            apply (IHm (mu G (wake spy_ints s2 v t'))); [lia|assumption|assumption|rewrite Ew; cbn [sreached]; rewrite F4; lia|lia].
          - rewrite F4 in Hlen. pose proof (reached_bound G R nobody s3 I3). apply (IHn (length G - length (sreached s3))%nat) with (m := mu G s3); [lia|assumption|assumption|lia|lia]. }
        destruct IH as (k & s' & h'' & c & cs & R1 & R2 & R3 & R4 & R5). exists (S k), s', h'', c, (c0 :: cs). split; [|split; [assumption|split; [assumption|split; [rewrite R4, (ss_tick _ _ S3), DG2; cbn [length]; lia|]]]].
        -- intros f Hf. destruct f as [|f]; [lia|]. rewrite StepH, S4. cbn [bindO fst snd]. apply R1. lia.
        -- intros orc HF f Hf. destruct (FO _ _ HF) as [G1 G2]. destruct f as [|f]; [lia|]. rewrite Step by exact G1. rewrite E3. cbn [bindO fst snd]. apply R5; [now rewrite (ss_tick _ _ S3)|lia].
    + destruct Hdec as [I2 M2]. destruct (IHm (mu G s2)) with (s := s2) (h := h') as (k & s' & h'' & c & cs & R1 & R2 & R3 & R4 & R5); [lia|assumption|assumption|rewrite F4; lia|lia|].
      exists (S k), s', h'', c, (c0 :: cs). split; [|split; [assumption|split; [assumption|split; [rewrite R4, DG2; cbn [length]; lia|]]]].
      * intros f Hf. destruct f as [|f]; [lia|]. rewrite StepH. apply R1. lia.
      * intros orc HF f Hf. destruct (FO _ _ HF) as [G1 G2]. destruct f as [|f]; [lia|]. rewrite Step by exact G1. apply R5; [exact G2|lia].
Qed.
End Search.
