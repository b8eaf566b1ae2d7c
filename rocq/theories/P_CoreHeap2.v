(** The comparison of cyclic times and the reduction of times modulo 2^32 do no harm, part 3: the answer. *)
From Coq Require Import ZArith NArith List Bool Arith Lia Permutation.
From Verif Require Import M_Base M_Cyclic M_RadixHeap S_RadixHeap P_RadixHeap M_Varying M_Tracker M_Core M_Session M_CoreHeap M_Failing S_Core S_Session S_CoreHeap S_Tree S_Decode S_Reach
  P_Up P_Tree P_Tree2 P_Ends P_CoreGeo P_CoreSched P_CoreArea P_CoreRoles P_CoreEvent P_CoreAdd P_CoreDecode M_Build S_Build M_Flip S_Flip P_Session P_Decode P_Signed P_Halt P_Halt2 P_Machine P_CoreSim P_CoreHeap.
Import ListNotations.
Local Open Scope Z_scope.

(** ** Extracting the matches leaves the requests alone *)
Lemma cleanup_step : forall s r, step s (cleanup_shell_area s r).
Proof.
  intros s r. unfold cleanup_shell_area. generalize (rev (shl (rg s) r)). intros l. revert s. induction l as [|v l IH]; intros s; cbn [fold_left]; [apply step_same|].
  eapply step_trans; [|apply IH]. unfold reset_node. eapply step_trans; [apply (step_ntr s v tracker_clear); cbn; discriminate|]. now apply step_sc.
Qed.
Definition keeps {X} (s : state) (st : X -> state) (a : outcome X) : Prop := forall x, a = Ok x -> step s (st x).
Lemma keeps_bind : forall X Y s (st : X -> state) (st2 : Y -> state) a f, keeps s st a -> (forall x, a = Ok x -> keeps (st x) st2 (f x)) -> keeps s st2 (bindO a f).
Proof. intros X Y s st st2 a f H K y Hy. destruct a as [x| | |]; cbn [bindO] in Hy; try discriminate. eapply step_trans; [apply (H x eq_refl)|]. apply (K x eq_refl y Hy). Qed.
Lemma keeps_skip : forall X Y s (st2 : Y -> state) (a : outcome X) f, (forall x, a = Ok x -> keeps s st2 (f x)) -> keeps s st2 (bindO a f).
Proof. intros X Y s st2 a f H y Hy. destruct a as [x| | |]; cbn [bindO] in Hy; try discriminate. apply (H x eq_refl y Hy). Qed.
Lemma keeps_from : forall X s s' (st : X -> state) a, step s s' -> keeps s' st a -> keeps s st a.
Proof. intros X s s' st a H K x Hx. eapply step_trans; [exact H|]. now apply K. Qed.
Lemma keeps_ok : forall X s (st : X -> state) x, step s (st x) -> keeps s st (Ok x).
Proof. intros X s st x H y Hy. injection Hy as <-. exact H. Qed.
Section Ext.
Variable fuel : nat.
Variable A : ints.
Definition st3 (x : state * result * nat) : state := fst (fst x).
Lemma pair_keeps : forall ext, (forall s r, keeps s fst (ext s r)) -> forall s r, keeps s st3 (pair_and_shatter fuel A ext s r).
Proof.
  intros ext H s r. unfold pair_and_shatter. apply (keeps_bind _ _ s (fun x : state => x)).
  - generalize (map fst (chl (rg s) r)). intros l x Hx. apply step_sc. revert s x Hx.
    unfold foldS. assert (K : forall o s', fold_left (fun o a => bindO o (fun s => clear_blossom_parent_ignoring_wrapped_radius fuel A s a)) l o = Ok s' -> exists s, o = Ok s /\ sc s' = sc s).
    { induction l as [|x l IH]; intros o s0 Hs; cbn [fold_left] in Hs; [eauto|]. apply IH in Hs as (s2 & H1 & H2). destruct o as [s3| | |]; cbn [bindO] in H1; try discriminate.
      exists s3. split; [reflexivity|]. rewrite H2. eapply set_tops_sc; exact H1. }
    intros s x Hx. apply K in Hx as (s2 & H1 & H2). injection H1 as <-. exact H2.
  - intros s1 _. apply keeps_skip. intros v _. apply keeps_skip. intros sub _. set (s2 := set_ma s1 _). apply (keeps_from _ s1 s2); [now apply step_sc|].
    eapply (keeps_bind _ _ s2 fst).
    + set (F := fun acc p => _). intros x. assert (K : forall l a, keeps s2 fst a -> keeps s2 fst (fold_left F l a)).
      { induction l as [|[[r1 r2] e] l IH]; intros a Ha; [exact Ha|]. cbn [fold_left]. apply IH. unfold F. eapply keeps_bind; [exact Ha|]. intros [s3 res] _. cbn [fst].
        apply (keeps_from _ s3 (add_match s3 r1 r2 e)); [now apply step_sc|]. eapply keeps_bind; [apply H|]. intros y _. apply keeps_ok. apply step_same. }
      apply K. apply keeps_ok. apply step_same.
    + intros x _. apply keeps_ok. now apply step_sc.
Qed.
Lemma extract_keeps : forall k s r, keeps s fst (extract fuel A k s r).
Proof.
  induction k as [|k IH]; intros s r; [intros x Hx; discriminate|]. cbn [extract]. set (s1 := cleanup_shell_area s r). set (s2 := match mreg (ma s1) r with None => s1 | Some q => cleanup_shell_area s1 q end).
  apply (keeps_from _ s s2). { unfold s2. destruct (mreg (ma s1) r); [eapply step_trans; [apply cleanup_step|apply cleanup_step]|apply cleanup_step]. }
  clearbody s2. clear s1. assert (Two : forall m (c : list (nat * cedge)), keeps s2 fst (match m with
          | Some q =>
              match c, chl (rg s2) q with
              | [], [] => Ok (del_region (del_region s2 q) r, (eobs (medge (ma s2) r), (y_intercept (rad (rg s2) r) + y_intercept (rad (rg s2) q))%Z, [medge (ma s2) r]))
              | _, _ => bindO (match c with [] => Ok (s2, (0%N, 0%Z, []), r) | _ :: _ => pair_and_shatter fuel A (extract fuel A k) s2 r end) (fun x : state * result * nat =>
                  let '(s3, res, r3) := x in bindO (match mreg (ma s3) r3 with
                          | None => Ok (s3, res)
                          | Some q => match chl (rg s3) q with [] => Ok (s3, res)
                              | _ :: _ => bindO (pair_and_shatter fuel A (extract fuel A k) s3 q) (fun y => Ok (fst (fst y), res_add res (snd (fst y)))) end
                          end) (fun x2 => bindO (extract fuel A k (fst x2) r3) (fun z => Ok (fst z, res_add (snd x2) (snd z)))))
              end
          | None => bindO (pair_and_shatter fuel A (extract fuel A k) s2 r) (fun x : state * result * nat => let '(s3, res, r3) := x in bindO (match mreg (ma s3) r3 with
                          | None => Ok (s3, res)
                          | Some q => match chl (rg s3) q with [] => Ok (s3, res)
                              | _ :: _ => bindO (pair_and_shatter fuel A (extract fuel A k) s3 q) (fun y => Ok (fst (fst y), res_add res (snd (fst y)))) end
                          end) (fun x2 => bindO (extract fuel A k (fst x2) r3) (fun z => Ok (fst z, res_add (snd x2) (snd z)))))
          end)).
  { intros m c. destruct m as [q|].
    - assert (Big : forall c : list (nat * cedge), keeps s2 fst (bindO (match c with [] => Ok (s2, (0%N, 0%Z, []), r) | _ :: _ => pair_and_shatter fuel A (extract fuel A k) s2 r end) (fun x : state * result * nat =>
                  let '(s3, res, r3) := x in bindO (match mreg (ma s3) r3 with
                          | None => Ok (s3, res)
                          | Some q => match chl (rg s3) q with [] => Ok (s3, res)
                              | _ :: _ => bindO (pair_and_shatter fuel A (extract fuel A k) s3 q) (fun y => Ok (fst (fst y), res_add res (snd (fst y)))) end
                          end) (fun x2 => bindO (extract fuel A k (fst x2) r3) (fun z => Ok (fst z, res_add (snd x2) (snd z))))))).
      { intros c'. eapply (keeps_bind _ _ s2 st3).
        - destruct c' as [|c0 c']; [apply keeps_ok, step_same|]. apply pair_keeps. exact IH.
        - intros [[s3 res] r3] _. cbn [st3 fst]. eapply (keeps_bind _ _ s3 fst).
          + destruct (mreg (ma s3) r3) as [q'|]; [|apply keeps_ok, step_same]. destruct (chl (rg s3) q'); [apply keeps_ok, step_same|].
            eapply keeps_bind; [apply pair_keeps; exact IH|]. intros y _. apply keeps_ok, step_same.
          + intros x2 _. eapply keeps_bind; [apply IH|]. intros z _. apply keeps_ok, step_same. }
      destruct c as [|c0 c]; [|apply (Big (c0 :: c))]. destruct (chl (rg s2) q); [apply keeps_ok; now apply step_sc|apply (Big [])].
    - eapply keeps_bind; [apply pair_keeps; exact IH|]. intros [[s3 res] r3] _. cbn [st3 fst]. eapply (keeps_bind _ _ s3 fst).
      + destruct (mreg (ma s3) r3) as [q'|]; [|apply keeps_ok, step_same]. destruct (chl (rg s3) q'); [apply keeps_ok, step_same|].
        eapply keeps_bind; [apply pair_keeps; exact IH|]. intros y _. apply keeps_ok, step_same.
      + intros x2 _. eapply keeps_bind; [apply IH|]. intros z _. apply keeps_ok, step_same. }
  destruct (mreg (ma s2) r) as [q|] eqn:Em; [apply (Two (Some q) (chl (rg s2) r))|]. destruct (chl (rg s2) r) as [|c0 c]; [apply keeps_ok; now apply step_sc|apply (Two None (c0 :: c))].
Qed.
Lemma extract_all_keeps : forall s evs, keeps s fst (extract_all fuel A s evs).
Proof.
  intros s evs. unfold extract_all. set (F := fun acc v => _). assert (K : forall l a, keeps s fst a -> keeps s fst (fold_left F l a)).
  { induction l as [|v l IH]; intros a Ha; [exact Ha|]. cbn [fold_left]. apply IH. unfold F. eapply keeps_bind; [exact Ha|]. intros [s3 res] _. cbn [fst].
    destruct (arr (nd s3) v); [|apply keeps_ok, step_same]. apply keeps_skip. intros r _. eapply keeps_bind; [apply extract_keeps|]. intros y _. apply keeps_ok, step_same. }
  apply K. apply keeps_ok, step_same.
Qed.
End Ext.

(** ** A whole decode *)
Lemma drained_good : forall s h, que (sc s) = [] -> drained s h -> good s.
Proof.
  intros s h Q [_ _ H1 H2]. split; rewrite ?Q.
  - intros v Hv. rewrite H1 in Hv. discriminate.
  - intros v Hv. rewrite H2 in Hv. discriminate.
  - intros t i [].
  - intros v Hv. rewrite H1 in Hv. discriminate.
  - intros v Hv. rewrite H2 in Hv. discriminate.
Qed.
Lemma link_drained : forall s h, link s h -> que (sc s) = [] -> drained s h.
Proof.
  intros s h [[A1 A2 _ _ _] (new & known & E & H)] Q. rewrite Q in E, A1, A2. destruct new; [|discriminate]. cbn [app] in E. subst known. destruct H as (_ & A & H1 & H2 & H3 & H4). cbn [S_RadixHeap.pending length] in *.
  split; [|exact H4| |].
  - intros b. rewrite H1. destruct (A b) as [|[t d] l] eqn:E; [reflexivity|]. exfalso.
    destruct (H2 b t d) as [H5 H6]; [rewrite E; now left|]. cbn [S_RadixHeap.now] in *.
    assert (HI : In (t, d) (flat_map A (range 32))).
    { apply in_flat_map. exists b. split; [|rewrite E; now left]. unfold range. apply in_seq. rewrite <- H6. pose proof (bucket_le 32 ltac:(lia) (M_Core.now (sc s)) t H5). lia. }
    eapply Permutation_in in HI; [|symmetry; exact H3]. destruct HI.
  - intros v. destruct (has_queued (ntr (sc s) v)) eqn:E; [|reflexivity]. destruct (A1 v E).
  - intros v. destruct (has_queued (rtr (sc s) v)) eqn:E; [|reflexivity]. destruct (A2 v E).
Qed.

(** ** What the failure to find a perfect matching leaves behind *)
Lemma reset_trackers : forall l s, rtr (sc (fold_left reset_node l s)) = rtr (sc s) /\ forall v, has_queued (ntr (sc s) v) = false -> has_queued (ntr (sc (fold_left reset_node l s)) v) = false.
Proof.
  induction l as [|a l IH]; intros s; [auto|]. cbn [fold_left]. destruct (IH (reset_node s a)) as [H1 H2]. split; [rewrite H1; reflexivity|]. intros v Hv. apply H2. unfold reset_node. cbn [sc set_sc set_nd set_ntr ntr].
  unfold upd. destruct (v =? a)%nat; [reflexivity|exact Hv].
Qed.
Lemma reset_drained : forall G s h, drained s h -> drained (mwpm_reset G s) h.
Proof.
  intros G s h [D1 D2 D3 D4]. destruct (reset_trackers (seq 0 (length G)) s) as [H1 H2]. split; [exact D1|exact D2| |].
  - intros v. unfold mwpm_reset. cbn [sc ntr]. now apply H2.
  - intros r. unfold mwpm_reset. cbn [sc rtr]. rewrite H1. apply D4.
Qed.
Lemma clear_drained : forall h, num_enqueued h = 0 -> M_RadixHeap.clear 32 item h = Ok h.
Proof. intros h H. unfold M_RadixHeap.clear. generalize (Z.to_nat 32 + 1)%nat. intros [|k]; cbn [clear_from]; rewrite H; reflexivity. Qed.

Section Decode.
Variable G : graph.
Hypothesis WF : wf_graph G.

Lemma decode_h_spec : forall I s h evs {AB : able spy_ints G I evs}, idle G s -> drained s h -> valid_events G evs -> valid_events G (neg_events I) ->
  exists K orc r, r <> Fuel /\ (forall f, (K <= f)%nat -> decode G f orc spy_ints I s evs = r) /\
    match r with
    | Ok (s', res) => exists h', (forall f, (K <= f)%nat -> decode_h G f cyclic_ints I s h evs = Ok (s', h', res)) /\ drained s' h'
    | Throw => (forall f, (K <= f)%nat -> decode_h G f cyclic_ints I s h evs = Throw) /\
        exists s' h', (forall f, (K <= f)%nat -> left_h G f cyclic_ints I s h evs = Ok (s', h', true)) /\ idle G s' /\ drained s' h'
    | _ => True
    end.
Proof.
  intros I s h evs AB HI HD [N1 B1] [N2 B2]. pose proof (able_w (able := AB)) as WI.
  destruct (add_events_spec G (NI := spy_ints) WF I s evs HI N1 B1 N2 B2) as (s1 & ev & E1 & HInv & Hev). cbv zeta in E1. set (s0 := set_sc s _) in E1.
  assert (NDev : NoDup ev) by (destruct HInv as (ls & ch & al & c & _ & (HGeo & _)); apply (g_evnd _ _ _ _ _ _ _ (proj1 HGeo))).
  pose proof (able_ev (able := AB) ev NDev Hev) as FI. pose proof (idle_queue _ _ HI) as Q0.
  assert (HD0 : drained s0 h) by (destruct HD; split; assumption). assert (G0 : good s0) by (apply (drained_good s0 h); [reflexivity|assumption]).
  pose proof (add_events_sim G I s0 evs) as AS. rewrite E1 in AS. destruct AS as [AS1 AS2]. specialize (AS2 G0 (Inv_punctual G ev s1 HInv)).
  set (h0 := M_RadixHeap.mkQ (buckets h) 0 (num_enqueued h)).
  assert (L0 : link s0 h0) by (split; [assumption|]; exists [], []; split; [reflexivity|]; exact (rep_all_empty 32 item h0 (drained_buckets _ _ HD) (drained_count _ _ HD))).
  pose proof (link_step _ _ _ L0 AS1) as L1.
  destruct (main_h G WF ev s1 h0 HInv L1 0) as (K1 & s2 & h2 & cs & M1 & M2 & M3 & M4).
  assert (M1' : forall f, (K1 <= f)%nat -> main_loop_h G f cyclic_ints f s1 h0 = Ok (s2, h2)) by (intros f Hf; rewrite <- (M1 f Hf); now rewrite Nat.sub_0_r).
  destruct (follows_some (tick (sc s1)) cs) as (orc & F0).
  assert (M4' : forall f, (K1 <= f)%nat -> main_loop G f orc spy_ints f s1 = Ok s2) by (intros f Hf; rewrite <- (M4 orc F0 f Hf); now rewrite Nat.sub_0_r).
  pose proof (main_loop_spec G WF ev (NI := spy_ints) (FI := FI) K1 orc K1 s1 HInv) as MS. rewrite (M4' K1 (le_n K1)) in MS. cbn [safe] in MS. destruct MS as [Q2 _].
  pose proof (link_drained _ _ M2 Q2) as D2.
  assert (PT : forall f, (K1 <= f)%nat -> process_timeline G f orc spy_ints I s evs = if (next (ta s2) =? length (free (ta s2)))%nat then Ok s2 else Throw).
  { intros f Hf. unfold process_timeline. rewrite Q0. fold s0. rewrite E1. cbn [bindO]. rewrite M4' by assumption. reflexivity. }
  assert (PH : forall f, (K1 <= f)%nat -> process_timeline_h G f cyclic_ints I s h evs = if (next (ta s2) =? length (free (ta s2)))%nat then Ok (s2, h2) else Throw).
  { intros f Hf. unfold process_timeline_h. assert (Qe : q_empty item h = true) by (unfold q_empty; rewrite (drained_count _ _ HD); reflexivity). rewrite Qe. cbn [negb]. rewrite Q0. fold s0 h0. rewrite AS2. cbn [bindO]. rewrite M1' by assumption. reflexivity. }
  destruct (decode_stops G WF (NI := spy_ints) orc I s evs (AB := AB) HI N1 B1 N2 B2) as (K2 & r & Hr & HDS).
  exists (Nat.max K1 K2), orc, r. split; [assumption|]. split; [intros f Hf; apply HDS; lia|].
  assert (Same : forall f, (Nat.max K1 K2 <= f)%nat -> decode_h G f cyclic_ints I s h evs = bindO (decode G f orc spy_ints I s evs) (fun x => Ok (fst x, h2, snd x))).
  { intros f Hf. unfold decode_h, decode. rewrite PT, PH by lia. destruct (_ =? _)%nat; [|reflexivity]. cbn [bindO].
    change (extract_all f cyclic_ints) with (extract_all f spy_ints). destruct (extract_all f spy_ints s2 evs) as [x| | |]; cbn [bindO]; try reflexivity.
    destruct (match neg_events I with [] => _ | _ => _ end) as [y| | |]; cbn [bindO]; try reflexivity. destruct (res_add (snd x) (snd y)) as [[o w] l]. reflexivity. }
  destruct r as [[s' res]| | |]; [| |exact Logic.I..].
  2:{ split; [intros f Hf; rewrite Same, HDS by lia; reflexivity|]. exists (mwpm_reset G s2), h2.
    assert (En : (next (ta s2) =? length (free (ta s2)))%nat = false).
    { destruct (next (ta s2) =? length (free (ta s2)))%nat eqn:En; [exfalso|reflexivity].
      destruct (decode_st_ends (NI := spy_ints) G orc I s evs (AB := AB) WF HI (conj N1 B1) (conj N2 B2)) as (K3 & s3 & r3 & D3 & R3).
      set (f := Nat.max (Nat.max K1 K2) K3). pose proof (D3 f ltac:(unfold f; lia)) as D. pose proof (HDS f ltac:(unfold f; lia)) as T.
      destruct R3 as [(x & ->)| ->]; [apply (proj2 (decode_st_ok _ _ _ _ _ _ _ _ _)) in D; congruence|].
      unfold decode_st in D. rewrite Q0 in D. fold s0 in D. rewrite (proj1 (add_events_st_ok _ _ _ _ _ _) E1) in D. rewrite M4' in D by (unfold f; lia). rewrite En in D.
      destruct (extract_all f spy_ints s2 evs) as [x| | |]; try discriminate. destruct (match neg_events I with [] => _ | _ => _ end) as [y| | |]; try discriminate.
      destruct (res_add (snd x) (snd y)) as [[o w] l]. discriminate. }
    split; [|split; [apply reset_idle|now apply reset_drained]].
    intros f Hf. unfold left_h. assert (Qe : q_empty item h = true) by (unfold q_empty; rewrite (drained_count _ _ HD); reflexivity). rewrite Qe. cbn [negb]. rewrite Q0. fold s0 h0.
    rewrite (proj1 (add_events_st_ok _ _ _ _ _ _) AS2). rewrite M1' by lia. rewrite En, (clear_drained h2 (drained_count _ _ D2)). reflexivity. }
  exists h2. split; [intros f Hf; rewrite Same, HDS by lia; reflexivity|]. set (f := Nat.max K1 K2). assert (Ef : decode G f orc spy_ints I s evs = Ok (s', res)) by (apply HDS; unfold f; lia).
  unfold decode in Ef. rewrite PT in Ef by (unfold f; lia). destruct (_ =? _)%nat; [|discriminate]. cbn [bindO] in Ef.
  destruct (extract_all f spy_ints s2 evs) as [x| | |] eqn:X1; cbn [bindO] in Ef; try discriminate. pose proof (extract_all_keeps f spy_ints s2 evs x X1) as T1.
  assert (T2 : exists y, match neg_events I with [] => Ok (fst x, (0%N, 0, [])) | _ :: _ => extract_all f spy_ints (fst x) (neg_events I) end = Ok y /\ fst y = s').
  { destruct (match neg_events I with [] => _ | _ => _ end) as [y| | |]; cbn [bindO] in Ef; try discriminate. destruct (res_add (snd x) (snd y)) as [[o w] l]. exists y. split; [reflexivity|]. congruence. }
  destruct T2 as (y & T2 & <-). assert (T3 : step (fst x) (fst y)) by (destruct (neg_events I); [injection T2 as <-; apply step_same|exact (extract_all_keeps f spy_ints (fst x) _ y T2)]).
  pose proof (step_trans _ _ _ T1 T3) as T4. apply link_drained; [exact (link_step _ _ _ M2 T4)|].
  assert (AI : idle G (fst y)). { refine (decode_idle (NI := spy_ints) G f orc I s evs (AB := AB) WF HI (conj N1 B1) (conj N2 B2) (fst y) res _). apply HDS. unfold f. lia. }
  exact (idle_queue _ _ AI).
Qed.

Lemma spy_time : forall m t, m <= t < m + window -> timely spy_ints m t.
Proof. intros m t H. split; [|reflexivity]. apply (window_time m t H). Qed.
Lemma spy_able : forall I evs, (forall u x w o, In (x, w, o) (nbrs G u) -> w <= max_weight) ->
  (forall ev, (forall v, In v ev <-> effective I evs v) -> mild G ev) -> able spy_ints G I evs.
Proof.
  intros I evs HW HF.
  assert (W : wfine spy_ints G).
  { intros u x w o m t Hin Ht. apply spy_time. pose proof (HW u x w o Hin). unfold max_weight, window in *. lia. }
  split; [exact W|]. intros ev N Hev. pose proof (HF ev Hev) as HF1.
  split; [exact W|intros m; apply spy_time; unfold window; lia| |]; intros n g ls y ch HG R HR Hm; pose proof (mild_reach G WF ev HF1 n g ls y ch HG R HR Hm) as B; intros.
  - apply spy_time. unfold window. lia.
  - apply (machine_i32 x). lia.
Qed.

(** What holds of every oracle holds of the heap. *)
Lemma transfer : forall I s h evs (P : state -> N -> Z -> list cedge -> Prop), light G I evs -> idle G s -> drained s h -> valid_events G evs -> valid_events G (neg_events I) ->
  (able spy_ints G I evs -> forall orc, exists K s' o w l, (forall f, (K <= f)%nat -> decode G f orc spy_ints I s evs = Ok (s', (o, w, l))) /\ P s' o w l) ->
  exists K s' h' o w l, (forall f, (K <= f)%nat -> decode_h G f cyclic_ints I s h evs = Ok (s', h', (o, w, l))) /\ idle G s' /\ drained s' h' /\ P s' o w l.
Proof.
  intros I s h evs P (_ & L2 & L3) HI HD V VN H. pose proof (spy_able I evs L2 L3) as AB. destruct (decode_h_spec I s h evs HI HD V VN) as (K1 & orc & r & Hr & H1 & H2).
  destruct (H AB orc) as (K2 & s' & o & w & l & H3 & H4). pose proof (H1 (Nat.max K1 K2) ltac:(lia)) as E. rewrite H3 in E by lia. subst r. destruct H2 as (h' & H5 & H6).
  exists K1, s', h', o, w, l. split; [exact H5|]. split; [|split; assumption]. exact (decode_idle (NI := spy_ints) (AB := AB) G K2 orc I s evs WF HI V VN s' _ (H3 K2 (le_n K2))).
Qed.
End Decode.

Definition answers (G : graph) (I : neg_info) (ev : list nat) (o : N) (w : Z) : Prop :=
  (exists F, NoDup F /\ explains G F ev /\ N.lxor (obs_of F) (neg_obs I) = o /\ weight_of F + neg_sum I = w) /\ (forall F, explains G F ev -> w <= weight_of F + neg_sum I).
Lemma heap_decode : forall G I s h evs F ev, wf_graph G -> (forall u x w o, In (x, w, o) (nbrs G u) -> w <= max_weight) -> idle G s -> drained s h -> valid_events G evs ->
  valid_events G (neg_events I) -> (forall v, In v ev <-> effective I evs v) -> modest G F ev ->
  exists K s' h' o w l, (forall f, (K <= f)%nat -> decode_h G f cyclic_ints I s h evs = Ok (s', h', (o, w, l))) /\ idle G s' /\ drained s' h' /\ answers G I ev o w.
Proof.
  intros G I s h evs F ev WF HW HI HD V VN Hev HM. pose proof (proj1 HM) as HF. apply (transfer G WF I s h evs (fun _ o w _ => answers G I ev o w)); auto.
  - split; [assumption|]. split; [assumption|]. intros ev' E'. right. exists F. apply (modest_ext G F ev); [|assumption]. intros v. rewrite Hev, E'. reflexivity.
  - intros AB orc. destruct (decode_stops G WF orc I s evs (AB := AB) HI (proj1 V) (proj2 V) (proj1 VN) (proj2 VN)) as (K & r & Hr & H). pose proof (H K (le_n K)) as HK.
    destruct r as [[s' [[o w] l]]| | |]; [| | |congruence].
    + exists K, s', o, w, l. split; [exact H|]. destruct (decode_answer G K orc I s evs WF HI V VN s' o w l HK) as (ev' & F' & N1 & E1 & N2 & X1 & X2 & X3 & X4).
      assert (EE : forall v, In v ev <-> In v ev') by (intros v; rewrite Hev, E1; reflexivity). split.
      * exists F'. split; [assumption|]. split; [|split; assumption]. apply (explains_ext G F' ev' ev); auto. intros v; symmetry; apply EE.
      * intros F'' HF''. apply X4. apply (explains_ext G F'' ev ev'); auto.
    + exfalso. exact (decode_throws G K orc I s evs WF HI V VN HK F ev Hev HF).
    + exfalso. exact (decode_defined G K orc I s evs WF HI V VN HK).
Qed.

Lemma heap_plain : forall G s h evs F, wf_graph G -> (forall u x w o, In (x, w, o) (nbrs G u) -> w <= max_weight) -> idle G s -> drained s h -> valid_events G evs ->
  modest G F evs ->
  exists K s' h' o w l, (forall f, (K <= f)%nat -> decode_h G f cyclic_ints plain s h evs = Ok (s', h', (o, w, l))) /\ idle G s' /\ drained s' h' /\
    (exists F, NoDup F /\ explains G F evs /\ obs_of F = o /\ weight_of F = w) /\ (forall F, explains G F evs -> w <= weight_of F).
Proof.
  intros G s h evs F WF HW HI HD V HF. destruct (heap_decode G plain s h evs F evs WF HW HI HD V) as (K & s' & h' & o & w & l & H1 & H2 & H3 & (F' & A1 & A2 & A3 & A4) & A5); auto.
  - split; [constructor|intros v []].
  - intros v. symmetry. apply effective_plain.
  - cbn [plain neg_obs neg_sum] in *. rewrite N.lxor_0_r in A3. rewrite Z.add_0_r in A4. exists K, s', h', o, w, l. split; [assumption|]. split; [assumption|]. split; [assumption|]. split.
    + exists F'. auto.
    + intros F'' HF''. specialize (A5 F'' HF''). lia.
Qed.

Lemma heap_session : forall G, wf_graph G -> (forall u x w o, In (x, w, o) (nbrs G u) -> w <= max_weight) -> forall l s h, idle G s -> drained s h ->
  Forall (fun evs => valid_events G evs /\ exists F, modest G F evs) l ->
  exists K s' h' rs, (forall f, (K <= f)%nat -> decode_several_h G f cyclic_ints plain s h l = Ok (s', h', rs)) /\ idle G s' /\ drained s' h' /\
    Forall2 (fun evs r => let '(o, w, _) := (r : result) in (exists F, explains G F evs /\ obs_of F = o /\ weight_of F = w) /\ forall F, explains G F evs -> w <= weight_of F) l rs.
Proof.
  intros G WF HW. induction l as [|evs l IH]; intros s h HI HD HF; [exists 0%nat, s, h, []; split; [reflexivity|auto]|]. inversion HF as [|? ? [V (F & F1)] HF']; subst.
  destruct (heap_plain G s h evs F WF HW HI HD V F1) as (K1 & s1 & h1 & o & w & le & A1 & A2 & A3 & (F' & _ & A4) & A5).
  destruct (IH s1 h1 A2 A3 HF') as (K2 & s2 & h2 & rs & B1 & B2 & B3 & B4). exists (Nat.max K1 K2), s2, h2, ((o, w, le) :: rs). split; [|split; [assumption|split; [assumption|]]].
  - intros f Hf. cbn [decode_several_h]. rewrite A1 by lia. cbn [bindO fst snd]. rewrite B1 by lia. reflexivity.
  - constructor; [split; [exists F'; auto|assumption]|assumption].
Qed.

Lemma heap_signed : forall nobs n E g bnd s h evs Y, build nobs n E = Ok g -> ForallOrdPairs (fun e f => ~ parallel e f) E -> (forall e, In e E -> Z.even (s_weight e) = true) -> boundary_bare bnd E ->
  (forall e, In e E -> Z.abs (s_weight e) <= max_weight) -> idle (adj g) s -> drained s h -> valid_events (adj g) evs ->
  solves E (wanted bnd evs) Y -> wide_enough E (s_total (select E Y) + s_abs (filter (fun e => s_weight e <? 0) E)) ->
  exists K s' h' o w l, (forall f, (K <= f)%nat -> decode_h (adj g) f cyclic_ints (neg_info_of nobs g bnd) s h evs = Ok (s', h', (o, w, l))) /\ idle (adj g) s' /\ drained s' h' /\
    exists X, solves E (wanted bnd evs) X /\ s_total (select E X) = w /\ ((nobs <= 64)%nat -> forall k, N.testbit o (N.of_nat k) = s_flips k (select E X)) /\
    forall Y, solves E (wanted bnd evs) Y -> w <= s_total (select E Y).
Proof.
  intros nobs n E g bnd s h evs Y HB NP EV BN MW HI HD V HY HL. pose proof (signed_light nobs n E g bnd HB NP EV BN MW evs Y HY HL) as LI.
  apply (transfer (adj g) (proj1 LI) _ s h evs (fun _ o w _ => exists X, solves E (wanted bnd evs) X /\ s_total (select E X) = w /\ ((nobs <= 64)%nat -> forall k, N.testbit o (N.of_nat k) = s_flips k (select E X)) /\
    forall Y, solves E (wanted bnd evs) Y -> w <= s_total (select E Y))); auto.
  - exact (neg_valid nobs n E g bnd HB).
  - intros AB orc. destruct (signed_ends nobs n E g bnd HB NP EV BN (NI := spy_ints) (AB := AB) orc s evs HI V (ex_intro _ Y HY)) as (K & s' & o & w & l & X & H1 & H2).
    exists K, s', o, w, l. split; [exact H1|]. exists X. exact H2.
Qed.
Lemma heap_user : forall nobs n B E g s h evs F, nodes_below n E -> ForallOrdPairs (fun e f => ~ parallel e f) E -> (forall e, In e E -> Z.even (s_weight e) = true) ->
  (forall e, In e E -> 0 <= s_weight e) -> to_matching_graph nobs n B E = Ok g -> (forall e, In e E -> s_weight e <= max_weight) -> idle (adj g) s -> drained s h -> valid_events (adj g) evs ->
  u_explains E B F evs -> s_total F < 2147483648 ->
  exists K s' h' o w l, (forall f, (K <= f)%nat -> decode_h (adj g) f cyclic_ints (neg_info_of nobs g (map B (seq 0 n))) s h evs = Ok (s', h', (o, w, l))) /\ idle (adj g) s' /\ drained s' h' /\
    (exists F, u_explains E B F evs /\ s_total F = w /\ u_mask nobs F = o) /\ forall F, u_explains E B F evs -> w <= s_total F.
Proof.
  intros nobs n B E g s h evs F RB NP EV POS HC MW HI HD V HF HL. pose proof (user_light nobs n B E g RB NP EV POS HC evs F MW V HF HL) as LI.
  destruct (user_wf nobs n B E g RB NP EV POS HC) as (WF & VN & _).
  apply (transfer (adj g) WF _ s h evs (fun _ o w _ => (exists F, u_explains E B F evs /\ s_total F = w /\ u_mask nobs F = o) /\ forall F, u_explains E B F evs -> w <= s_total F)); auto.
  intros AB orc. destruct (user_ends nobs n B E g RB NP EV POS HC (NI := spy_ints) (AB := AB) orc s evs HI V (ex_intro _ F HF)) as (K & s' & o & w & l & H1 & _ & H2).
  exists K, s', o, w, l. auto.
Qed.
