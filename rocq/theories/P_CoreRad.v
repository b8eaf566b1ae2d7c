(** Invariants of the decoder's core, part 4: changing the speed of a region; taking events from the queue. *)
From Coq Require Import ZArith NArith List Bool Arith Lia.
From Verif Require Import M_Base M_Varying M_Tracker M_Core S_Core S_Tree P_Sum P_Up P_Tree P_CoreGeo P_CoreSched P_CoreArea.
Import ListNotations.
Local Open Scope Z_scope.

Definition nobody : nat -> Prop := fun _ => False.

Lemma geo_rad : forall G ev n g ls y ch r d, geo G ev n g ls y ch -> geo G ev n (set_rad g r d) ls y ch.
Proof. intros G ev n g ls y ch r d H. destruct H. split; assumption. Qed.

(** Everything but the speed of [r] and the schedule is unchanged. *)
Definition radded (s : state) (r : nat) (k : Z) (s' : state) : Prop :=
  exists d q, s' = set_sc (set_rg s (set_rad (rg s) r d)) q /\ now q = now (sc s) /\ slp d = k /\
    get_distance_at_time d (now (sc s)) = get_distance_at_time (rad (rg s) r) (now (sc s)).

(** All events in [r] are at the right parity for it to move. *)
Definition par_ok (ev : list nat) (s : state) (ch : nat -> list nat) (r : nat) : Prop :=
  forall p, In p ev -> In r (chn (nd s) ch p) -> Z.Even (Yv (nd s) ch (rval (rg s) (now (sc s))) p + now (sc s)).

Section Rad.
Variable G : graph.
Hypothesis WF : wf_graph G.

Lemma par_one : forall ev s ls ch, Geo G ev s ls ch -> forall r p, In p ev -> In r (chn (nd s) ch p) ->
  Z.Even (Yv (nd s) ch (rval (rg s) (now (sc s))) p + now (sc s)) -> par_ok ev s ch r.
Proof.
  intros ev s ls ch HGeo r p Hp Hr [k K] p' Hp' Hr'. destruct (g_par _ _ _ _ _ _ _ (proj1 HGeo) p p' r Hp Hp' Hr Hr') as [j J].
  exists (j - k + now (sc s)). lia.
Qed.
Lemma par_moving : forall ev s ls ch, Geo G ev s ls ch -> forall r, In r ls -> bpar (rg s) r = None -> slp (rad (rg s) r) <> 0 -> par_ok ev s ch r.
Proof.
  intros ev s ls ch HGeo r Hr Hb Hs p Hp Hin. pose proof (proj1 HGeo) as HG. pose proof (g_up _ _ _ _ _ _ _ HG) as U.
  destruct (chn_root G _ _ _ _ _ _ HG p r (ev_lt G _ _ _ _ _ _ HG p Hp) Hin) as (Q & Q1 & Q2 & Q3 & _).
  apply (s_par _ _ _ _ _ _ (proj2 HGeo) p Q Hp Q1). rewrite <- Q3, (root_none _ _ ch U r Hr Hb). assumption.
Qed.

Lemma Geo_rad : forall ev s ls ch, Geo G ev s ls ch -> forall r d, In r ls -> bpar (rg s) r = None -> vok d ->
  get_distance_at_time d (now (sc s)) = get_distance_at_time (rad (rg s) r) (now (sc s)) ->
  (slp d <> 0 -> par_ok ev s ch r) ->
  forall s', nd s' = nd s -> rg s' = set_rad (rg s) r d -> now (sc s') = now (sc s) -> Geo G ev s' ls ch.
Proof.
  intros ev s ls ch HGeo r d Hr Hb Kd Ed Hpar s' E1 E2 E3. unfold Geo. rewrite E1, E2, E3. clear s' E1 E2 E3.
  destruct HGeo as [HG HS].
  assert (Ey : forall R, rval (set_rad (rg s) r d) (now (sc s)) R = rval (rg s) (now (sc s)) R).
  { intros R. unfold rval. cbn [rad set_rad]. unfold upd. destruct (Nat.eqb_spec R r) as [->|]; auto. }
  split.
  - apply geo_rad. eapply geo_ext; eauto.
  - destruct HS. split; cbn [rad set_rad bpar].
    + intros R HR. unfold upd. destruct (Nat.eqb_spec R r); auto.
    + intros R HR Hn. rewrite upd_other by congruence. auto.
    + intros p R Hp Ea Hs.
      assert (EY : Yv (nd s) ch (rval (set_rad (rg s) r d) (now (sc s))) p = Yv (nd s) ch (rval (rg s) (now (sc s))) p).
      { unfold Yv. apply zsum_ext. intros; apply Ey. }
      rewrite EY. unfold upd in Hs. destruct (Nat.eqb_spec (root ch R) r) as [E|E].
      * apply (Hpar Hs p Hp). unfold chn. rewrite Ea, <- E.
        assert (HR := g_arr _ _ _ _ _ _ _ HG p R (ev_lt G _ _ _ _ _ _ HG p Hp) Ea).
        apply (root_spec _ _ ch (g_up _ _ _ _ _ _ _ HG) R HR).
      * apply (s_par p R); auto.
Qed.

Lemma lr_rad : forall s r d q v, top (nd s) v <> Some r -> local_radius (mkState (nd s) (set_rad (rg s) r d) (ma s) (tr s) (ra s) (ta s) q) v = local_radius s v.
Proof.
  intros s r d q v H. unfold local_radius. cbn [nd rg rad set_rad]. destruct (top (nd s) v) as [T|]; [|reflexivity].
  rewrite upd_other; [reflexivity|congruence].
Qed.
Lemma shrink_time_rad : forall ev s ls ch, Geo G ev s ls ch -> forall r d q r', In r ls -> In r' ls -> bpar (rg s) r' = None -> r' <> r ->
  shrink_time (mkState (nd s) (set_rad (rg s) r d) (ma s) (tr s) (ra s) (ta s) q) r' = shrink_time s r'.
Proof.
  intros ev s ls ch HGeo r d q r' Hr Hr' Hb Hne. unfold shrink_time. cbn [rg shl set_rad rad].
  destruct (shl (rg s) r') as [|v l] eqn:E; [now rewrite upd_other|]. unfold icp. rewrite lr_rad; [reflexivity|].
  pose proof (proj1 HGeo) as HG.
  assert (Hv : (v < length G)%nat /\ arr (nd s) v = Some r') by (apply (g_shl _ _ _ _ _ _ _ HG r' v Hr'); rewrite E; now left).
  rewrite (g_top _ _ _ _ _ _ _ HG v r' (proj1 Hv) (proj2 Hv)), (root_none _ _ ch (g_up _ _ _ _ _ _ _ HG) r' Hr' Hb). congruence.
Qed.

Lemma sched_rad : forall ev s ls ch, Geo G ev s ls ch -> forall D X, sched G ls D X s -> forall r, In r ls -> bpar (rg s) r = None ->
  forall d x q, 
  let s' := mkState (nd s) (set_rad (rg s) r d) (ma s) (tr s) (ra s) (ta s) (mkQ (ntr (sc s)) (upd (rtr (sc s)) r x) q (now (sc s)) (tick (sc s))) in
  (has_desired x = true -> slp d = -1 /\ desired_time x = shrink_time s' r /\ has_queued x = true /\ queued_time x <= desired_time x) ->
  (slp d = -1 -> has_desired x = true) ->
  (has_queued x = true -> In (queued_time x, IRegion r) q) ->
  (forall e, In e (que (sc s)) -> In e q) ->
  (forall t i, In (t, i) q -> In (t, i) (que (sc s)) \/ (now (sc s) <= t /\ i = IRegion r)) ->
  sched G ls (fun v => D v \/ top (nd s) v = Some r) (fun r' => X r' /\ r' <> r) s'.
Proof.
  intros ev s ls ch HGeo D X H r Hr Hb d x q s' H1 H2 H3 H4 H5.
  assert (LR : forall v, top (nd s) v <> Some r -> local_radius s' v = local_radius s v) by (intros; now apply lr_rad).
  assert (ST : forall r', In r' ls -> bpar (rg s) r' = None -> r' <> r -> shrink_time s' r' = shrink_time s r') by (intros; eapply shrink_time_rad; eauto).
  destruct H. split; cbn [s' sc ntr rtr que now tick nd rg].
  - intros v Hv Hq. apply H4. now apply q_nq.
  - assumption.
  - intros r' Hr'. unfold upd. destruct (Nat.eqb_spec r' r) as [->|]; auto.
  - intros r' Hr'. unfold upd. destruct (Nat.eqb_spec r' r) as [->|]; auto. intros Hd. apply H1; auto.
  - intros t i Hi. apply H5 in Hi as [Hi|[Hi _]]; eauto.
  - intros t v Hi. apply H5 in Hi as [Hi|[_ Hi]]; [eauto|discriminate].
  - intros t r' Hi. unfold upd. destruct (Nat.eqb_spec r' r) as [->|Hne]; auto. intros Hd.
    apply H5 in Hi as [Hi|[_ Hi]]; [eauto|]. injection Hi as ->. congruence.
  - intros v Hv Hd Hw. unfold nsl. rewrite LR by tauto. apply q_nsh; auto.
  - intros r' Hr' Hd. cbn [bpar set_rad rad]. unfold upd in *. destruct (Nat.eqb_spec r' r) as [->|Hne].
    + destruct (H1 Hd) as (E1 & E2 & _). auto.
    + rewrite ST; auto. apply (q_des r' Hr' Hd).
  - intros r' Hr' Hb' Hs Hx. cbn [bpar set_rad rad] in Hb', Hs. unfold upd in *. destruct (Nat.eqb_spec r' r) as [->|Hne]; auto.
  - intros u y w o T Hin Ha Hu Hy. assert (Ha' : appr s u y w = Some T).
    { rewrite <- Ha. symmetry. apply appr_ext.
      - split; [reflexivity|]. apply LR. tauto.
      - intros v E. split; [reflexivity|]. apply LR. intros E'. apply (Hy v E). now right. }
    exact (q_cov u y w o T Hin Ha' (fun H => Hu (or_introl H)) (fun v E H => Hy v E (or_introl H))).
Qed.

Lemma unwant_region_eq : forall s r d,
  unwant_region (set_rg s (set_rad (rg s) r d)) r =
  mkState (nd s) (set_rad (rg s) r d) (ma s) (tr s) (ra s) (ta s)
    (mkQ (ntr (sc s)) (upd (rtr (sc s)) r (set_no_desired (rtr (sc s) r))) (que (sc s)) (now (sc s)) (tick (sc s))).
Proof. reflexivity. Qed.

Lemma only_sc_Geo : forall ev s s' ls ch, Geo G ev s ls ch -> only_sc s s' -> Geo G ev s' ls ch.
Proof. intros ev s s' ls ch H (q & -> & _ & E & _). unfold Geo. cbn [nd rg sc set_sc]. rewrite E. exact H. Qed.

Lemma radded_sc : forall s r k s1 s2 d, nd s1 = nd s -> s1 = set_sc (set_rg s (set_rad (rg s) r d)) (sc s1) -> now (sc s1) = now (sc s) -> slp d = k ->
  get_distance_at_time d (now (sc s)) = get_distance_at_time (rad (rg s) r) (now (sc s)) -> only_sc s1 s2 -> radded s r k s2.
Proof.
  intros s r k s1 s2 d E1 E2 E3 E4 E5 (q & -> & F1 & F2 & F3). exists d, q. rewrite E2. repeat split; auto. congruence.
Qed.

Section Ops.
Variable fuel : nat.
Context {NI : ints}.
Variables (ev : list nat) (s : state) (ls : list nat) (ch : nat -> list nat) (D X : nat -> Prop) (r : nat).
Context {FI : fine NI G ev}.
Hypothesis HGeo : Geo G ev s ls ch.
Hypothesis HQ : sched G ls D X s.
Hypothesis Hr : In r ls.
Hypothesis Hb : bpar (rg s) r = None.
Let K : vok (rad (rg s) r) := s_vok _ _ _ _ _ _ (proj2 HGeo) r Hr.

Definition clean : nat -> Prop := fun v => D v /\ top (nd s) v <> Some r.

(** The speed changes to [d], a growing or frozen one, and the area is rescheduled. *)
Lemma rad_resched : forall d, vok d -> slp d <> -1 -> get_distance_at_time d (now (sc s)) = get_distance_at_time (rad (rg s) r) (now (sc s)) ->
  (slp d <> 0 -> par_ok ev s ch r) ->
  let s2 := unwant_region (set_rg s (set_rad (rg s) r d)) r in
  safe (bindO (total_area fuel s2 r) (fun l => Ok (reschedule_all G NI s2 l)))
    (fun s' => radded s r (slp d) s' /\ Geo G ev s' ls ch /\ sched G ls clean (fun r' => X r' /\ r' <> r) s').
Proof.
  intros d Kd Hs Ed Hpar s2. unfold s2. rewrite unwant_region_eq.
  match goal with |- context[reschedule_all G NI ?x _] => set (s1 := x) end.
  assert (G1 : Geo G ev s1 ls ch) by (eapply (Geo_rad ev s ls ch HGeo r d); eauto).
  assert (Q1 : sched G ls (fun v => D v \/ top (nd s) v = Some r) (fun r' => X r' /\ r' <> r) s1).
  { unfold s1. apply (sched_rad ev s ls ch HGeo D X HQ r Hr Hb); cbn [set_no_desired has_desired has_queued queued_time].
    - discriminate.
    - congruence.
    - intros Hq. now apply (q_rq _ _ _ _ _ HQ).
    - auto.
    - auto. }
  eapply safe_bind; [apply (area_spec G ev (nd s1) (rg s1) ls _ ch (proj1 G1) s1 fuel r Hr eq_refl eq_refl)|].
  intros l Hl. cbn [safe].
  assert (Hl2 : forall v, In v l -> (v < length G)%nat /\ nsl s1 v <> -1).
  { intros v Hv. apply Hl in Hv as [Hv Hi]. split; [assumption|].
    apply (area_top G ev s1 ls ch G1 r v Hr Hb Hv) in Hi. rewrite (nsl_top_slope G ev s1 ls ch G1 v r Hv Hi).
    unfold s1. cbn [rg rad set_rad]. rewrite upd_same. assumption. }
  destruct (sched_reschedule_all G WF ls _ l s1 _ Q1 (Geo_lrok G ev s1 ls ch G1) (Geo_ontime G WF ev s1 ls ch G1) Hl2) as [O Q2].
  split; [|split].
  - eapply (radded_sc s r _ s1 _ d); eauto.
  - eapply only_sc_Geo; eauto.
  - eapply sched_D; [exact Q2| | |assumption]; [|auto].
    intros v Hv [[Hd|Ht] Hn].
    + split; [assumption|]. intros Ht. apply Hn. apply Hl. split; [assumption|]. now apply (area_top G ev s1 ls ch G1 r v Hr Hb Hv).
    + exfalso. apply Hn. apply Hl. split; [assumption|]. now apply (area_top G ev s1 ls ch G1 r v Hr Hb Hv).
Qed.

Lemma set_region_growing_spec : par_ok ev s ch r ->
  safe (set_region_growing G fuel NI s r)
    (fun s' => radded s r 1 s' /\ Geo G ev s' ls ch /\ sched G ls clean (fun r' => X r' /\ r' <> r) s').
Proof.
  intros Hpar. unfold set_region_growing. destruct (then_growing_ok (rad (rg s) r) (now (sc s)) K) as (V1 & V2 & V3).
  rewrite <- V2. apply rad_resched; auto.
  - lia.
  - rewrite (vok_distance _ _ V1), V2, V3. lia.
Qed.

Lemma set_region_shrinking_spec : par_ok ev s ch r -> room G ev (nd s) ch r ->
  safe (set_region_shrinking fuel NI s r)
    (fun s' => radded s r (-1) s' /\ Geo G ev s' ls ch /\ sched G ls clean (fun r' => X r' /\ r' <> r) s').
Proof.
  intros Hpar Hm. unfold set_region_shrinking. destruct (then_shrinking_ok (rad (rg s) r) (now (sc s)) K) as (V1 & V2 & V3).
  set (d := then_shrinking_at_time (rad (rg s) r) (now (sc s))) in *.
  assert (Ed : get_distance_at_time d (now (sc s)) = get_distance_at_time (rad (rg s) r) (now (sc s))).
  { rewrite (vok_distance _ _ V1), V2, V3. lia. }
  unfold schedule_shrink. set (s0 := set_rg s (set_rad (rg s) r d)).
  match goal with |- context[want_region NI s0 r ?t] => replace t with (shrink_time s0 r) by (unfold shrink_time, icp; destruct (shl (rg s0) r); reflexivity) end.
  assert (G0 : Geo G ev s0 ls ch) by (eapply (Geo_rad ev s ls ch HGeo r d); eauto).
  assert (Es : slp (rad (rg s0) r) = -1) by (cbn [s0 rg set_rg rad set_rad]; now rewrite upd_same).
  destruct (want_region_eq s0 r (shrink_time s0 r) (shrink_fits G ev s0 ls ch G0 NI r Hr Hb Es Hm)) as (x & q & -> & W).
  match goal with |- context[fold_left unwant_node _ ?x] => set (s1 := x) end.
  assert (G1 : Geo G ev s1 ls ch) by exact G0.
  assert (Hnow : now (sc s) <= shrink_time s0 r) by exact (proj1 (shrink_range G ev s0 ls ch G0 r Hr Hb Es)).
  pose proof (wanted_In _ _ _ _ _ _ W) as WI. destruct W.
  assert (Q1 : sched G ls (fun v => D v \/ top (nd s) v = Some r) (fun r' => X r' /\ r' <> r) s1).
  { unfold s1. apply (sched_rad ev s ls ch HGeo D X HQ r Hr Hb d).
    - intros _. repeat split; auto. lia.
    - auto.
    - intros _. destruct w_q as [[-> ->]|(-> & E1 & E2)]; [now left|]. rewrite E2. now apply (q_rq _ _ _ _ _ HQ).
    - intros e He. apply WI. auto.
    - intros t i Hi. apply WI in Hi as [[E _]|Hi]; auto. injection E as -> ->. right. auto. }
  eapply safe_bind; [apply (area_spec G ev (nd s1) (rg s1) ls _ ch (proj1 G1) s1 fuel r Hr eq_refl eq_refl)|].
  intros l Hl. cbn [safe].
  assert (Hl2 : forall v, In v l -> (v < length G)%nat /\ nsl s1 v = -1).
  { intros v Hv. apply Hl in Hv as [Hv Hi]. split; [assumption|].
    apply (area_top G ev s1 ls ch G1 r v Hr Hb Hv) in Hi. rewrite (nsl_top_slope G ev s1 ls ch G1 v r Hv Hi).
    unfold s1, s0. cbn [rg rad set_rad set_sc set_rg]. rewrite upd_same. assumption. }
  destruct (sched_unwant_all G WF ls _ l s1 _ Q1 Hl2) as [O Q2].
  split; [|split].
  - eapply (radded_sc s r _ s1 _ d); eauto.
  - eapply only_sc_Geo; eauto.
  - eapply sched_D; [exact Q2| | |assumption]; [|auto].
    intros v Hv [[Hd|Ht] Hn].
    + split; [assumption|]. intros Ht. apply Hn. apply Hl. split; [assumption|]. now apply (area_top G ev s1 ls ch G1 r v Hr Hb Hv).
    + exfalso. apply Hn. apply Hl. split; [assumption|]. now apply (area_top G ev s1 ls ch G1 r v Hr Hb Hv).
Qed.

Lemma set_region_frozen_spec :
  safe (set_region_frozen G fuel NI s r)
    (fun s' => radded s r 0 s' /\ Geo G ev s' ls ch /\ sched G ls D (fun r' => X r' /\ r' <> r) s').
Proof.
  unfold set_region_frozen. destruct (then_frozen_ok (rad (rg s) r) (now (sc s)) K) as (V1 & V2 & V3).
  set (d := then_frozen_at_time (rad (rg s) r) (now (sc s))) in *.
  assert (Ed : get_distance_at_time d (now (sc s)) = get_distance_at_time (rad (rg s) r) (now (sc s))).
  { rewrite (vok_distance _ _ V1), V2, V3. lia. }
  rewrite (vok_shrinking _ K). destruct (Z.eqb_spec (slp (rad (rg s) r)) (-1)) as [Es|Es].
  - eapply safe_impl; [apply (rad_resched d V1 ltac:(lia) Ed ltac:(intros; lia))|]. cbv beta. rewrite V2.
    intros s' (R1 & R2 & R3). split; [assumption|split; [assumption|]].
    eapply sched_D; [exact R3| | |assumption]; [|auto]. intros v Hv [Hd _]. exact Hd.
  - cbn [safe]. rewrite unwant_region_eq.
    match goal with |- context[radded s r 0 ?x] => set (s1 := x) end.
    assert (G1 : Geo G ev s1 ls ch) by (eapply (Geo_rad ev s ls ch HGeo r d); eauto; intros; lia).
    assert (Q1 : sched G ls (fun v => D v \/ top (nd s) v = Some r) (fun r' => X r' /\ r' <> r) s1).
    { unfold s1. apply (sched_rad ev s ls ch HGeo D X HQ r Hr Hb); cbn [set_no_desired has_desired has_queued queued_time].
      - discriminate.
      - intros; lia.
      - intros Hq. now apply (q_rq _ _ _ _ _ HQ).
      - auto.
      - auto. }
    split; [|split; [exact G1|]].
    { exists d, (sc s1). repeat split; auto. }
    (* the events of the area are now later or never *)
    destruct Q1. split; auto.
    + intros v Hv Hd Hw. destruct (same_opt (top (nd s) v) (Some r)) eqn:E.
      * apply same_opt_spec in E. rewrite (nsl_top_slope G ev s1 ls ch G1 v r Hv E).
        cbn [s1 rg rad set_rad]. rewrite upd_same. lia.
      * apply same_opt_neq in E. apply q_nsh; auto. tauto.
    + intros u y w o T Hin Ha Hdu Hdy.
      destruct (nbr_bound G WF _ _ _ _ Hin) as [Hu Hvb].
      assert (N1 : forall v, (v < length G)%nat -> (top (nd s) v = Some r -> nsl s1 v = 0 /\ (nsl s v = 0 \/ nsl s v = 1)) /\ (top (nd s) v <> Some r -> nsl s1 v = nsl s v)).
      { intros v Hv. split; intros E.
        - rewrite (nsl_top_slope G ev s1 ls ch G1 v r Hv E). cbn [s1 rg rad set_rad]. rewrite upd_same. split; [assumption|].
          rewrite (nsl_top_slope G ev s ls ch HGeo v r Hv E). destruct (vok_slp _ K) as [|[|]]; auto; contradiction.
        - unfold nsl. f_equal. now apply lr_rad. }
      assert (R1 : forall v, (v < length G)%nat -> rho (nd s) ch (rval (rg s1) (now (sc s))) v = rho (nd s) ch (rval (rg s) (now (sc s))) v).
      { intros v Hv. unfold rho. destruct (arr (nd s) v); [|reflexivity]. f_equal. apply zsum_ext. intros R _.
        unfold rval. cbn [s1 rg rad set_rad]. unfold upd. destruct (Nat.eqb_spec R r) as [->|]; auto. }
      assert (A1 := appr_geo G WF ev s1 ls ch G1 u y w o T Hin Ha). cbn [s1 nd sc] in A1. change (mkState _ _ _ _ _ _ _) with s1 in A1.
      cbn [now] in A1.
      assert (Cov : forall T', appr s u y w = Some T' -> T' <= T -> wants s1 u T \/ exists v, y = Some v /\ wants s1 v T).
      { intros T' Ha' Hle. destruct (P_CoreSched.q_cov _ _ _ _ _ HQ u y w o T' Hin Ha' Hdu Hdy) as [[W1 W2]|(v & E & [W1 W2])].
        - left. split; [exact W1|]. cbn [s1 sc ntr]. lia.
        - right. exists v. split; [assumption|]. split; [exact W1|]. cbn [s1 sc ntr]. lia. }
      destruct (N1 u Hu) as [Nu1 Nu2]. pose proof (icp_rho G ev s ls ch HGeo u Hu) as Iu.
      destruct y as [v|].
      * specialize (Hvb v eq_refl). destruct (N1 v Hvb) as [Nv1 Nv2]. destruct A1 as (Ht & A & Hs1 & Hs2).
        pose proof (icp_rho G ev s ls ch HGeo v Hvb) as Iv.
        pose proof (slack G WF _ _ _ _ _ _ (proj1 HGeo) u v w o Hin Ht) as SL.
        change (rg {| nd := nd s; rg := _; ma := _; tr := _; ra := _; ta := _; sc := _ |}) with (rg s1) in A.
        rewrite !R1 in A by assumption.
        unfold appr in Cov. apply same_opt_neq in Ht. rewrite Ht in Cov.
        destruct (same_opt (top (nd s) u) (Some r)) eqn:E1; [apply same_opt_spec in E1|apply same_opt_neq in E1];
        (destruct (same_opt (top (nd s) v) (Some r)) eqn:E2; [apply same_opt_spec in E2|apply same_opt_neq in E2]).
        -- apply same_opt_neq in Ht. congruence.
        -- destruct (Nu1 E1) as [Z1 Z2]. rewrite Z1 in A. specialize (Nv2 E2). rewrite Nv2 in *.
           destruct A as [[Zv ->]|(Zv & _)]; [|discriminate].
           destruct Z2 as [Z2|Z2]; rewrite Z2 in *; assert (Zv' : nsl s v = 1) by lia; rewrite Zv' in *; cbn -[Z.div icp] in Cov.
           ++ apply (Cov _ eq_refl). lia.
           ++ apply (Cov _ eq_refl). rewrite Iu, Iv. apply Z.div_le_upper_bound; lia.
        -- destruct (Nv1 E2) as [Z1 Z2]. rewrite Z1 in A. specialize (Nu2 E1). rewrite Nu2 in *.
           destruct A as [[Zv ->]|(_ & Zv & _)]; [|discriminate].
           destruct Z2 as [Z2|Z2]; rewrite Z2 in *; assert (Zu' : nsl s u = 1) by lia; rewrite Zu' in *; cbn -[Z.div icp] in Cov.
           ++ apply (Cov _ eq_refl). lia.
           ++ apply (Cov _ eq_refl). rewrite Iu, Iv. apply Z.div_le_upper_bound; lia.
        -- apply (q_cov u (Some v) w o T Hin Ha); [tauto|]. intros v' E'. injection E' as <-. intros [Hd|Hd]; [|contradiction]. now apply (Hdy v eq_refl).
      * destruct A1 as [As _]. destruct (same_opt (top (nd s) u) (Some r)) eqn:E1; [apply same_opt_spec in E1|apply same_opt_neq in E1].
        -- destruct (Nu1 E1) as [Z1 _]. unfold nsl in *. rewrite As in Z1. discriminate.
        -- apply (q_cov u None w o T Hin Ha); [tauto|]. intros v' E'. discriminate.
Qed.
End Ops.
End Rad.
