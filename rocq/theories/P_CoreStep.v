(** Invariants of the decoder's core, part 7: one step of the flooder. *)
From Coq Require Import ZArith NArith List Bool Arith Lia Sorting.Sorted.
From Verif Require Import M_Base M_Varying M_Tracker M_Core S_Core S_Tree P_Sum P_Up P_Tree P_CoreGeo P_CoreSched P_CoreArea P_CoreRad P_CoreQueue P_CoreFlood.
Import ListNotations.
Local Open Scope Z_scope.

Section Step.
Variable G : graph.
Context {NI : ints}.
Hypothesis WF : wf_graph G.

(** Changes that leave the schedule alone. *)
Lemma sched_frame : forall ls D X s s' (D0 : nat -> Prop), sched G ls D X s -> sc s' = sc s ->
  bpar (rg s') = bpar (rg s) -> rad (rg s') = rad (rg s) ->
  (forall v, (v < length G)%nat -> ~ D0 v -> top (nd s') v = top (nd s) v /\ local_radius s' v = local_radius s v) ->
  (forall r, In r ls -> bpar (rg s) r = None -> slp (rad (rg s) r) = -1 -> has_desired (rtr (sc s) r) = true -> shrink_time s' r = shrink_time s r) ->
  sched G ls (fun v => D v \/ D0 v) X s'.
Proof.
  intros ls D X s s' D0 H E1 E2 E3 E4 E5. destruct H. split; rewrite ?E1, ?E2, ?E3; auto.
  - intros v Hv Hd Hw. unfold nsl. destruct (E4 v Hv) as [_ ->]; [tauto|]. apply q_nsh; auto.
  - intros r Hr Hd. destruct (q_des r Hr Hd) as (A1 & A2 & A3). repeat split; auto. rewrite A3. symmetry. auto.
  - intros u x w o T Hin Ha Hu Hx. unfold wants. rewrite E1. destruct (nbr_bound G WF _ _ _ _ Hin) as [Hlu Hlx].
    assert (Ha' : appr s u x w = Some T).
    { rewrite <- Ha. symmetry. apply appr_ext.
      - apply E4; auto.
      - intros v Ev. apply E4; auto. intros H. apply (Hx v Ev). now right. }
    exact (q_cov u x w o T Hin Ha' (fun H => Hu (or_introl H)) (fun v Ev H => Hx v Ev (or_introl H))).
Qed.
(** A shrinking region asks to be woken. *)
Lemma schedule_shrink_eq : forall s r, schedule_shrink NI s r = want_region NI s r (shrink_time s r).
Proof.
  intros s r. unfold schedule_shrink, shrink_time, icp. f_equal.
Qed.
Lemma sched_shrink : forall ls D X s r, sched G ls D X s -> In r ls -> bpar (rg s) r = None -> slp (rad (rg s) r) = -1 -> now (sc s) <= shrink_time s r -> timely NI (now (sc s)) (shrink_time s r) ->
  let s' := schedule_shrink NI s r in
  (exists q, s' = set_sc s q /\ now q = now (sc s) /\ tick q = tick (sc s)) /\ sched G ls D (fun r' => X r' /\ r' <> r) s'.
Proof.
  intros ls D X s r H Hr Hb Hs Ht Et s'. subst s'. rewrite schedule_shrink_eq. destruct (want_region_eq s r (shrink_time s r) Et) as (x & q & E & W).
  rewrite E. split; [eexists; split; [reflexivity|split; reflexivity]|].
  pose proof (wanted_In _ _ _ _ _ _ W) as WI. destruct W.
  assert (In' : forall e, In e (que (sc s)) -> In e q) by (intros e He; apply WI; auto).
  destruct H. split; cbn [sc set_sc ntr rtr que now tick nd rg]; auto.
  - intros r' Hr'. unfold upd. destruct (Nat.eqb_spec r' r) as [->|]; auto. intros _.
    destruct w_q as [[-> ->]|(-> & E1 & ->)]; [now left|]. auto.
  - intros r' Hr'. unfold upd. destruct (Nat.eqb_spec r' r) as [->|]; auto. intros _. rewrite w_time. auto.
  - intros t i Hi. apply WI in Hi as [[Ee _]|Hi]; [injection Ee as -> ->; assumption|eauto].
  - intros t v Hi. apply WI in Hi as [[Ee _]|Hi]; [discriminate|eauto].
  - intros t r' Hi. unfold upd. destruct (Nat.eqb_spec r' r) as [->|Hne]; [auto|]. apply WI in Hi as [[Ee _]|Hi]; [|eauto]. injection Ee as _ ->. congruence.
  - intros r' Hr'. unfold upd. destruct (Nat.eqb_spec r' r) as [->|Hne]; [|apply (q_des r' Hr')]. intros _. repeat split; auto.
  - intros r' Hr' Hb' Hs' Hx. unfold upd. destruct (Nat.eqb_spec r' r) as [->|Hne]; [auto|]. apply q_shr; auto.
Qed.

(** What a step of the flooder leaves alone. *)
Record still (ev : list nat) (s s' : state) : Prop := {
  l_ma : ma s' = ma s; l_tr : tr s' = tr s; l_ra : ra s' = ra s; l_ta : ta s' = ta s;
  l_bpar : bpar (rg s') = bpar (rg s); l_btop : btop (rg s') = btop (rg s); l_rad : rad (rg s') = rad (rg s); l_chl : chl (rg s') = chl (rg s);
  l_now : now (sc s') = now (sc s);
  l_ev : forall x, In x ev -> arr (nd s') x = arr (nd s) x }.
Lemma still_refl : forall ev s, still ev s s. Proof. intros; split; auto. Qed.
Lemma still_trans : forall ev a b c, still ev a b -> still ev b c -> still ev a c.
Proof. intros ev a b c H K. destruct H, K. split; try congruence. intros x Hx. rewrite l_ev1, l_ev0; auto. Qed.
Lemma still_sc : forall ev s q, now q = now (sc s) -> still ev s (set_sc s q).
Proof. intros; split; auto. Qed.
Lemma still_only_sc : forall ev s s', only_sc s s' -> still ev s s'.
Proof. intros ev s s' (q & -> & _ & E & _). now apply still_sc. Qed.
Lemma still_chn : forall ev s s' ch x, still ev s s' -> In x ev -> chn (nd s') ch x = chn (nd s) ch x.
Proof. intros ev s s' ch x H Hx. unfold chn. now rewrite (l_ev _ _ _ H x Hx). Qed.
Lemma still_Y : forall ev s s' ch y x, still ev s s' -> In x ev -> Yv (nd s') ch y x = Yv (nd s) ch y x.
Proof. intros. unfold Yv. erewrite still_chn; eauto. Qed.
Lemma still_rval : forall ev s s' R, still ev s s' -> rval (rg s') (now (sc s')) R = rval (rg s) (now (sc s)) R.
Proof. intros ev s s' R H. unfold rval. now rewrite (l_rad _ _ _ H), (l_now _ _ _ H). Qed.

Lemma slo_still : forall ev s s' ls ch, still ev s s' -> slo ev (nd s) (rg s) ls ch (now (sc s)) -> slo ev (nd s') (rg s') ls ch (now (sc s')).
Proof.
  intros ev s s' ls ch H HS. pose proof (still_Y ev s s' ch) as SY. destruct HS. destruct H. split; rewrite ?l_rad0, ?l_bpar0, ?l_now0; auto.
  intros x R Hx Ex Hs. rewrite l_ev0 in Ex by assumption.
  rewrite SY by (auto; split; auto). unfold rval. rewrite l_rad0. fold (rval (rg s) (now (sc s))). eapply s_par; eauto.
Qed.

(** A region reaches a node. *)
Lemma region_arriving_spec : forall ev {FI : fine NI G ev} s ls ch fuel, Geo G ev s ls ch -> sched G ls nobody nobody s ->
  forall T v u idx w o, nth_error (nbrs G u) idx = Some (Some v, w, o) -> arr (nd s) v = None -> top (nd s) u = Some T ->
  nsl s u = 1 -> rho (nd s) ch (rval (rg s) (now (sc s))) u = w ->
  safe (region_arriving G fuel NI s T v u idx) (fun s' => still ev s s' /\ Geo G ev s' ls ch /\ sched G ls nobody nobody s').
Proof.
  intros ev FI s ls ch fuel HGeo HQ T v u idx w o Hnth Av Tu Su Hw. pose proof (proj1 HGeo) as HG.
  assert (Hin := nth_error_In _ _ Hnth). destruct (nbr_bound G WF _ _ _ _ Hin) as [Hu Hv]. specialize (Hv v eq_refl).
  destruct (top_spec G ev s ls ch HGeo u T Hu Tu) as (R & Au & ET & HR & HTR & HT & HTb).
  assert (ST : slp (rad (rg s) T) = 1) by (rewrite <- (nsl_top_slope G ev s ls ch HGeo u T Hu Tu); assumption).
  destruct (g_walk _ _ _ _ _ _ _ HG u R Hu Au) as (p & P1 & P2 & _).
  assert (Hvev : ~ In v ev). { intros Hi. destruct (g_ev _ _ _ _ _ _ _ HG v Hi) as (_ & Q & E & _). congruence. }
  assert (Hne : u <> v) by (intros ->; congruence).
  assert (BT : btop (rg s) T = Some T).
  { rewrite (g_btop _ _ _ _ _ _ _ HG T HT). f_equal. apply (root_none _ _ ch (g_up _ _ _ _ _ _ _ HG) T HT HTb). }
  unfold region_arriving. rewrite Hnth. unfold compute_wrapped_radius. cbn [nd set_nd src arr top]. rewrite upd_same, P1.
  cbn [rg set_nd]. rewrite !upd_same, BT. destruct fuel as [|k]; [exact I|]. cbn [wrapped_loop]. rewrite Nat.eqb_refl. cbn [bindO rar].
  rewrite upd_same. assert (Hm : room G ev (nd s) ch (root ch T)).
  { rewrite (root_none _ _ ch (g_up _ _ _ _ _ _ _ HG) T HT HTb). destruct (g_walk _ _ _ _ _ _ _ HG u R Hu Au) as (p' & _ & M2 & M3 & M4).
    exists p', (Some v). eexists. eexists. split; [exact M2|]. split; [|split; [exact (walk_app G p' u v _ _ _ _ M4 (walk_one G u v w o Hin))|unfold chn; rewrite Av; intros []]].
    destruct (chn_root G ev _ _ ls _ ch HG p' R (ev_lt G ev _ _ ls _ ch HG p' M2) M3) as (Q & Q1 & Q2 & Q3 & _). rewrite ET, Q3. unfold chn. rewrite Q1. apply (root_spec _ _ ch (g_up _ _ _ _ _ _ _ HG) Q Q2). }
  rewrite (fine_i _ _ _ _ _ HG T HT Hm) by (pose proof (radius_fits G ev s ls ch HGeo T HT) as B; unfold rval in B; fold (rval (rg s) (now (sc s))) in B; lia). cbn [safe]. set (yT := get_distance_at_time (rad (rg s) T) (now (sc s))).
  set (s2 := set_rg _ _).
  assert (O : off (nd s) (nd s2) v).
  { intros x Hx. cbn [s2 nd set_rg set_nd arr top wrp src crs rar set_wrp]. rewrite !upd_other by assumption. repeat split. }
  assert (St : still ev s s2).
  { split; try reflexivity. intros x Hx. assert (x <> v) by (intros ->; contradiction). now destruct (O x H) as [-> _]. }
  assert (HGeo2 : Geo G ev s2 ls ch).
  { split; [|eapply slo_still; [exact St|apply HGeo]].
    cbn [s2 rg set_rg set_nd]. apply (geo_arrive G ev (nd s) (rg s) ls _ ch WF HG T u v w o Hin Av Tu Hw); auto;
      cbn [s2 nd set_rg set_nd arr top wrp src crs rar set_wrp]; rewrite upd_same; try reflexivity.
    now symmetry. }
  assert (LR : forall x, x <> v -> local_radius s2 x = local_radius s x).
  { intros x Hx. destruct (O x Hx) as (_ & E1 & E2 & _). unfold local_radius. rewrite E1, E2. reflexivity. }
  assert (HQ2 : sched G ls (fun x => nobody x \/ one v x) nobody s2).
  { apply (sched_frame ls nobody nobody s s2 (one v) HQ); try reflexivity.
    - intros x Hx Hxv. destruct (O x Hxv) as (_ & E1 & _). auto.
    - intros r Hr Hb Hs _. assert (r <> T) by (intros ->; lia).
      unfold shrink_time. cbn [s2 rg set_rg set_nd shl set_shl]. rewrite upd_other by assumption. destruct (shl (rg s) r) as [|z l] eqn:Ez; [reflexivity|].
      assert (Hz : z <> v).
      { intros ->. assert (Hi : In v (shl (rg s) r)) by (rewrite Ez; now left). apply (g_shl _ _ _ _ _ _ _ HG r v Hr) in Hi as [_ E]. congruence. }
      unfold icp. rewrite LR by assumption. reflexivity. }
  assert (Nv : nsl s2 v <> -1).
  { rewrite (nsl_top_slope G ev s2 ls ch HGeo2 v T Hv); [cbn [s2 rg set_rg set_shl rad set_nd]; lia|].
    cbn [s2 nd set_rg set_nd top set_wrp]. apply upd_same. }
  pose proof (sched_reschedule G WF ls _ nobody s2 v HQ2 (Geo_lrok G ev s2 ls ch HGeo2) (Geo_ontime G WF ev s2 ls ch HGeo2) Hv Nv) as HQ3.
  pose proof (only_sc_reschedule G s2 v) as OS. change (safe (Ok (reschedule G NI s2 v)) (fun s' => still ev s s' /\ Geo G ev s' ls ch /\ sched G ls nobody nobody s')).
  cbn [safe]. split; [|split].
  - eapply still_trans; [exact St|now apply still_only_sc].
  - eapply only_sc_Geo; eauto.
  - eapply sched_D; [exact HQ3| | |exact WF]; [|auto]. intros x _ [[[]|Hx] Hx']. exact (Hx' Hx).
Qed.

(** A shrinking region leaves a node. *)
Lemma leave_spec : forall ev {FI : fine NI G ev} s ls ch, Geo G ev s ls ch -> forall r, sched G ls nobody (one r) s ->
  In r ls -> bpar (rg s) r = None -> slp (rad (rg s) r) = -1 -> shrink_time s r = now (sc s) -> has_desired (rtr (sc s) r) = false -> room G ev (nd s) ch r ->
  forall v rest, shl (rg s) r = v :: rest -> ~ (rest = [] /\ chl (rg s) r = []) ->
  forall n', off (nd s) n' v -> arr n' v = None -> top n' v = None -> wrp n' v = 0 -> src n' v = None -> crs n' v = 0%N -> rar n' v = 0 ->
  let s' := schedule_shrink NI (reschedule G NI (set_nd (set_rg s (set_shl (rg s) r rest)) n') v) r in
  still ev s s' /\ Geo G ev s' ls ch /\ sched G ls nobody nobody s'.
Proof.
  intros ev FI s ls ch HGeo r HQ Hr Hb Hs Ht Hd Hm v rest Hsh Hnt n' O A1 A2 A3 A4 A5 A6. pose proof (proj1 HGeo) as HG.
  assert (Hvr : (v < length G)%nat /\ arr (nd s) v = Some r) by (apply (g_shl _ _ _ _ _ _ _ HG r v Hr); rewrite Hsh; now left).
  destruct Hvr as [Hv Av].
  pose proof (shrink_time_geo G ev s ls ch HGeo r Hr Hb Hs) as STG. rewrite Hsh in STG.
  set (s2 := set_nd (set_rg s (set_shl (rg s) r rest)) n').
  assert (HG2 : geo G ev n' (set_shl (rg s) r rest) ls (rval (rg s) (now (sc s))) ch).
  { apply (geo_leave G ev (nd s) (rg s) ls _ ch HG r v rest); auto. lia. }
  assert (Hvev : ~ In v ev). { intros Hi. destruct (g_ev _ _ _ _ _ _ _ HG2 v Hi) as (_ & Q & E & _). congruence. }
  assert (St : still ev s s2).
  { split; try reflexivity. intros x Hx. assert (x <> v) by (intros ->; contradiction). cbn [s2 nd set_nd]. now destruct (O x H) as [-> _]. }
  assert (HGeo2 : Geo G ev s2 ls ch).
  { split; [exact HG2|eapply slo_still; [exact St|apply HGeo]]. }
  assert (LR : forall x, x <> v -> local_radius s2 x = local_radius s x).
  { intros x Hx. destruct (O x Hx) as (_ & E1 & E2 & _). unfold local_radius. cbn [s2 nd set_nd]. rewrite E1, E2. reflexivity. }
  assert (HQ2 : sched G ls (fun x => nobody x \/ one v x) (one r) s2).
  { apply (sched_frame ls nobody (one r) s s2 (one v) HQ); try reflexivity.
    - intros x Hx Hxv. split; [|auto]. cbn [s2 nd set_nd]. now destruct (O x Hxv) as (_ & E1 & _).
    - intros r' Hr' Hb' Hs' Hd'. assert (r' <> r) by congruence.
      unfold shrink_time. cbn [s2 rg set_rg set_nd shl set_shl]. rewrite upd_other by assumption. destruct (shl (rg s) r') as [|z l] eqn:Ez; [reflexivity|].
      assert (Hz : z <> v).
      { intros ->. assert (Hi : In v (shl (rg s) r')) by (rewrite Ez; now left). apply (g_shl _ _ _ _ _ _ _ HG r' v Hr') in Hi as [_ E]. congruence. }
      unfold icp. rewrite LR by assumption. reflexivity. }
  assert (Nv : nsl s2 v <> -1).
  { rewrite (nsl_none G s2 v Hv); [lia|]. assumption. }
  pose proof (sched_reschedule G WF ls _ (one r) s2 v HQ2 (Geo_lrok G ev s2 ls ch HGeo2) (Geo_ontime G WF ev s2 ls ch HGeo2) Hv Nv) as HQ3.
  pose proof (only_sc_reschedule G s2 v) as OS. set (s3 := reschedule G NI s2 v) in *.
  assert (HGeo3 : Geo G ev s3 ls ch) by (eapply only_sc_Geo; eauto).
  assert (E3 : rg s3 = rg s2) by (destruct OS as (q & -> & _); reflexivity).
  assert (Hb3 : bpar (rg s3) r = None) by (rewrite E3; exact Hb).
  assert (Hs3 : slp (rad (rg s3) r) = -1) by (rewrite E3; exact Hs).
  pose proof (proj1 (shrink_range G ev s3 ls ch HGeo3 r Hr Hb3 Hs3)) as Ht3.
  assert (Hm3 : room G ev (nd s3) ch r).
  { assert (N3 : nd s3 = n') by (destruct OS as (q & -> & _); reflexivity). rewrite N3. destruct Hm as (p & x & l & o & M1 & M2 & M3 & M4). exists p, x, l, o. split; [exact M1|]. split; [|split; [exact M3|]].
    - pose proof (still_chn ev s s2 ch p St M1) as E. cbn [s2 nd set_nd] in E. now rewrite E.
    - destruct x as [x|]; [|exact M4]. unfold chn in *. destruct (Nat.eq_dec x v) as [->|Nx]; [rewrite A1; intros []|]. destruct (O x Nx) as [-> _]. exact M4. }
  destruct (sched_shrink ls _ _ s3 r HQ3 Hr Hb3 Hs3 Ht3 (shrink_fits G ev s3 ls ch HGeo3 NI r Hr Hb3 Hs3 Hm3)) as [(q & Eq & N1 & N2) HQ4].
  cbv zeta. set (s4 := schedule_shrink NI s3 r) in *. split; [|split].
  - eapply still_trans; [exact St|]. eapply still_trans; [apply still_only_sc; exact OS|]. rewrite Eq. now apply still_sc.
  - rewrite Eq. unfold Geo in *. cbn [nd rg sc set_sc]. rewrite N1. exact HGeo3.
  - eapply sched_D; [exact HQ4| | |exact WF].
    + intros x _ [[[]|Hx] Hx']. exact (Hx' Hx).
    + intros x _ [Hx Hx']. exact (Hx' Hx).
Qed.

(** The way back along an edge. *)
Lemma index_of_spec : forall l v k, In (Some v) (map (fun e => fst (fst e)) l) ->
  exists i w o, index_of l (Some v) k = Ok (k + i)%nat /\ nth_error l i = Some (Some v, w, o).
Proof.
  induction l as [|[[x w] o] l IH]; intros v k H; [destruct H|]. cbn [index_of].
  destruct x as [a|]; [destruct (Nat.eqb_spec a v) as [->|Hne]|].
  - exists 0%nat, w, o. rewrite Nat.add_0_r. auto.
  - destruct H as [E|H]; [cbn in E; congruence|]. destruct (IH v (S k) H) as (i & w' & o' & E & Hn). exists (S i), w', o'. rewrite E. split; [f_equal; lia|exact Hn].
  - destruct H as [E|H]; [cbn in E; congruence|]. destruct (IH v (S k) H) as (i & w' & o' & E & Hn). exists (S i), w', o'. rewrite E. split; [f_equal; lia|exact Hn].
Qed.
Lemma edge_unique : forall u x w o w' o', In (x, w, o) (nbrs G u) -> In (x, w', o') (nbrs G u) -> w = w' /\ o = o'.
Proof.
  intros u x w o w' o' H1 H2. pose proof (wf_simple G WF u) as N. revert H1 H2 N. generalize (nbrs G u). induction l as [|e l IH]; [intros []|].
  cbn [map]. intros H1 H2 N. inversion N as [|a b N1 N2]; subst. destruct H1 as [->|H1], H2 as [E2|H2].
  - injection E2 as -> ->. auto.
  - exfalso. apply N1. apply (in_map (fun e => fst (fst e))) in H2. exact H2.
  - subst e. exfalso. apply N1. apply (in_map (fun e => fst (fst e))) in H1. exact H1.
  - auto.
Qed.

(** What a collision reported by the flooder means. *)
Definition hit_ok (ev : list nat) (s : state) (ls : list nat) (ch : nat -> list nat) (e : mevent) : Prop :=
  match e with
  | NoEvent => True
  | HitRegion r1 r2 e => exists R Q, r1 = Some R /\ r2 = Some Q /\ R <> Q /\ In R ls /\ In Q ls /\ bpar (rg s) R = None /\ bpar (rg s) Q = None /\
      tight G ev (nd s) ch (rval (rg s) (now (sc s))) R Q e /\
      ((slp (rad (rg s) R) = 1 /\ slp (rad (rg s) Q) = 1) \/ (slp (rad (rg s) R) = 1 /\ slp (rad (rg s) Q) = 0) \/
       (slp (rad (rg s) R) = 0 /\ slp (rad (rg s) Q) = 1))
  | HitBoundary r e => exists R, r = Some R /\ In R ls /\ bpar (rg s) R = None /\ slp (rad (rg s) R) = 1 /\
      tightB G ev (nd s) ch (rval (rg s) (now (sc s))) R e
  | BlossomShatter _ _ _ => False
  end.

Lemma look_at_node_spec : forall ev {FI : fine NI G ev} s ls ch fuel, Geo G ev s ls ch -> forall v, (v < length G)%nat -> nsl s v <> -1 -> sched G ls (one v) nobody s ->
  safe (look_at_node G fuel NI s v) (fun r => still ev s (fst r) /\ Geo G ev (fst r) ls ch /\ sched G ls nobody nobody (fst r) /\ hit_ok ev (fst r) ls ch (snd r)).
Proof.
  intros ev FI s ls ch fuel HGeo v Hv Nv HQ. unfold look_at_node.
  pose proof (Geo_lrok G ev s ls ch HGeo) as LRK. pose proof (Geo_ontime G WF ev s ls ch HGeo) as OT.
  pose proof (next_event_spec G WF s v LRK Nv) as NE. destruct (next_event G s v) as [[k t]|] eqn:ENE.
  2:{ cbn [safe fst snd]. split; [apply still_refl|]. split; [assumption|]. split; [|exact I]. clear ENE.
    destruct HQ. split; auto.
    - intros u Hu _ Hw. destruct (Nat.eq_dec u v) as [->|Hne]; [assumption|]. apply q_nsh; auto.
    - intros u x w o T Hin Ha _ _. destruct (Nat.eq_dec u v) as [->|Hne]; [rewrite (NE x w o Hin) in Ha; discriminate|].
      destruct x as [z|].
      + destruct (Nat.eq_dec z v) as [->|Hz].
        * rewrite appr_sym in Ha. rewrite (NE (Some u) w o (wf_sym G WF _ _ _ _ Hin)) in Ha. discriminate.
        * apply (q_cov u (Some z) w o T Hin Ha Hne). intros z' E. injection E as <-. exact Hz.
      + apply (q_cov u None w o T Hin Ha Hne). discriminate. }
  destruct NE as [(x & w & o & Hn & Ha) Hmin].
  assert (Hin := nth_error_In _ _ Hn).
  assert (Dn : forall s', sched G ls (fun u => one v u /\ u <> v) nobody s' -> sched G ls nobody nobody s').
  { intros s' H. eapply sched_D; [exact H| | |exact WF]; [|auto]. intros z _ [Hz Hz']. exact (Hz' Hz). }
  destruct (Z.eqb_spec t (now (sc s))) as [->|Hne].
  2:{ cbn [safe fst snd]. assert (Et : timely NI (now (sc s)) t) by (eapply (fine_w (NI := NI)); [exact Hin|eapply OT; eauto]). pose proof (sched_want G WF ls _ _ s v t HQ Hv Nv (proj1 (OT _ _ _ _ _ Hin Ha)) Et Hmin) as HQ1. destruct (want_node_eq s v t Et) as (xx & q & E & _). rewrite E in *.
    split; [apply still_sc; reflexivity|]. split; [exact HGeo|]. split; [auto|exact I]. }
  pose proof (fine_n (NI := NI) (G := G) (ev := ev) (now (sc s))) as En.
  pose proof (sched_want G WF ls _ _ s v (now (sc s)) HQ Hv Nv ltac:(lia) En Hmin) as HQ1. apply Dn in HQ1. clear Dn.
  destruct (want_node_eq s v (now (sc s)) En) as (xx & q & E & _). rewrite E in *. set (s1 := set_sc s _) in *.
  assert (HGeo1 : Geo G ev s1 ls ch) by exact HGeo. assert (St1 : still ev s s1) by (apply still_sc; reflexivity).
  assert (Ha1 : appr s1 v x w = Some (now (sc s1))) by exact Ha. clear E. clearbody s1. clear Ha. rewrite Hn.
  pose proof (proj1 HGeo1) as HG1. pose proof (appr_geo G WF ev s1 ls ch HGeo1 v x w o _ Hin Ha1) as AG.
  destruct x as [u|].
  - destruct (nbr_bound G WF _ _ _ _ Hin) as [_ Hu]. specialize (Hu u eq_refl). destruct AG as (Ht & Hs & Hs1 & Hs2).
    unfold neighbor_interaction. destruct (arr (nd s1) v) as [Rv|] eqn:Av, (arr (nd s1) u) as [Ru|] eqn:Au.
    + rewrite Hn. cbn [safe fst snd]. split; [assumption|]. split; [assumption|]. split; [assumption|]. cbn [hit_ok].
      pose proof (g_top _ _ _ _ _ _ _ HG1 v Rv Hv Av) as Tv. pose proof (g_top _ _ _ _ _ _ _ HG1 u Ru Hu Au) as Tu.
      destruct (top_spec G ev s1 ls ch HGeo1 v _ Hv Tv) as (_ & _ & _ & _ & _ & V1 & V2).
      destruct (top_spec G ev s1 ls ch HGeo1 u _ Hu Tu) as (_ & _ & _ & _ & _ & U1 & U2).
      exists (root ch Rv), (root ch Ru). repeat split; auto.
      * congruence.
      * refine (touch_tight G WF ev _ _ ls _ ch HG1 v u w o Hin _ _ _ _ _ Tv Tu); [|congruence|congruence].
        destruct Hs as [[_ Hs]|(N1 & N2 & Hs)]; [lia|]. destruct (grow_even G WF ev s1 ls ch HGeo1 v u w o Hin N1 N2) as [z Hz].
        rewrite Hz in Hs. rewrite Z.mul_comm, Z.div_mul in Hs by lia. lia.
      * rewrite (nsl_top_slope G ev s1 ls ch HGeo1 v _ Hv Tv), (nsl_top_slope G ev s1 ls ch HGeo1 u _ Hu Tu) in Hs.
        rewrite (nsl_top_slope G ev s1 ls ch HGeo1 v _ Hv Tv) in Hs1. rewrite (nsl_top_slope G ev s1 ls ch HGeo1 u _ Hu Tu) in Hs2.
        pose proof (nsl_range G ev s1 ls ch HGeo1 v Hv) as R1. pose proof (nsl_range G ev s1 ls ch HGeo1 u Hu) as R2.
        rewrite (nsl_top_slope G ev s1 ls ch HGeo1 v _ Hv Tv) in R1. rewrite (nsl_top_slope G ev s1 ls ch HGeo1 u _ Hu Tu) in R2. lia.
    + pose proof (g_top _ _ _ _ _ _ _ HG1 v Rv Hv Av) as Tv. rewrite Tv. cbn [deref bindO].
      destruct (lr_emp G ev s1 ls ch HGeo1 u Hu Au) as (_ & N0 & _ & R0).
      eapply safe_bind.
      * apply (region_arriving_spec ev s1 ls ch fuel HGeo1 HQ1 _ u v k w o Hn Au Tv); lia.
      * intros s' (S1 & S2 & S3). cbn [safe fst snd]. split; [eapply still_trans; eauto|]. repeat (split; [assumption|]). exact I.
    + pose proof (g_top _ _ _ _ _ _ _ HG1 u Ru Hu Au) as Tu. rewrite Tu. cbn [deref bindO].
      destruct (lr_emp G ev s1 ls ch HGeo1 v Hv Av) as (_ & N0 & _ & R0).
      assert (Hin' := wf_sym G WF _ _ _ _ Hin). unfold index_of_neighbor.
      destruct (index_of_spec (nbrs G u) v 0) as (i & w' & o' & Ei & Hi).
      { apply (in_map (fun e => fst (fst e))) in Hin'. exact Hin'. }
      rewrite Ei. cbn [bindO]. assert (Hi2 := nth_error_In _ _ Hi). destruct (edge_unique _ _ _ _ _ _ Hin' Hi2) as [<- <-].
      eapply safe_bind.
      * apply (region_arriving_spec ev s1 ls ch fuel HGeo1 HQ1 _ v u i w o Hi Av Tu); lia.
      * intros s' (S1 & S2 & S3). cbn [safe fst snd]. split; [eapply still_trans; eauto|]. repeat (split; [assumption|]). exact I.
    + exfalso. destruct (lr_emp G ev s1 ls ch HGeo1 v Hv Av) as (_ & N0 & _). destruct (lr_emp G ev s1 ls ch HGeo1 u Hu Au) as (_ & N1 & _). lia.
  - destruct AG as [N1 Ht]. unfold hit_boundary. destruct (nbrs G v) as [|[[x' w'] o'] l] eqn:EN; [destruct Hin|].
    assert (E : (x', w', o') = (None, w, o)).
    { destruct Hin as [E|Hin']; [assumption|]. exfalso. eapply (wf_boundary_first G WF v _ l EN); eauto. }
    injection E as -> -> ->. cbn [bindO safe fst snd]. split; [assumption|]. split; [assumption|]. split; [assumption|]. cbn [hit_ok].
    destruct (top (nd s1) v) as [T|] eqn:ET; [|rewrite (nsl_none G s1 v Hv ET) in N1; lia].
    destruct (top_spec G ev s1 ls ch HGeo1 v T Hv ET) as (R & _ & _ & _ & _ & T1 & T2).
    exists T. split; [reflexivity|]. split; [assumption|]. split; [assumption|]. split; [rewrite <- (nsl_top_slope G ev s1 ls ch HGeo1 v T Hv ET); assumption|].
    refine (touch_tightB G WF ev _ _ ls _ ch HG1 v w o _ _ T ET); [rewrite EN; now left|lia].
Qed.
End Step.
