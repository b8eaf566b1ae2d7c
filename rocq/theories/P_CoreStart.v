(** Invariants of the decoder's core, part 20: placing the detection events, and the end of the main loop. *)
From Coq Require Import ZArith NArith List Bool Arith Lia Permutation Sorting.Sorted.
From Verif Require Import M_Base M_Varying M_Tracker M_Core S_Core S_Tree P_Sum P_Dual P_Up P_Tree P_Tree2 P_CoreGeo P_CoreSched P_CoreArea P_CoreRad P_CoreQueue P_CoreFlood P_CoreStep P_CoreRoles P_CoreShat P_CoreHit P_CoreSelf2 P_CoreEvent.
Import ListNotations.
Local Open Scope Z_scope.

(** Only [rar] differs, off the graph. *)
Lemma geo_rar : forall G ev n n' g ls y ch, wf_graph G -> geo G ev n g ls y ch ->
  arr n' = arr n -> top n' = top n -> wrp n' = wrp n -> src n' = src n -> crs n' = crs n ->
  (forall v, (v < length G)%nat -> rar n' v = rar n v) -> geo G ev n' g ls y ch.
Proof.
  intros G ev n n' g ls y ch WF H E1 E2 E3 E4 E5 E6.
  assert (EC : forall v, chn n' ch v = chn n ch v) by (intros v; unfold chn; now rewrite E1).
  assert (EY : forall v, Yv n' ch y v = Yv n ch y v) by (intros v; unfold Yv; now rewrite EC).
  assert (EP : forall R x, (forall v, x = Some v -> (v < length G)%nat) -> phi n' ch y R x = phi n ch y R x).
  { intros R [v|] Hx; [|reflexivity]. unfold phi. rewrite E1, EC, E6 by (now apply Hx). reflexivity. }
  assert (ER : forall v, (v < length G)%nat -> rho n' ch y v = rho n ch y v).
  { intros v Hv. unfold rho. rewrite ?E1, ?EY, ?(E6 v Hv), ?EC. reflexivity. }
  assert (ET : forall k R Q e, tightx G ev n ch y k R Q e -> tightx G ev n' ch y k R Q e).
  { intros k R Q e (a & b & P1 & P2 & P3 & P4 & P5 & P6 & P7). exists a, b. rewrite !EC, !EY. auto 10. }
  destruct H. split; auto; rewrite ?E1, ?E2, ?E3, ?E4, ?E5; auto.
  - intros v R Hv Ha. rewrite ER by assumption. auto.
  - intros v Hv Ha. destruct (g_emp v Hv Ha) as (A1 & A2 & A3 & A4 & A5). rewrite E6 by assumption. auto 10.
  - intros s Hs. destruct (g_ev s Hs) as (A1 & R & A2 & A3 & A4 & A5 & A6). split; [assumption|]. exists R. rewrite E6 by assumption. auto 10.
  - intros v R Hv Ha. rewrite E6 by assumption. auto.
  - intros R HR. specialize (g_sort R HR). assert (B : forall v, In v (shl g R) -> (v < length G)%nat) by (intros v Hv; now apply (g_shl R v HR) in Hv).
    induction g_sort as [|a l Hs IH Hf]; constructor.
    + apply IH. intros v Hv. apply B. now right.
    + rewrite Forall_forall in *. intros b Hb. rewrite !E6 by (apply B; [now left]) || (apply B; now right). apply Hf; assumption.
  - intros v R Hv Ha. destruct (g_walk v R Hv Ha) as (s & S1 & S2 & S3 & S4). exists s. rewrite EC, EY, ER by assumption. auto.
  - intros u x w o Hin. rewrite (zsum_ext _ _ (fun R => Z.abs (phi n ch y R (Some u) - phi n ch y R x))); [eauto|]. intros R _.
    destruct (nbr_bound G WF _ _ _ _ Hin) as [Hu Hx]. rewrite !EP; auto. intros z Ez. injection Ez as <-. assumption.
  - intros R HR. specialize (g_evodd R HR). erewrite filter_ext; [exact g_evodd|]. intros s. cbv beta. now rewrite EC.
  - intros s s' R H1 H2 H3 H4. rewrite !EY. rewrite EC in H3, H4. eauto.
Qed.

Section Start.
Variable G : graph.
Context {NI : ints} {WNI : wfine NI G}.
Hypothesis WF : wf_graph G.

Definition umn (n : nodesM) : nodesM := mkN (arr n) (top n) (wrp n) (src n) (crs n) (fun _ => 0).
Definition ch1 (R : nat) : list nat := [R].

(** Events [ev] have been placed; the nodes [K] are marked. *)
Record start (ev : list nat) (K : nat -> bool) (ls al : list nat) (s : state) : Prop := {
  st_now : now (sc s) = 0;
  st_ra : arena_ok (ra s) ls;
  st_ta : arena_ok (ta s) al;
  st_geo : geo G ev (umn (nd s)) (rg s) ls (rval (rg s) 0) ch1;
  st_rad : forall R, In R ls -> rad (rg s) R = 1 /\ bpar (rg s) R = None;
  st_sch : sched G ls nobody nobody s;
  st_tr : forall x, In x al -> inn (tr s) x = None /\ par (tr s) x = None /\ kid (tr s) x = [] /\ vis (tr s) x = false /\
     exists o, out (tr s) x = Some o /\ In o ls /\ alt (ma s) o = Some x;
  st_reg : forall R, In R ls -> exists x, In x al /\ out (tr s) x = Some R;
  st_arr : forall v, (v < length G)%nat -> arr (nd s) v <> None -> In v ev;
  st_mark : forall v, (v < length G)%nat -> rar (nd s) v = if K v then 1 else 0 }.

Lemma start_slo : forall ev K ls al s, start ev K ls al s -> slo ev (nd s) (rg s) ls ch1 0.
Proof.
  intros ev K ls al s H. destruct H. split.
  - intros R HR. destruct (st_rad0 R HR) as [-> _]. apply one_ok.
  - intros R HR Hb. destruct (st_rad0 R HR) as [_ E]. contradiction.
  - intros v R Hv Ha _. unfold Yv, chn. rewrite Ha. unfold ch1. cbn [zsum fold_right map].
    destruct (g_ev _ _ _ _ _ _ _ st_geo0 v Hv) as (Hl & _). assert (HR : In R ls) by (apply (g_arr _ _ _ _ _ _ _ st_geo0 v R Hl Ha)).
    unfold rval. destruct (st_rad0 R HR) as [-> _]. exists 0. reflexivity.
Qed.
Lemma start_Geo : forall ev K ls al s, start ev K ls al s -> (forall v, (v < length G)%nat -> K v = false) -> Geo G ev s ls ch1.
Proof.
  intros ev K ls al s H HK. split; rewrite (st_now _ _ _ _ _ H); [|eapply start_slo; eassumption].
  eapply geo_rar; [exact WF|apply (st_geo _ _ _ _ _ H)| | | | | |]; try reflexivity. intros v Hv. rewrite (st_mark _ _ _ _ _ H v Hv), HK by assumption. reflexivity.
Qed.
Lemma start_Inv : forall ev K ls al s, start ev K ls al s -> (forall v, (v < length G)%nat -> K v = false) -> Inv G ev s.
Proof.
  intros ev K ls al s H HK. pose proof (start_Geo _ _ _ _ _ H HK) as HGeo. destruct H. exists ls, ch1, al, (fun x => [x]). split; [assumption|]. split; [assumption|]. split; [assumption|].
  split; auto.
  - split.
    + intros b Hb. destruct (st_tr0 b Hb) as (_ & -> & _). split; [reflexivity|discriminate].
    + intros b q Hb Hq. destruct (st_tr0 b Hb) as (_ & E & _). congruence.
    + intros b Hb _. apply (st_tr0 b Hb).
    + intros b Hb. destruct (st_tr0 b Hb) as (_ & _ & _ & _ & o & Ho & _). now exists o.
    + intros a b e Ha Hin. destruct (st_tr0 a Ha) as (_ & _ & E & _). rewrite E in Hin. destruct Hin.
    + intros a Ha. destruct (st_tr0 a Ha) as (_ & _ & -> & _). constructor.
    + intros b b' i Hb _ Hi. destruct (st_tr0 b Hb) as (E & _). congruence.
  - intros x Hx _. apply (st_tr0 x Hx).
  - intros x i Hx Hi. destruct (st_tr0 x Hx) as (E & _). congruence.
  - intros x o Hx Ho. destruct (st_tr0 x Hx) as (_ & _ & _ & _ & o' & Ho' & L & A). assert (o' = o) by congruence. subst o'.
    destruct (st_rad0 o L) as [E1 E2]. unfold sof. rewrite E1. destruct one_ok as (_ & -> & _). repeat split; auto. lia.
  - intros R HR Hb. destruct (st_rad0 R HR) as [_ E]. contradiction.
Qed.

Lemma create_spec : forall ev K ls al s v, start ev K ls al s -> (v < length G)%nat -> ~ In v ev -> K v = false ->
  exists ls' al', start (v :: ev) K ls' al' (create_detection_event G NI s v).
Proof.
  intros ev K ls al s v H Hv Hvev HK. unfold create_detection_event, new_region, new_tree_node.
  destruct (alloc (ra s)) as [r ra'] eqn:ER. cbn [ta]. destruct (alloc (ta s)) as [a ta'] eqn:EA.
  pose proof (start_slo _ _ _ _ _ H) as SL. destruct H.
  destruct (arena_alloc _ _ _ _ st_ra0 ER) as [AR Hr]. destruct (arena_alloc _ _ _ _ st_ta0 EA) as [AA Ha]. exists (r :: ls), (a :: al).
  assert (Av : arr (nd s) v = None) by (destruct (arr (nd s) v) eqn:E; [exfalso; apply Hvev, st_arr0; [assumption|congruence]|reflexivity]).
  unfold region_created. set (s2 := set_rg _ _).
  assert (RD : forall R, In R ls -> rad (rg s2) R = 1).
  { intros R HR. cbn [s2 rg set_rg set_nd rad set_shl]. rewrite upd_other by (intros ->; contradiction). apply (st_rad0 R HR). }
  assert (RDr : rad (rg s2) r = 1) by (cbn [s2 rg set_rg set_nd rad set_shl]; apply upd_same).
  assert (E0 : forall R, In R ls -> rval (rg s2) 0 R = rval (rg s) 0 R) by (intros R HR; unfold rval; rewrite RD by assumption; destruct (st_rad0 R HR) as [-> _]; reflexivity).
  assert (G2 : geo G (v :: ev) (umn (nd s2)) (rg s2) (r :: ls) (rval (rg s2) 0) ch1).
  { apply (geo_event G ev (umn (nd s)) (rg s) ls (rval (rg s2) 0) ch1 WF) with (r := r) (v := v); auto.
    - apply (geo_move _ _ _ _ _ (rval (rg s) 0)); auto.
      + intros R HR. unfold rval. rewrite RD by assumption. cbn. lia.
      + intros x R Hx E. cbn [umn rar]. unfold rval. rewrite RD by (apply (g_arr _ _ _ _ _ _ _ st_geo0 x R Hx E)). cbn. lia.
      + intros u x w o Hin. erewrite zsum_ext; [apply (g_dual _ _ _ _ _ _ _ st_geo0 u x w o Hin)|]. intros R HR. cbv beta. unfold phi. rewrite !E0 by assumption. reflexivity.
    - intros R HR. unfold rval. rewrite RD by assumption. reflexivity.
    - unfold rval. rewrite RDr. reflexivity.
    - intros x Hx. cbn [umn s2 nd set_rg set_nd arr top wrp src crs rar]. rewrite !upd_other by assumption. repeat split.
    - cbn [umn s2 nd set_rg set_nd arr top wrp src crs rar]. apply upd_same.
    - cbn [umn s2 nd set_rg set_nd arr top wrp src crs rar]. apply upd_same.
    - cbn [umn s2 nd set_rg set_nd arr top wrp src crs rar]. apply upd_same.
    - cbn [umn s2 nd set_rg set_nd arr top wrp src crs rar]. apply upd_same.
    - intros R HR. cbn [s2 rg set_rg set_nd bpar btop chl shl set_shl]. rewrite !upd_other by assumption. repeat split.
    - cbn [s2 rg set_rg set_nd bpar btop chl shl set_shl]. apply upd_same.
    - cbn [s2 rg set_rg set_nd bpar btop chl shl set_shl]. apply upd_same.
    - cbn [s2 rg set_rg set_nd bpar btop chl shl set_shl]. apply upd_same.
    - cbn [s2 rg set_rg set_nd bpar btop chl shl set_shl]. now rewrite !upd_same.
    - intros R. unfold ch1. destruct (Nat.eqb_spec R r); congruence. }
  set (s2u := set_nd s2 (umn (nd s2))).
  assert (G3 : Geo G (v :: ev) s2u (r :: ls) ch1).
  { split; [change (now (sc s2u)) with (now (sc s)); rewrite st_now0; exact G2|]. split.
    - intros R [<-|HR]; change (rg s2u) with (rg s2); [rewrite RDr|rewrite RD by assumption]; apply one_ok.
    - intros R [<-|HR] Hb; exfalso; apply Hb; cbn [s2u s2 rg set_rg set_nd bpar set_shl]; [apply upd_same|].
      rewrite upd_other by (intros ->; contradiction). apply (st_rad0 R HR).
    - intros x R Hx Ea _. change (now (sc s2u)) with (now (sc s)). rewrite st_now0. change (rg s2u) with (rg s2).
      assert (Hl : (x < length G)%nat) by (apply (g_ev _ _ _ _ _ _ _ G2 x Hx)). pose proof (g_arr _ _ _ _ _ _ _ G2 x R Hl Ea) as HR.
      unfold Yv, chn. rewrite Ea. unfold ch1. assert (E : rval (rg s2) 0 R = 0) by (unfold rval; destruct HR as [<-|HR]; [rewrite RDr|rewrite RD by assumption]; reflexivity).
      exists 0. change (zsum (rval (rg s2) 0) [R] + 0 = 2 * 0). cbn [zsum]. rewrite E. reflexivity. }
  assert (LR : forall x, (x < length G)%nat -> x <> v -> top (nd s2) x = top (nd s) x /\ local_radius s2 x = local_radius s x).
  { intros x Hx Hxv. assert (E1 : top (nd s2) x = top (nd s) x) by (cbn [s2 nd set_rg set_nd top]; now apply upd_other).
    assert (E2 : wrp (nd s2) x = wrp (nd s) x) by (cbn [s2 nd set_rg set_nd wrp]; now apply upd_other). split; [assumption|].
    unfold local_radius. rewrite E1, E2. destruct (top (nd s) x) as [T|] eqn:ET; [|reflexivity].
    assert (HT : In T ls).
    { destruct (arr (nd s) x) as [R|] eqn:Ea.
      - assert (HR : In R ls) by (apply (g_arr _ _ _ _ _ _ _ st_geo0 x R Hx Ea)). pose proof (g_top _ _ _ _ _ _ _ st_geo0 x R Hx Ea) as E. cbn [umn top] in E. rewrite ET in E. injection E as ->. exact HR.
      - destruct (g_emp _ _ _ _ _ _ _ st_geo0 x Hx Ea) as (E & _). cbn [umn top] in E. congruence. }
    rewrite RD by assumption. destruct (st_rad0 T HT) as [-> _]. reflexivity. }
  assert (Q2 : sched G (r :: ls) (one v) nobody s2).
  { assert (Sl : forall R, In R ls -> slp (rad (rg s) R) <> -1) by (intros R HR; destruct (st_rad0 R HR) as [-> _]; discriminate).
    pose proof st_sch0 as HQ. destruct HQ. split; change (sc s2) with (set_rtr (sc s) r tracker_clear); cbn [ntr rtr que now tick set_rtr]; auto.
    - intros R [<-|HR]; [rewrite upd_same; discriminate|]. rewrite upd_other by (intros ->; contradiction). auto.
    - intros R [<-|HR]; [rewrite upd_same; discriminate|]. rewrite upd_other by (intros ->; contradiction). auto.
    - intros t R Hi. destruct (Nat.eq_dec R r) as [->|Hne]; [now left|]. rewrite upd_other by assumption. intros Hd. right. eauto.
    - intros x Hx Hd Hdes. unfold nsl. destruct (LR x Hx Hd) as [_ ->]. apply q_nsh; auto.
    - intros R [<-|HR]; [rewrite upd_same; discriminate|]. rewrite upd_other by (intros ->; contradiction). intros Hd. exfalso. apply (Sl R HR). apply (q_des R HR Hd).
    - intros R [<-|HR] _ Hs; exfalso; [rewrite RDr in Hs|rewrite RD in Hs by assumption]; discriminate.
    - intros u x w o T Hin Hap Hu Hx. destruct (nbr_bound G WF _ _ _ _ Hin) as [Hlu Hlx]. rewrite (appr_ext s s2) in Hap.
      + destruct (q_cov u x w o T Hin Hap) as [W|W]; auto.
      + apply LR; assumption.
      + intros z ->. apply LR; auto. intros E. apply (Hx z eq_refl E). }
  assert (Tv : top (nd s2) v = Some r) by (cbn [s2 nd set_rg set_nd top]; apply upd_same).
  assert (Nv : nsl s2 v <> -1).
  { change (nsl s2u v <> -1). rewrite (nsl_top_slope G (v :: ev) s2u (r :: ls) ch1 G3 v r Hv Tv). change (rg s2u) with (rg s2). rewrite RDr. discriminate. }
  pose proof (sched_reschedule G WF (r :: ls) _ nobody s2 v Q2 (Geo_lrok G (v :: ev) s2u (r :: ls) ch1 G3) (Geo_ontime G WF (v :: ev) s2u (r :: ls) ch1 G3) Hv Nv) as Q3.
  destruct (only_sc_reschedule G s2 v) as (q & Eq & _ & Nq & _). assert (Eq' : sc (reschedule G NI s2 v) = q) by now rewrite Eq.
  split.
  - rewrite Eq'. rewrite Nq. exact st_now0.
  - rewrite Eq. exact AR.
  - rewrite Eq. exact AA.
  - rewrite Eq. exact G2.
  - rewrite Eq. intros R [<-|HR]; cbn [rg set_sc].
    + split; [assumption|]. cbn [s2 rg set_rg set_nd bpar set_shl]. apply upd_same.
    + split; [now apply RD|]. cbn [s2 rg set_rg set_nd bpar set_shl]. rewrite upd_other by (intros ->; contradiction). apply (st_rad0 R HR).
  - eapply sched_D; [exact Q3| | |exact WF]; [|auto]. intros x _ [X1 X2]. exact (X2 X1).
  - rewrite Eq. intros x Hx. cbn [tr ma set_sc s2 set_rg set_nd inn out par kid vis alt set_alt].
    destruct Hx as [<-|Hx].
    + rewrite !upd_same. repeat split. exists r. rewrite upd_same. repeat split. now left.
    + assert (x <> a) by (intros ->; contradiction). rewrite !upd_other by assumption. destruct (st_tr0 x Hx) as (A1 & A2 & A3 & A4 & o & A5 & A6 & A7).
      repeat split; auto. exists o. assert (o <> r) by (intros ->; contradiction). rewrite !upd_other by assumption. repeat split; auto. now right.
  - rewrite Eq. intros R HR. cbn [tr ma set_sc s2 set_rg set_nd out]. destruct HR as [<-|HR].
    + exists a. rewrite upd_same. split; [now left|reflexivity].
    + destruct (st_reg0 R HR) as (x & X1 & X2). exists x. assert (x <> a) by (intros ->; contradiction). rewrite upd_other by assumption. split; [now right|assumption].
  - rewrite Eq. intros x Hx. cbn [nd set_sc s2 set_rg set_nd arr]. unfold upd. destruct (Nat.eqb_spec x v) as [->|Hne]; [now left|]. intros E. right. auto.
  - rewrite Eq. intros x Hx. cbn [nd set_sc s2 set_rg set_nd rar]. unfold upd. destruct (Nat.eqb_spec x v) as [->|Hne]; [now rewrite HK|]. auto.
Qed.
End Start.
