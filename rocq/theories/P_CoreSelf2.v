(** Invariants of the decoder's core, part 16: the roles after a tree has hit itself. *)
From Coq Require Import ZArith NArith List Bool Arith Lia Permutation.
From Verif Require Import M_Base M_Varying M_Tracker M_Core S_Core S_Tree P_Sum P_Up P_Tree P_Tree2 P_Cycle P_CoreGeo P_CoreSched P_CoreArea P_CoreRad P_CoreQueue P_CoreFlood P_CoreStep P_CoreRoles P_CoreShat P_CoreHit P_CoreHit2 P_CoreWrap P_CoreTops P_CoreBlossom P_CoreSelf P_Ends P_CoreHalt P_CoreCount.
Import ListNotations.
Local Open Scope Z_scope.

(** The invariant of the main loop. *)
Definition Inv (G : graph) (ev : list nat) (s : state) : Prop :=
  exists ls ch al c, arena_ok (ra s) ls /\ Core G ev ls ch s al c.

Section Self.
Variable G : graph.
Hypothesis WF : wf_graph G.
Variables (ev : list nat) (ls : list nat) (ch : nat -> list nat).
Context {NI : ints} {FI : fine NI G ev}.

Section Lift.
Variables (s s' : state) (b : nat) (cycle : list (nat * cedge)) (ch' : nat -> list nat).
Hypothesis HGeo : Geo G ev s ls ch.
Hypothesis B : blossomed s s' ls b cycle ch ch'.

Lemma bl_tightx : forall k R Q e, tightx G ev (nd s) ch (rval (rg s) (now (sc s))) k R Q e -> tightx G ev (nd s) ch (rval (rg s') (now (sc s'))) k R Q e.
Proof.
  intros k R Q e (z & z' & E1 & E2 & H1 & H2 & H3 & H4 & Hw). exists z, z'. pose proof (proj1 HGeo) as HG. pose proof (g_up _ _ _ _ _ _ _ HG) as U.
  assert (YY : forall v, In v ev -> Yv (nd s) ch (rval (rg s') (now (sc s'))) v = Yv (nd s) ch (rval (rg s) (now (sc s))) v).
  { intros v Hv. unfold Yv, chn. destruct (arr (nd s) v) as [R'|] eqn:ER; [|reflexivity]. pose proof (g_arr _ _ _ _ _ _ _ HG v R' (ev_lt G _ _ _ _ _ _ HG v Hv) ER) as HR'.
    apply zsum_ext. intros R0 H0. apply (bl_val _ _ _ _ _ _ _ B). eapply (up_all_L _ _ ch U R'); eauto. }
  rewrite !YY by assumption. auto 10.
Qed.
Lemma bl_tgt : forall R Q e, R <> b -> Q <> b -> tgt G ev s ch R Q e -> tgt G ev s' ch' R Q e.
Proof.
  intros R Q e NR NQ Ht. pose proof (proj1 HGeo) as HG. apply (wr_tightx G ev b _ ls _ _ _ _ ch ch' _ (bl_wrap _ _ _ _ _ _ _ B) (g_arr _ _ _ _ _ _ _ HG) (ev_lt G _ _ _ _ _ _ HG)); auto.
  now apply bl_tightx.
Qed.
Lemma bl_tgt_b : forall R Q e, R <> b -> In Q (map fst cycle) -> tgt G ev s ch R Q e -> tgt G ev s' ch' R b e.
Proof.
  intros R Q e NR NQ Ht. pose proof (proj1 HGeo) as HG.
  eapply (wr_tight_b G ev b _ ls _ _ _ _ ch ch' _ (bl_wrap _ _ _ _ _ _ _ B) (g_up _ _ _ _ _ _ _ HG) (g_arr _ _ _ _ _ _ _ HG) (ev_lt G _ _ _ _ _ _ HG)); eauto.
  now apply bl_tightx.
Qed.
Lemma bl_tbt : forall R e, R <> b -> tbt G ev s ch R e -> tbt G ev s' ch' R e.
Proof.
  intros R e NR (z & E1 & E2 & H1 & H3 & Hw). pose proof (proj1 HGeo) as HG. pose proof (g_up _ _ _ _ _ _ _ HG) as U.
  apply (wr_tightB G ev b _ ls _ _ _ _ ch ch' _ (bl_wrap _ _ _ _ _ _ _ B) (g_arr _ _ _ _ _ _ _ HG) (ev_lt G _ _ _ _ _ _ HG)); auto. exists z. repeat split; auto.
  assert (YY : Yv (nd s) ch (rval (rg s') (now (sc s'))) z = Yv (nd s) ch (rval (rg s) (now (sc s))) z).
  { unfold Yv, chn. destruct (arr (nd s) z) as [R'|] eqn:ER; [|reflexivity]. pose proof (g_arr _ _ _ _ _ _ _ HG z R' (ev_lt G _ _ _ _ _ _ HG z H1) ER) as HR'.
    apply zsum_ext. intros R0 H0. apply (bl_val _ _ _ _ _ _ _ B). eapply (up_all_L _ _ ch U R'); eauto. }
  rewrite YY. exact Hw.
Qed.
End Lift.

Lemma perm_nf : forall al pl : list nat, NoDup al -> NoDup pl -> (forall q, In q pl -> In q al) -> Permutation al (nf pl al ++ pl).
Proof.
  intros al pl N1 N2 Hi. apply NoDup_Permutation; [assumption| |].
  - apply NoDup_join; [now apply NoDup_filter|assumption|]. intros z Hz Hz'. apply nf_In in Hz as [_ Hz]. contradiction.
  - intros z. rewrite in_app_iff, nf_In. destruct (in_dec Nat.eq_dec z pl); split; intros; auto; tauto.
Qed.

Lemma tree_hits_self_spec : forall s al c (M X : nat -> Prop) r1 r2 e a1 a2 x la lb, Geo G ev s ls ch -> sched G ls nobody X s -> arena_ok (ra s) ls -> Roles G ev s ls ch al c M nobody ->
  In r1 ls -> In r2 ls -> bpar (rg s) r1 = None -> bpar (rg s) r2 = None -> r1 <> r2 -> sof s r1 = 1 -> sof s r2 = 1 ->
  alt (ma s) r1 = Some a1 -> alt (ma s) r2 = Some a2 -> tgt G ev s ch r1 r2 e ->
  lca (fun y => In y al) c a1 a2 x la lb -> (forall y, In y al -> M y -> In y la \/ In y lb) ->
  (forall i, X i -> exists y, (In y la \/ In y lb) /\ inn (tr s) y = Some i) ->
  ends (fun fuel => tree_hits_self G fuel NI s r1 r2 e x) (fun s' => now (sc s') = now (sc s) /\ prog ev s s' /\ Inv G ev s').
Proof.
  intros s al c M X r1 r2 e a1 a2 x la lb HGeo HQ AO H HR1 HR2 Hb1 Hb2 Hne Hs1 Hs2 Ea1 Ea2 Ht (Hx & C1 & C2 & Dj) HM HX. unfold tree_hits_self.
  rewrite Ea1, Ea2. cbn [deref bindO].
  destruct (growing_outer _ _ _ _ _ _ _ _ _ _ _ _ H r1 HR1 Hb1 Hs1 (fun x => x)) as (y1 & Ha1 & Ho1 & Ex1). assert (y1 = a1) by congruence. subst y1.
  destruct (growing_outer _ _ _ _ _ _ _ _ _ _ _ _ H r2 HR2 Hb2 Hs2 (fun x => x)) as (y2 & Ha2 & Ho2 & Ex2). assert (y2 = a2) by congruence. subst y2. clear Ex1 Ex2.
  pose proof (b_str _ _ _ _ _ _ _ _ _ _ _ _ H) as ST. cbv beta in ST. pose proof (ts_up _ _ _ _ ST) as U. set (T := tr s) in *.
  pose proof (upath_of _ _ c la a1 x U Ha1 Hx C1) as UP1. pose proof (upath_of _ _ c lb a2 x U Ha2 Hx C2) as UP2.
  assert (N1 : NoDup (la ++ c x)) by (rewrite <- C1; apply (up_NoDup _ _ c U a1 Ha1)). assert (N2 : NoDup (lb ++ c x)) by (rewrite <- C2; apply (up_NoDup _ _ c U a2 Ha2)).
  assert (App : forall (l m : list nat), NoDup (l ++ m) -> NoDup l /\ forall z, In z l -> ~ In z m).
  { clear. induction l as [|a l IH]; intros m N; [split; [constructor|intros z []]|]. cbn in N. inversion N; subst. destruct (IH m H2) as [I1 I2]. split.
    - constructor; auto. intros Hi. apply H1. apply in_or_app. now left.
    - intros z [->|Hz]; auto. intros Hi. apply H1. apply in_or_app. now right. }
  destruct (App _ _ N1) as [Na Da]. destruct (App _ _ N2) as [Nb Db]. set (pl := la ++ lb).
  assert (Pl : forall q, In q pl -> In q al /\ ~ In q (c x) /\ (In q (c a1) \/ In q (c a2))).
  { intros q Hq. apply in_app_or in Hq as [Hq|Hq].
    - assert (Hc : In q (c a1)) by (rewrite C1; apply in_or_app; now left). split; [exact (up_all_L _ _ c U a1 Ha1 q Hc)|]. auto.
    - assert (Hc : In q (c a2)) by (rewrite C2; apply in_or_app; now left). split; [exact (up_all_L _ _ c U a2 Ha2 q Hc)|]. auto. }
  assert (Nx : ~ In x pl) by (intros Hi; destruct (Pl x Hi) as (_ & Hi' & _); apply Hi'; apply (up_self _ _ c U x Hx)).
  assert (Npl : NoDup pl) by (apply NoDup_join; auto; intros z Hz Hz'; exact (Dj z Hz Hz')).
  assert (Xc1 : In x (c a1)) by (rewrite C1; apply in_or_app; right; apply (up_self _ _ c U x Hx)).
  assert (Xc2 : In x (c a2)) by (rewrite C2; apply in_or_app; right; apply (up_self _ _ c U x Hx)).
  assert (Nonroot : forall q, In q pl -> exists q', par T q = Some q').
  { intros q Hq. destruct (Pl q Hq) as (Q1 & Q2 & Q3). destruct (par T q) as [q'|] eqn:E; [eauto|]. exfalso. apply Q2.
    assert (Er : q = root c x). { destruct Q3 as [Q3|Q3]; [rewrite (root_up _ _ c U a1 x Ha1 Xc1); apply (up_root_only _ _ c U a1)|rewrite (root_up _ _ c U a2 x Ha2 Xc2); apply (up_root_only _ _ c U a2)]; assumption. }
    rewrite Er. apply (root_spec _ _ c U x Hx). }
  assert (Fld : forall q, In q pl -> exists i o, inn T q = Some i /\ out T q = Some o).
  { intros q Hq. destruct (Nonroot q Hq) as [q' E]. destruct (ts_par _ _ _ _ ST q q') as (_ & i & o & _ & I1 & I2 & _); [apply Pl; assumption|assumption|]. eauto. }
  assert (Out : forall y o, In y al -> out T y = Some o -> In o ls /\ bpar (rg s) o = None /\ sof s o = 1 /\ alt (ma s) o = Some y).
  { intros y o Hy Ey. destruct (b_out _ _ _ _ _ _ _ _ _ _ _ _ H y o Hy Ey) as (O1 & O2 & O3 & _ & O5). split; [assumption|]. split; [assumption|]. split; [|assumption]. apply O3. intros []. }
  assert (Inn : forall y i, In y al -> inn T y = Some i -> In i ls /\ bpar (rg s) i = None /\ sof s i = -1 /\ (~ M y -> alt (ma s) i = Some y)).
  { intros y i Hy Ey. exact (b_inn _ _ _ _ _ _ _ _ _ _ _ _ H y i Hy Ey). }
  assert (Hin_a : forall q, In q la -> In q pl) by (intros; apply in_or_app; auto). assert (Hin_b : forall q, In q lb -> In q pl) by (intros; apply in_or_app; auto).
  destruct (ts_out _ _ _ _ ST x Hx) as [ox Hox].
  (* the two prunings *)
  eapply ends_bind; [apply (prune_ends la s a1 x true [] [] UP1 Na)|].
  { intros Hi. auto. }
  { intros q Hq. destruct (Fld q (Hin_a q Hq)) as (i & o & I1 & I2). split; [now exists i|]. split; [now exists o|]. intros q' E. apply (ts_out _ _ _ _ ST). exact (proj2 (U q (proj1 (Pl q (Hin_a q Hq)))) q' E). }
  intros (s1 & orph1 & path1) (PR1 & O1 & P1). cbn [fst snd] in PR1, O1, P1. cbn [app] in O1, P1.
  eapply ends_bind; [apply (prune_ends lb s1 a2 x false [] [])|].
  { rewrite (pr_par _ _ _ _ PR1). exact UP2. } { exact Nb. } { intros Hi. auto. }
  { rewrite (pr_inn _ _ _ _ PR1), (pr_out _ _ _ _ PR1), (pr_par _ _ _ _ PR1).
    intros q Hq. destruct (Fld q (Hin_b q Hq)) as (i & o & I1 & I2). split; [now exists i|]. split; [now exists o|]. intros q' E. apply (ts_out _ _ _ _ ST). exact (proj2 (U q (proj1 (Pl q (Hin_b q Hq)))) q' E). }
  intros (s2 & orph2 & path2) (PR2 & O2 & P2). cbn [fst snd] in PR2, O2, P2. cbn [app] in O2, P2.
  assert (Kab : forall q, In q lb -> kid (tr s1) q = kid T q).
  { intros q Hq. rewrite (pr_kid _ _ _ _ PR1 q) by (intros Hi; exact (Dj q Hi Hq)). destruct (Nat.eqb_spec q x) as [->|]; [exfalso; auto|reflexivity]. }
  assert (O2' : orph2 = orphs (kid T) None lb) by (rewrite O2; now apply orphs_ext). clear O2.
  assert (P2' : path2 = flat_map (pseg T false) lb).
  { rewrite P2. apply flat_map_ext. intros q. unfold pseg. rewrite (pr_out _ _ _ _ PR1), (pr_inn _ _ _ _ PR1), (pr_i2o _ _ _ _ PR1), (pr_ped _ _ _ _ PR1). reflexivity. }
  clear P2. rewrite (pr_out _ _ _ _ PR2), (pr_out _ _ _ _ PR1). change (out (tr s) x) with (out T x). rewrite Hox. cbn [deref bindO]. set (s3 := set_ma s2 _). set (cycle := path2 ++ rev path1 ++ [(r1, e)]).
  assert (E3 : nd s3 = nd s /\ rg s3 = rg s /\ sc s3 = sc s /\ ra s3 = ra s).
  { unfold s3. cbn [nd rg sc ra set_ma]. rewrite (pr_nd _ _ _ _ PR2), (pr_rg _ _ _ _ PR2), (pr_sc _ _ _ _ PR2), (pr_ra _ _ _ _ PR2). rewrite (pr_nd _ _ _ _ PR1), (pr_rg _ _ _ _ PR1), (pr_sc _ _ _ _ PR1), (pr_ra _ _ _ _ PR1). auto. }
  destruct E3 as (E3n & E3g & E3s & E3r).
  assert (Cm : calm s s3) by (split; rewrite ?E3n, ?E3g, ?E3s, ?E3r; reflexivity).
  assert (G3 : Geo G ev s3 ls ch) by (unfold Geo; rewrite E3n, E3g, E3s; exact HGeo).
  assert (Q3 : sched G ls nobody X s3) by (eapply sched_only; [| | |exact HQ]; assumption).
  (* the cycle *)
  assert (Tsym : forall R Q e0, tgt G ev s ch R Q e0 -> tgt G ev s ch Q R (rev_e e0)) by (intros; now apply (tightx_rev G _ _ _ _ _ _ _ _ WF)).
  destruct (path_fwd _ T c _ ST Tsym lb a2 x Ha2 UP2) as [L2 L2h]. destruct (path_back _ T c _ ST Tsym la a1 x Ha1 UP1) as [L1 L1h].
  assert (Eo1 : get (out T a1) = r1) by (rewrite Ho1; reflexivity). assert (Eo2 : get (out T a2) = r2) by (rewrite Ho2; reflexivity).
  rewrite Eo1 in L1, L1h. rewrite Eo2 in L2h.
  assert (Lk : linked (tgt G ev s ch) cycle (headr cycle 0%nat)).
  { unfold cycle. rewrite P2', P1. change (tr s) with T. rewrite !headr_app. cbn [headr]. rewrite L1h, L2h, !linked_app, headr_app. cbn [headr linked]. rewrite L1h. auto. }
  assert (Perm : Permutation (map fst cycle) (flat_map (pairf T) (lb ++ la) ++ [get (out T x)])).
  { unfold cycle. rewrite P2', P1. change (tr s) with T. rewrite !map_app, regs_fwd, map_rev. cbn [map fst]. rewrite flat_map_app, <- app_assoc. apply Permutation_app_head.
    rewrite <- Eo1. etransitivity; [|apply (regs_back T la a1 x UP1)]. apply Permutation_app_tail. apply Permutation_sym, Permutation_rev. }
  assert (CY : forall q, In q (map fst cycle) <-> (exists y, In y pl /\ inn T y = Some q) \/ (exists y, (y = x \/ In y pl) /\ out T y = Some q)).
  { intros q. assert (Eq : In q (map fst cycle) <-> In q (flat_map (pairf T) (lb ++ la) ++ [get (out T x)])) by (split; apply Permutation_in; auto using Permutation_sym).
    rewrite Eq, in_app_iff, in_flat_map. split.
    - intros [(y & Hy & Hp)|[<-|[]]].
      + assert (Hy' : In y pl) by (apply in_app_or in Hy as [Hy|Hy]; auto). destruct (Fld y Hy') as (i & o & I1 & I2). unfold pairf in Hp. rewrite I1, I2 in Hp. destruct Hp as [<-|[<-|[]]]; [right|left]; exists y; auto.
      + right. exists x. rewrite Hox. auto.
    - assert (Sw : forall y, In y pl -> In y (lb ++ la)) by (intros y Hy; apply in_app_or in Hy as [Hy|Hy]; apply in_or_app; auto).
      intros [(y & Hy & Ey)|(y & [->|Hy] & Ey)].
      + left. exists y. split; [auto|]. unfold pairf. rewrite Ey. right. now left.
      + right. rewrite Ey. now left.
      + left. exists y. split; [auto|]. unfold pairf. rewrite Ey. now left. }
  assert (Cls : forall q, In q (map fst cycle) -> In q ls /\ bpar (rg s) q = None /\ sof s q <> 0).
  { intros q Hq. apply CY in Hq as [(y & Hy & Ey)|(y & Hy & Ey)].
    - destruct (Inn y q (proj1 (Pl y Hy)) Ey) as (I1 & I2 & I3 & _). repeat split; auto. lia.
    - assert (Ay : In y al) by (destruct Hy as [->|Hy]; [assumption|apply Pl; assumption]). destruct (Out y q Ay Ey) as (I1 & I2 & I3 & _). repeat split; auto. lia. }
  assert (Nc : NoDup (map fst cycle)).
  { eapply Permutation_NoDup; [apply Permutation_sym; exact Perm|].
    assert (Fl : forall y, In y (lb ++ la) -> In y pl) by (intros y Hy; apply in_app_or in Hy as [Hy|Hy]; auto).
    assert (Oj : forall y y', In y al -> In y' al -> get (out T y) = get (out T y') -> y = y').
    { intros y y' Hy Hy' E. destruct (ts_out _ _ _ _ ST y Hy) as [o Eo]. destruct (ts_out _ _ _ _ ST y' Hy') as [o' Eo']. rewrite Eo, Eo' in E. cbn in E. subst o'.
      destruct (Out y o Hy Eo) as (_ & _ & _ & A1). destruct (Out y' o Hy' Eo') as (_ & _ & _ & A2). congruence. }
    assert (Oi : forall y y', In y al -> In y' pl -> get (out T y) <> get (inn T y')).
    { intros y y' Hy Hy' E. destruct (ts_out _ _ _ _ ST y Hy) as [o Eo]. destruct (Fld y' Hy') as (i & _ & Ei & _). rewrite Eo, Ei in E. cbn in E. subst i.
      destruct (Out y o Hy Eo) as (_ & _ & A1 & _). destruct (Inn y' o (proj1 (Pl y' Hy')) Ei) as (_ & _ & A2 & _). lia. }
    apply NoDup_join; [|repeat constructor; intros []|].
    - apply NoDup_pairs.
      + apply NoDup_join; auto. intros z Hz Hz'. exact (Dj z Hz' Hz).
      + intros y y' Hy Hy'. apply Oj; apply Pl; auto.
      + intros y y' Hy Hy' E. destruct (Fld y (Fl y Hy)) as (i & _ & Ei & _). destruct (Fld y' (Fl y' Hy')) as (i' & _ & Ei' & _). rewrite Ei, Ei' in E. cbn in E. subst i'.
        apply (ts_inj _ _ _ _ ST y y' i); auto; apply Pl; auto.
      + intros y y' Hy Hy'. apply Oi; auto. apply Pl; auto.
    - intros z Hz [<-|[]]. apply in_flat_map in Hz as (y & Hy & [E|[E|[]]]).
      + apply Nx. rewrite <- (Oj y x (proj1 (Pl y (Fl y Hy))) Hx E). auto.
      + apply (Oi x y Hx (Fl y Hy)). auto. }
  assert (Od : Nat.odd (length cycle) = true).
  { rewrite <- (map_length fst cycle), (Permutation_length Perm), app_length. cbn [length]. assert (E : length (flat_map (pairf T) (lb ++ la)) = (2 * length (lb ++ la))%nat).
    { clear. induction (lb ++ la) as [|y l IH]; [reflexivity|]. cbn [flat_map pairf app length]. rewrite IH. lia. }
    rewrite E. rewrite Nat.add_1_r, Nat.odd_succ. apply Nat.even_spec. exists (length (lb ++ la)). reflexivity. }
  eapply ends_bind; [apply (create_blossom_spec G WF ev s3 ls ch X cycle G3 Q3)|].
  { rewrite E3r. exact AO. } { rewrite E3g. intros q Hq. destruct (Cls q Hq) as (A1 & A2 & _). auto. } { exact Nc. } { exact Od. }
  { intros i Hi. apply (calm_tgt G ev s s3 ch _ _ _ Cm). exact (linked_cycle _ cycle 0%nat Lk i Hi). }
  { intros q Hq. destruct (Cls q Hq) as (A1 & A2 & A3). apply (calm_par_ok ev s s3 ch q Cm). apply (par_moving G ev s ls ch HGeo q A1 A2 A3). }
  { rewrite E3n. intros q Hq. assert (L2' : (2 <= length cycle)%nat).
    { destruct lb as [|q2 lb']; [|unfold cycle; rewrite P2'; cbn [flat_map pseg app length]; rewrite ?app_length; cbn [length]; lia].
      destruct la as [|q1 la']; [|unfold cycle; rewrite P1; cbn [flat_map pseg app length]; rewrite ?app_length, ?rev_length; cbn [length]; rewrite ?app_length; cbn [length]; lia].
      exfalso. apply Hne. cbn in UP1, UP2. congruence. }
    destruct (cycle_next cycle q Nc L2' Hq) as (i & Hi & Ei & Ni). pose proof (linked_cycle _ cycle 0%nat Lk i Hi) as Hti. rewrite Ei in Hti.
    apply (tight_room G ev s ls ch HGeo _ _ q _ _ (fun E => Ni (eq_sym E)) (proj1 (proj2 (Cls q Hq)))) with (2 := Hti).
    apply Cls. unfold region_at. apply in_map, nth_In, Nat.mod_upper_bound. lia. }
  intros (b & s4) (ch' & BL & AO4 & G4 & Q4). set (s5 := set_tr s4 _). set (s6 := set_ma s5 _). apply ends_ok.
  set (ol := orph1 ++ orph2).
  assert (Ol : forall y e0, In (y, e0) ol <-> ~ In y pl /\ exists q, In q pl /\ In (y, e0) (kid T q)).
  { intros y e0. unfold ol. rewrite in_app_iff, O1, O2'. change (kid (tr s)) with (kid T). rewrite (orphs_path _ T c _ ST la a1 x Ha1 Hx C1 y e0), (orphs_path _ T c _ ST lb a2 x Ha2 Hx C2 y e0). split.
    - intros [(Ny & q & Hq & Hk)|(Ny & q & Hq & Hk)]; (split; [|exists q; auto]); intros Hi; apply in_app_or in Hi as [Hi|Hi]; try contradiction.
      + destruct (ts_kid _ _ _ _ ST q y e0 (proj1 (Pl q (Hin_a q Hq))) Hk) as (K1 & K2 & _).
        assert (Hqc : In q (c a2)). { apply (up_trans _ _ c U a2 y q Ha2); [rewrite C2; apply in_or_app; now left|]. rewrite (up_eq _ _ c U y K1). fold T. rewrite K2. right. apply (up_self _ _ c U q). apply Pl. auto. }
        rewrite C2 in Hqc. apply in_app_or in Hqc as [Hqc|Hqc]; [exact (Dj q Hq Hqc)|exact (Da q Hq Hqc)].
      + destruct (ts_kid _ _ _ _ ST q y e0 (proj1 (Pl q (Hin_b q Hq))) Hk) as (K1 & K2 & _).
        assert (Hqc : In q (c a1)). { apply (up_trans _ _ c U a1 y q Ha1); [rewrite C1; apply in_or_app; now left|]. rewrite (up_eq _ _ c U y K1). fold T. rewrite K2. right. apply (up_self _ _ c U q). apply Pl. auto. }
        rewrite C1 in Hqc. apply in_app_or in Hqc as [Hqc|Hqc]; [exact (Dj q Hqc Hq)|exact (Db q Hq Hqc)].
    - intros (Ny & q & Hq & Hk). apply in_app_or in Hq as [Hq|Hq]; [left|right]; (split; [intros Hi; apply Ny; auto|eauto]). }
  assert (Nol : NoDup (map fst ol)).
  { unfold ol. rewrite map_app, O1, O2'. apply NoDup_join.
    - apply (orphs_NoDup _ T c _ ST); auto. intros q Hq. apply Pl. auto.
    - apply (orphs_NoDup _ T c _ ST); auto. intros q Hq. apply Pl. auto.
    - intros z Hz Hz'. apply in_map_iff in Hz as ((z1 & e1) & Ez & Hz). apply in_map_iff in Hz' as ((z2 & e2) & Ez' & Hz'). cbn in Ez, Ez'. subst z1 z2.
      apply (orphs_path _ T c _ ST la a1 x Ha1 Hx C1) in Hz as (_ & q1 & Hq1 & K1). apply (orphs_path _ T c _ ST lb a2 x Ha2 Hx C2) in Hz' as (_ & q2 & Hq2 & K2).
      destruct (ts_kid _ _ _ _ ST q1 z e1 (proj1 (Pl q1 (Hin_a q1 Hq1))) K1) as (_ & A1 & _). destruct (ts_kid _ _ _ _ ST q2 z e2 (proj1 (Pl q2 (Hin_b q2 Hq2))) K2) as (_ & A2 & _).
      assert (q1 = q2) by congruence. subst q2. exact (Dj q1 Hq1 Hq2). }
  destruct (adopt_spec ol s6 x Nol) as (F0 & F1 & F2 & F3 & F4 & F5 & F6 & F7 & F8). set (s' := fold_left _ ol s6) in *.
  assert (Nb' : forall R, In R ls -> R <> b) by (intros R HR ->; exact (bl_fresh _ _ _ _ _ _ _ BL HR)).
  assert (T4 : tr s4 = tr s2) by (rewrite (bl_tr _ _ _ _ _ _ _ BL); reflexivity).
  assert (F1' : inn (tr s') = inn T) by (rewrite F1; unfold s6, s5; cbn [tr set_ma set_tr set_out inn]; rewrite T4, (pr_inn _ _ _ _ PR2), (pr_inn _ _ _ _ PR1); reflexivity).
  assert (F2' : forall y, out (tr s') y = if (y =? x)%nat then Some b else out T y) by (intros y; rewrite F2; unfold s6, s5; cbn [tr set_ma set_tr set_out out]; rewrite T4, (pr_out _ _ _ _ PR2), (pr_out _ _ _ _ PR1); reflexivity).
  assert (F3' : i2o (tr s') = i2o T) by (rewrite F3; unfold s6, s5; cbn [tr set_ma set_tr set_out i2o]; rewrite T4, (pr_i2o _ _ _ _ PR2), (pr_i2o _ _ _ _ PR1); reflexivity).
  assert (F4' : vis (tr s') = vis T) by (rewrite F4; unfold s6, s5; cbn [tr set_ma set_tr set_out vis]; rewrite T4, (pr_vis _ _ _ _ PR2), (pr_vis _ _ _ _ PR1); reflexivity).
  assert (F5' : forall y, par (tr s') y = if memb y (map fst ol) then Some x else par T y) by (intros y; rewrite F5; unfold s6, s5; cbn [tr set_ma set_tr set_out par]; rewrite T4, (pr_par _ _ _ _ PR2), (pr_par _ _ _ _ PR1); reflexivity).
  assert (F7' : forall y, ~ In y (map fst ol) -> ped (tr s') y = ped T y) by (intros y Hy; rewrite (F7 y Hy); unfold s6, s5; cbn [tr set_ma set_tr set_out ped]; rewrite T4, (pr_ped _ _ _ _ PR2), (pr_ped _ _ _ _ PR1); reflexivity).
  assert (K2 : forall y, ~ In y pl -> y <> x -> kid (tr s2) y = kid T y).
  { intros y Hy Hyx. rewrite (pr_kid _ _ _ _ PR2 y) by (intros Hi; apply Hy; auto). rewrite (proj2 (Nat.eqb_neq y x) Hyx). cbn [andb].
    rewrite (pr_kid _ _ _ _ PR1 y) by (intros Hi; apply Hy; auto). rewrite (proj2 (Nat.eqb_neq y x) Hyx). reflexivity. }
  assert (Last : forall l a y, In a al -> c a = l ++ c x -> In y l -> par T y = Some x -> y = last l 0%nat).
  { intros l a y Ha El Hy Ep. assert (Hyc : In y (c a)) by (rewrite El; apply in_or_app; now left). destruct (up_suffix _ _ c U a Ha y Hyc) as [m Em].
    rewrite (up_eq _ _ c U y (up_all_L _ _ c U a Ha y Hyc)) in Em. fold T in Em. rewrite Ep in Em. rewrite El in Em. change (y :: c x) with ([y] ++ c x) in Em. rewrite app_assoc in Em. apply app_inv_tail in Em. rewrite Em. symmetry. apply last_last. }
  assert (Er : forall l a (ks : list (nat * cedge)), In a al -> c a = l ++ c x -> NoDup (map fst ks) -> (forall y e0, In (y, e0) ks -> In (y, e0) (kid T x)) ->
     NoDup (map fst (if negb (length l =? 0)%nat then unstable_erase (last l 0%nat) ks else ks)) /\
     forall y e0, In (y, e0) (if negb (length l =? 0)%nat then unstable_erase (last l 0%nat) ks else ks) <-> In (y, e0) ks /\ ~ In y l).
  { intros l a ks Ha El Nk Sub. destruct l as [|z l]; cbn [length Nat.eqb negb]; [split; [assumption|intros; cbn; tauto]|]. split; [now apply unstable_erase_NoDup|].
    intros y e0. rewrite unstable_erase_In by assumption. cbn [fst]. split; intros [A1 A2]; (split; [assumption|]).
    - intros Hy. apply A2. apply (Last _ a y Ha El Hy). apply (ts_kid _ _ _ _ ST x y e0 Hx). auto.
    - intros ->. apply A2. assert (Hn : z :: l <> []) by discriminate. rewrite (app_removelast_last 0%nat Hn) at 2. apply in_or_app. right. now left. }
  assert (K2x : NoDup (map fst (kid (tr s2) x)) /\ forall y e0, In (y, e0) (kid (tr s2) x) <-> In (y, e0) (kid T x) /\ ~ In y pl).
  { rewrite (pr_kid _ _ _ _ PR2 x) by (intros Hi; apply Nx; auto). rewrite Nat.eqb_refl. cbn [andb].
    rewrite (pr_kid _ _ _ _ PR1 x) by (intros Hi; apply Nx; auto). rewrite Nat.eqb_refl. cbn [andb]. change (kid (tr s) x) with (kid T x).
    destruct (Er la a1 (kid T x) Ha1 C1 (ts_kidnd _ _ _ _ ST x Hx) (fun y e0 h => h)) as [A1 A2].
    destruct (Er lb a2 _ Ha2 C2 A1 (fun y e0 h => proj1 (proj1 (A2 y e0) h))) as [A3 A4]. split; [assumption|]. intros y e0. rewrite A4, A2. unfold pl. rewrite in_app_iff. tauto. }
  destruct K2x as [K2n K2x].
  assert (F8' : forall y, kid (tr s') y = if (y =? x)%nat then kid (tr s2) x ++ ol else kid (tr s2) y) by (intros y; rewrite F8; unfold s6, s5; cbn [tr set_ma set_tr set_out kid]; rewrite T4; reflexivity).
  clear F1 F2 F3 F4 F5 F7 F8.
  (* the state *)
  assert (S4 : nd s' = nd s4 /\ rg s' = rg s4 /\ sc s' = sc s4 /\ ra s' = ra s4 /\ ta s' = ta s4 /\ ma s' = set_alt (ma s4) b (Some x)) by (rewrite F0; repeat split).
  destruct S4 as (S4n & S4g & S4s & S4r & S4t & S4m).
  assert (Sn : now (sc s') = now (sc s)) by (rewrite S4s, (bl_now _ _ _ _ _ _ _ BL), E3s; reflexivity).
  assert (G' : Geo G ev s' (b :: ls) ch') by (unfold Geo; rewrite S4n, S4g, S4s; exact G4).
  assert (Q' : sched G (b :: ls) nobody nobody s').
  { eapply sched_only; [exact S4n|exact S4g|exact S4s|]. eapply sched_D; [exact Q4|auto| |exact WF]. intros r _ [Hx1 Hx2].
    apply Hx2. apply CY. left. destruct (HX r Hx1) as (y & Hy & Ey). exists y. split; [apply in_or_app; assumption|assumption]. }
  split; [exact Sn|].
  pose proof (bl_wrap _ _ _ _ _ _ _ BL) as W.
  assert (Tg : forall R Q e0, In R ls -> In Q ls -> tgt G ev s ch R Q e0 -> tgt G ev s' ch' R Q e0).
  { intros R Q e0 HR HQ0 Ht0. unfold tgt. rewrite S4n, S4g, S4s. apply (bl_tgt s3 s4 b cycle ch' G3 BL); auto. now apply (calm_tgt G ev s s3 ch _ _ _ Cm). }
  assert (Tgb : forall R Q e0, In R ls -> In Q (map fst cycle) -> tgt G ev s ch R Q e0 -> tgt G ev s' ch' R b e0).
  { intros R Q e0 HR HQ0 Ht0. unfold tgt. rewrite S4n, S4g, S4s. apply (bl_tgt_b s3 s4 b cycle ch' G3 BL R Q); auto. now apply (calm_tgt G ev s s3 ch _ _ _ Cm). }
  assert (Tb : forall R e0, In R ls -> tbt G ev s ch R e0 -> tbt G ev s' ch' R e0).
  { intros R e0 HR Ht0. unfold tbt. rewrite S4n, S4g, S4s. apply (bl_tbt s3 s4 b cycle ch' G3 BL); auto. now apply (calm_tbt G ev s s3 ch _ _ Cm). }
  assert (Bp : forall R, In R ls -> bpar (rg s') R = if memb R (map fst cycle) then Some b else bpar (rg s) R).
  { intros R HR. rewrite S4g, (w_bpar _ _ _ _ _ _ _ _ _ _ W R HR), E3g. reflexivity. }
  assert (Bpb : bpar (rg s') b = None) by (rewrite S4g; exact (w_bparb _ _ _ _ _ _ _ _ _ _ W)).
  assert (Sl : forall R, In R ls -> ~ In R (map fst cycle) -> sof s' R = sof s R).
  { intros R HR Hn. unfold sof. rewrite S4g. change (slp (rad (rg s4) R)) with (sof s4 R). rewrite (bl_sl _ _ _ _ _ _ _ BL R HR), (proj2 (memb_nIn _ _) Hn). unfold sof. now rewrite E3g. }
  assert (Slb : sof s' b = 1) by (unfold sof; rewrite S4g; exact (bl_slb _ _ _ _ _ _ _ BL)).
  assert (Ar' : arena_ok (ta s') (nf pl al)).
  { rewrite S4t, (bl_ta _ _ _ _ _ _ _ BL). unfold s3. cbn [ta set_ma]. rewrite (pr_ta _ _ _ _ PR2), (pr_ta _ _ _ _ PR1). unfold arena_ok. cbn [free next].
    pose proof (b_arena _ _ _ _ _ _ _ _ _ _ _ _ H) as Ar. unfold arena_ok in Ar. etransitivity; [|exact Ar]. rewrite app_assoc, app_assoc. apply Permutation_app_tail.
    etransitivity; [|apply Permutation_sym; apply (perm_nf al pl (arena_NoDup _ _ Ar) Npl (fun q Hq => proj1 (Pl q Hq)))].
    rewrite <- app_assoc. apply Permutation_app_head. unfold pl. rewrite <- rev_app_distr. apply Permutation_sym, Permutation_rev. }
  split.
  { right. split.
    - apply (nroots_incl s s' al (nf pl al) (b_arena _ _ _ _ _ _ _ _ _ _ _ _ H) Ar'). intros y Hy. rewrite F5'. destruct (memb y (map fst ol)); [discriminate|]. apply nf_In in Hy as [Hy _]. auto.
    - left. pose proof (g_evnd _ _ _ _ _ _ _ (proj1 HGeo)) as NDe.
      assert (WR := wr_root b (map fst cycle) ls _ _ _ _ ch ch' _ W).
      assert (Nsl : forall v R, In v ev -> arr (nd s) v = Some R -> In R ls -> nsl s' v = if memb (root ch R) (map fst cycle) then 1 else sof s (root ch R)).
      { intros v R Hv Ev HR. destruct (g_ev _ _ _ _ _ _ _ (proj1 HGeo) v Hv) as (Hl & _).
        assert (Ev' : arr (nd s') v = Some R) by (rewrite S4n, (w_arr _ _ _ _ _ _ _ _ _ _ W), E3n; exact Ev).
        rewrite (nsl_top_slope G ev s' (b :: ls) ch' G' v _ Hl (g_top _ _ _ _ _ _ _ (proj1 G') v R Hl Ev')). change (sof s' (root ch' R) = if memb (root ch R) (map fst cycle) then 1 else sof s (root ch R)).
        rewrite (WR R HR). destruct (memb (root ch R) (map fst cycle)) eqn:Em; [exact Slb|]. apply Sl; [|now apply memb_nIn].
        apply (root_spec _ _ ch (g_up _ _ _ _ _ _ _ (proj1 HGeo)) R HR). }
      apply nout_more; [assumption| |].
      + intros v Hv E1. destruct (nsl_event G ev s ls ch HGeo v Hv) as (R & Ev & HR & En). rewrite (Nsl v R Hv Ev HR). destruct (memb _ _); congruence.
      + assert (Ey : exists y, In y pl).
        { destruct la as [|z la']; [|exists z; now left]. destruct lb as [|z lb']; [|exists z; now left]. exfalso. cbn [app] in C1, C2.
          rewrite (up_eq _ _ c U a1 Ha1) in C1. rewrite (up_eq _ _ c U a2 Ha2) in C2. rewrite <- C2 in C1. injection C1 as C1 _. subst a2. congruence. }
        destruct Ey as (y & Hy). destruct (Fld y Hy) as (i & o & Ei & Eo). destruct (Inn y i (proj1 (Pl y Hy)) Ei) as (I1 & I2 & I3 & _).
        destruct (top_event G ev s ls ch HGeo i I1 I2) as (v & R & Hv & Ev & HR & Erq & En). exists v. split; [assumption|]. split; [lia|]. rewrite (Nsl v R Hv Ev HR), Erq.
        replace (memb i (map fst cycle)) with true; [reflexivity|]. symmetry. apply memb_In. apply CY. left. eauto. }
  assert (Al : forall R, In R ls -> alt (ma s') R = if (R =? ox)%nat then None else if uses T lb R then None else if uses T la R then None else alt (ma s) R).
  { intros R HR. rewrite S4m, (bl_ma _ _ _ _ _ _ _ BL). cbn [alt set_alt]. rewrite !upd_other by auto. unfold s3. cbn [ma set_ma set_alt alt]. unfold upd. destruct (R =? ox)%nat; [reflexivity|].
    rewrite (pr_alt _ _ _ _ PR2). assert (Eu : uses (tr s1) lb R = uses T lb R) by (unfold uses; rewrite (pr_inn _ _ _ _ PR1), (pr_out _ _ _ _ PR1); reflexivity).
    rewrite Eu, (pr_alt _ _ _ _ PR1). reflexivity. }
  assert (Us : forall l R, (forall q, In q l -> In q pl) -> uses T l R = true -> In R (map fst cycle)).
  { intros l R Hl Hu. apply existsb_exists in Hu as (y & Hy & Hu). apply CY. apply orb_true_iff in Hu as [Hu|Hu]; apply same_opt_spec in Hu; [left|right]; exists y; auto. }
  assert (Aln : forall R, In R ls -> ~ In R (map fst cycle) -> alt (ma s') R = alt (ma s) R).
  { intros R HR Hn. rewrite (Al R HR). destruct (Nat.eqb_spec R ox) as [->|]; [exfalso; apply Hn; apply CY; right; exists x; auto|].
    destruct (uses T lb R) eqn:E1; [exfalso; apply Hn; apply (Us lb); auto|]. destruct (uses T la R) eqn:E2; [exfalso; apply Hn; apply (Us la); auto|]. reflexivity. }
  assert (Alc : forall R, In R (map fst cycle) -> alt (ma s') R = None).
  { intros R HR. rewrite (Al R) by now apply Cls. destruct (Nat.eqb_spec R ox) as [->|Hno]; [reflexivity|].
    assert (Ex : exists y, In y pl /\ (inn T y = Some R \/ out T y = Some R)).
    { apply CY in HR as [(y & Hy & Ey)|(y & [->|Hy] & Ey)]; [eauto| |eauto]. congruence. }
    destruct Ex as (y & Hy & Ey). destruct (uses T lb R) eqn:E1; [reflexivity|]. destruct (uses T la R) eqn:E2; [reflexivity|]. exfalso.
    assert (Uy : forall l, In y l -> uses T l R = true).
    { intros l Hl. apply existsb_exists. exists y. split; [assumption|]. apply orb_true_iff. destruct Ey as [Ey|Ey]; [left|right]; apply same_opt_spec; assumption. }
    apply in_app_or in Hy as [Hy|Hy]; [rewrite (Uy la Hy) in E2|rewrite (Uy lb Hy) in E1]; discriminate. }
  assert (Nin : forall y i, In y al -> ~ In y pl -> inn T y = Some i -> ~ In i (map fst cycle)).
  { intros y i Hy Ny Ei Hc. apply CY in Hc as [(y' & Hy' & Ey')|(y' & Hy' & Ey')].
    - apply Ny. rewrite (ts_inj _ _ _ _ ST y y' i Hy (proj1 (Pl y' Hy')) Ei Ey'). assumption.
    - assert (Ay' : In y' al) by (destruct Hy' as [->|Hy']; [assumption|apply Pl; assumption]). destruct (Out y' i Ay' Ey') as (_ & _ & A1 & _). destruct (Inn y i Hy Ei) as (_ & _ & A2 & _). lia. }
  assert (Nout : forall y o, In y al -> ~ In y pl -> y <> x -> out T y = Some o -> ~ In o (map fst cycle)).
  { intros y o Hy Ny Nyx Eo Hc. destruct (Out y o Hy Eo) as (_ & _ & A2 & A3). apply CY in Hc as [(y' & Hy' & Ey')|(y' & Hy' & Ey')].
    - destruct (Inn y' o (proj1 (Pl y' Hy')) Ey') as (_ & _ & A1 & _). lia.
    - assert (Ay' : In y' al) by (destruct Hy' as [->|Hy']; [assumption|apply Pl; assumption]). destruct (Out y' o Ay' Ey') as (_ & _ & _ & A4). assert (y = y') by congruence. subst y'. destruct Hy'; contradiction. }
  assert (TS : tstr (fun y => In y al /\ ~ In y pl) (tr s') (fun y => nf pl (c y)) (tgt G ev s' ch')).
  { apply (tstr_collapse al pl T (tr s') c (tgt G ev s ch) _ x b ST Hx Nx).
    - intros q Hq. apply Pl. assumption.
    - intros q Hq. destruct (Pl q Hq) as (Q1 & Q2 & _).
      assert (Gen : forall l a, In a al -> c a = l ++ c x -> In q l -> (forall z, In z l -> In z pl) -> nf pl (c q) = c x).
      { intros l a Ha El Hql Hlp. assert (Hqc : In q (c a)) by (rewrite El; apply in_or_app; now left).
        assert (Hxc : In x (c a)) by (rewrite El; apply in_or_app; right; apply (up_self _ _ c U x Hx)).
        destruct (up_comparable _ _ c U a Ha x q Hxc Hqc) as [Hc|Hc]; [|contradiction]. rename Hc into Hc'.
        destruct (up_suffix _ _ c U a Ha q Hqc) as [m Em]. destruct (up_suffix _ _ c U q Q1 x Hc') as [m' Em'].
        rewrite El, Em', app_assoc in Em. apply app_inv_tail in Em. rewrite Em', nf_app, (nf_nil pl m'), (nf_id pl (c x)); [reflexivity| |].
        - intros z Hz Hi. destruct (Pl z Hi) as (_ & Hi' & _). contradiction.
        - intros z Hz. apply Hlp. rewrite Em. apply in_or_app. now right. }
      apply in_app_or in Hq as [Hq|Hq]; [apply (Gen la a1)|apply (Gen lb a2)]; auto.
    - intros q Hq Hi. destruct (Pl q Hi) as (_ & Hi' & _). contradiction.
    - intros y Hy Ny. rewrite F5', F1', F3', F2', F8'.
      assert (Mo : memb y (map fst ol) = match par T y with Some q => memb q pl | None => false end).
      { apply eq_iff_eq_true. rewrite memb_In, in_map_iff. split.
        - intros ((y' & e0) & Ey & Hin). cbn in Ey. subst y'. apply Ol in Hin as (_ & q & Hq & Hk). destruct (ts_kid _ _ _ _ ST q y e0 (proj1 (Pl q Hq)) Hk) as (_ & -> & _). now apply memb_In.
        - destruct (par T y) as [q|] eqn:Eq; [|discriminate]. intros Hm. apply memb_In in Hm. destruct (ts_par _ _ _ _ ST y q Hy Eq) as (Hk & _). exists (y, rev_e (ped T y)). split; [reflexivity|]. apply Ol. split; [assumption|]. eauto. }
      rewrite Mo. split; [reflexivity|]. split; [|repeat split; auto].
      + destruct (in_dec Nat.eq_dec y (map fst ol)) as [Hi|Hi]; [|auto]. apply in_map_iff in Hi as ((y' & e0) & Ey & Hin). cbn in Ey. subst y'. rewrite (F6 y e0 Hin).
        apply Ol in Hin as (_ & q & Hq & Hk). destruct (ts_kid _ _ _ _ ST q y e0 (proj1 (Pl q Hq)) Hk) as (_ & _ & ->). reflexivity.
      + intros Hyx. rewrite (proj2 (Nat.eqb_neq y x) Hyx). auto.
    - intros y e0. rewrite F8', Nat.eqb_refl, in_app_iff, K2x, Ol. split.
      + intros [[A1 A2]|(A1 & q & A2 & A3)]; (split; [assumption|]); eauto.
      + intros (A1 & q & [->|A2] & A3); [left; auto|right; eauto].
    - rewrite F8', Nat.eqb_refl, map_app. apply NoDup_join; auto. intros z Hz Hz'. apply in_map_iff in Hz as ((z1 & e1) & Ez & Hz). apply in_map_iff in Hz' as ((z2 & e2) & Ez' & Hz'). cbn in Ez, Ez'. subst z1 z2.
      apply K2x in Hz as [Hz _]. apply Ol in Hz' as (_ & q & Hq & Hk). destruct (ts_kid _ _ _ _ ST x z e1 Hx Hz) as (_ & A1 & _). destruct (ts_kid _ _ _ _ ST q z e2 (proj1 (Pl q Hq)) Hk) as (_ & A2 & _). assert (q = x) by congruence. subst q. contradiction.
    - intros y i q o e0 Hy Ny Ei Hq Nq Nqx Eo Ht0. apply Tg; auto; [apply (Inn y i Hy Ei)|apply (Out q o Hq Eo)].
    - intros y i q o e0 Hy Ny Ei Hq Eo Ht0. apply (Tgb i o); auto; [apply (Inn y i Hy Ei)|]. apply CY. right. eauto. }
  exists (b :: ls), ch', (nf pl al), (fun y => nf pl (c y)). split; [rewrite S4r; exact AO4|]. split; [exact G'|]. split; [exact Q'|].
  unfold Roles. split.
  - exact Ar'.
  - destruct TS. split; auto.
    + intros y Hy. apply nf_In in Hy. destruct (ts_up y Hy) as [U1 U2]. split; [assumption|]. intros q Eq. apply nf_In. auto.
    + intros y q Hy. apply nf_In in Hy. auto.
    + intros y Hy. apply nf_In in Hy. auto.
    + intros y Hy. apply nf_In in Hy. auto.
    + intros y q e0 Hy Hin. apply nf_In in Hy. rewrite nf_In. auto.
    + intros y Hy. apply nf_In in Hy. auto.
    + intros y y' i Hy Hy'. apply nf_In in Hy, Hy'. eauto.
  - intros y Hy _. apply nf_In in Hy as [Hy Ny]. rewrite F4'. apply (b_vis _ _ _ _ _ _ _ _ _ _ _ _ H y Hy). intros Hm. apply Ny. apply in_or_app. auto.
  - intros y i Hy Ei. apply nf_In in Hy as [Hy Ny]. rewrite F1' in Ei. pose proof (Nin y i Hy Ny Ei) as Nc'. destruct (Inn y i Hy Ei) as (I1 & I2 & I3 & I4).
    rewrite (Bp i I1), (proj2 (memb_nIn _ _) Nc'), (Sl i I1 Nc'), (Aln i I1 Nc'). split; [now right|]. repeat split; auto. intros _. apply I4. intros Hm. apply Ny. apply in_or_app. auto.
  - intros y o Hy Eo. apply nf_In in Hy as [Hy Ny]. rewrite F2' in Eo. destruct (Nat.eqb_spec y x) as [->|Nyx].
    + injection Eo as <-. split; [now left|]. split; [assumption|]. split; [auto|]. split; [lia|]. rewrite S4m. cbn [alt set_alt]. apply upd_same.
    + pose proof (Nout y o Hy Ny Nyx Eo) as Nc'. destruct (Out y o Hy Eo) as (I1 & I2 & I3 & I4). rewrite (Bp o I1), (proj2 (memb_nIn _ _) Nc'), (Sl o I1 Nc'), (Aln o I1 Nc'). split; [now right|]. repeat split; auto. lia.
  - intros R [<-|HR] Hb _.
    + right; left. exists x. rewrite F2', Nat.eqb_refl. split; [apply nf_In; auto|reflexivity].
    + rewrite (Bp R HR) in Hb. destruct (memb R (map fst cycle)) eqn:Mc; [discriminate|]. apply memb_nIn in Mc.
      destruct (b_reg _ _ _ _ _ _ _ _ _ _ _ _ H R HR Hb (fun h => h)) as [(y & Y1 & Y2)|[(y & Y1 & Y2)|Hm]].
      * left. exists y. rewrite F1'. split; [|assumption]. apply nf_In. split; [assumption|]. intros Hi. apply Mc. apply CY. left. eauto.
      * right; left. exists y. rewrite F2'. assert (Nyx : y <> x) by (intros ->; apply Mc; apply CY; right; exists x; auto). rewrite (proj2 (Nat.eqb_neq _ _) Nyx).
        split; [|assumption]. apply nf_In. split; [assumption|]. intros Hi. apply Mc. apply CY. right. exists y. auto.
      * right; right. destruct Hm as (M1 & M2 & M3). unfold mated. rewrite (Sl R HR Mc), (Aln R HR Mc). split; [assumption|]. split; [assumption|].
        assert (Em : mreg (ma s') = mreg (ma s) /\ medge (ma s') = medge (ma s)).
        { rewrite S4m, (bl_ma _ _ _ _ _ _ _ BL). unfold s3. cbn [mreg medge set_alt ma set_ma]. rewrite (pr_mreg _ _ _ _ PR2), (pr_medge _ _ _ _ PR2), (pr_mreg _ _ _ _ PR1), (pr_medge _ _ _ _ PR1). auto. }
        destruct Em as [-> ->]. destruct (mreg (ma s) R) as [Q|]; [|now apply Tb]. destruct M3 as (D0 & D1 & D2 & D3 & D4 & D5 & D6).
        assert (Nq : ~ In Q (map fst cycle)) by (intros Hq; destruct (Cls Q Hq) as (_ & _ & Hq'); contradiction).
        rewrite (Bp Q D1), (proj2 (memb_nIn _ _) Nq), (Sl Q D1 Nq). split; [assumption|]. split; [now right|]. repeat split; auto.
  - intros R [<-|HR] Hb; [congruence|]. rewrite (Bp R HR) in Hb. destruct (memb R (map fst cycle)) eqn:Mc.
    + apply memb_In in Mc. now apply Alc.
    + apply memb_nIn in Mc. rewrite (Aln R HR Mc). apply (b_sub _ _ _ _ _ _ _ _ _ _ _ _ H R HR Hb).
Qed.
End Self.
