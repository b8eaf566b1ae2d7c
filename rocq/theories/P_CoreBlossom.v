(** Invariants of the decoder's core, part 14: a new blossom. *)
From Coq Require Import ZArith NArith List Bool Arith Lia Permutation Sorting.Sorted.
From Verif Require Import M_Base M_Varying M_Tracker M_Core S_Core S_Tree P_Sum P_Up P_Tree P_Tree2 P_CoreGeo P_CoreSched P_CoreArea P_CoreRad P_CoreShat P_CoreRoles P_CoreWrap P_CoreTops P_Ends P_CoreHalt.
Import ListNotations.
Local Open Scope Z_scope.

Lemma memb_snoc : forall x l a, memb x (l ++ [a]) = memb x l || (x =? a)%nat.
Proof. intros. rewrite memb_app. cbn. now rewrite orb_false_r. Qed.
Lemma memb_eq : forall x l l', (In x l <-> In x l') -> memb x l = memb x l'.
Proof. intros x l l' H. apply eq_iff_eq_true. rewrite !memb_In. exact H. Qed.

Section Blossom.
Variable G : graph.
Hypothesis WF : wf_graph G.
Variables (ev : list nat) (s : state) (ls : list nat) (ch : nat -> list nat).
Context {NI : ints} {FI : fine NI G ev}.
Hypothesis HGeo : Geo G ev s ls ch.
Let HG := proj1 HGeo.
Let U : up_ok (fun R => In R ls) (bpar (rg s)) ch := g_up _ _ _ _ _ _ _ HG.
Variable b : nat.
Hypothesis Hb : ~ In b ls.
Variable cycle : list (nat * cedge).
Let cyc := map fst cycle.
Hypothesis Hcyc : forall q, In q cyc -> In q ls /\ bpar (rg s) q = None.
Hypothesis Hnd : NoDup cyc.
Hypothesis Hroom : forall q, In q cyc -> room G ev (nd s) ch q.
(** The state with the new region, still empty. *)
Variable s3 : state.
Hypothesis E_nd : nd s3 = nd s.
Hypothesis E_bpar : forall R, bpar (rg s3) R = if (R =? b)%nat then None else bpar (rg s) R.
Hypothesis E_btop : forall R, btop (rg s3) R = if (R =? b)%nat then Some b else btop (rg s) R.
Hypothesis E_rad : forall R, R <> b -> rad (rg s3) R = rad (rg s) R.
Hypothesis E_chl : forall R, chl (rg s3) R = if (R =? b)%nat then cycle else chl (rg s) R.
Hypothesis E_shl : forall R, shl (rg s3) R = if (R =? b)%nat then [] else shl (rg s) R.
Hypothesis E_now : now (sc s3) = now (sc s).

Let y := rval (rg s) (now (sc s)).
Notation fz R := (then_frozen_at_time (rad (rg s) R) (now (sc s))).

(** Some of the regions [don] are wrapped. *)
Record absorbed (don : list nat) (s' : state) : Prop := {
  ab_ma : ma s' = ma s3; ab_tr : tr s' = tr s3; ab_ra : ra s' = ra s3; ab_ta : ta s' = ta s3;
  ab_ntr : ntr (sc s') = ntr (sc s3); ab_que : que (sc s') = que (sc s3); ab_now : now (sc s') = now (sc s3); ab_tick : tick (sc s') = tick (sc s3);
  ab_rtr : forall R, rtr (sc s') R = if memb R don then set_no_desired (rtr (sc s3) R) else rtr (sc s3) R;
  ab_arr : arr (nd s') = arr (nd s); ab_src : src (nd s') = src (nd s); ab_crs : crs (nd s') = crs (nd s); ab_rar : rar (nd s') = rar (nd s);
  ab_chl : chl (rg s') = chl (rg s3); ab_shl : shl (rg s') = shl (rg s3);
  ab_bpar : forall R, bpar (rg s') R = if memb R don then Some b else bpar (rg s3) R;
  ab_rad : forall R, rad (rg s') R = if memb R don then fz R else rad (rg s3) R;
  ab_btop : forall R, In R ls -> btop (rg s') R = if memb (root ch R) don then Some b else btop (rg s) R;
  ab_btopb : btop (rg s') b = Some b;
  ab_top : forall v R, (v < length G)%nat -> arr (nd s) v = Some R ->
     top (nd s') v = (if memb (root ch R) don then Some b else top (nd s) v) /\
     wrp (nd s') v = (if memb (root ch R) don then rho (nd s) ch y v else wrp (nd s) v);
  ab_emp : forall v, (v < length G)%nat -> arr (nd s) v = None -> top (nd s') v = top (nd s) v /\ wrp (nd s') v = wrp (nd s) v }.

Lemma in_ne : forall R, In R ls -> R <> b. Proof. intros R H ->. contradiction. Qed.
Lemma in_eqb : forall R, In R ls -> (R =? b)%nat = false. Proof. intros R H. apply Nat.eqb_neq. now apply in_ne. Qed.

Lemma fz_ok : forall R, In R ls -> vok (fz R) /\ slp (fz R) = 0 /\ y_intercept (fz R) = y R.
Proof.
  intros R HR. pose proof (s_vok _ _ _ _ _ _ (proj2 HGeo) R HR) as K. destruct (then_frozen_ok (rad (rg s) R) (now (sc s)) K) as (V1 & V2 & V3).
  split; [assumption|]. split; [assumption|]. rewrite V3. unfold y, rval. rewrite (vok_distance _ _ K). lia.
Qed.
Lemma frozen_icpt : forall R, In R ls -> bpar (rg s) R <> None -> y_intercept (rad (rg s) R) = y R.
Proof.
  intros R HR Hn. pose proof (s_vok _ _ _ _ _ _ (proj2 HGeo) R HR) as K. unfold y, rval. rewrite (vok_distance _ _ K), (s_frz _ _ _ _ _ _ (proj2 HGeo) R HR Hn). lia.
Qed.

Lemma absorb_step : forall don c rest s', cyc = don ++ c :: rest -> absorbed don s' -> ends (fun fuel => absorb_child fuel NI b s' c) (absorbed (don ++ [c])).
Proof.
  intros don c rest s' Ec A. assert (Hc : In c cyc) by (rewrite Ec; apply in_or_app; right; now left). destruct (Hcyc c Hc) as [Hcl Hcb].
  assert (Ncd : ~ In c don). { intros Hi. rewrite Ec in Hnd. apply NoDup_remove in Hnd as [_ N]. apply N. apply in_or_app. now left. }
  assert (Hdon : forall q, In q don -> In q ls /\ bpar (rg s) q = None) by (intros q Hq; apply Hcyc; rewrite Ec; apply in_or_app; now left).
  unfold absorb_child, wrap_into_blossom. set (s1 := set_rg s' _).
  assert (Rc : rad (rg s') c = rad (rg s) c) by (rewrite (ab_rad _ _ A), (proj2 (memb_nIn _ _) Ncd); apply E_rad; now apply in_ne).
  assert (En : now (sc s') = now (sc s)) by (rewrite (ab_now _ _ A); exact E_now).
  assert (Rs1 : forall R, rad (rg s1) R = if memb R (don ++ [c]) then fz R else rad (rg s3) R).
  { intros R. rewrite memb_snoc. unfold s1. cbn [rg set_rg rad set_rad]. unfold upd. rewrite Rc, En, (ab_rad _ _ A R). destruct (Nat.eqb_spec R c) as [->|]; [now rewrite orb_true_r|now rewrite orb_false_r]. }
  assert (Chain : forall d R, In d ls -> In c (ch d) -> In R (ch d) -> In R ls /\ (R <> c -> bpar (rg s) R <> None /\ ~ In R don)).
  { intros d R Hd Hcd HR. split; [eapply (up_all_L _ _ ch U d); eauto|]. intros Hne.
    assert (Nn : bpar (rg s) R <> None). { intros Hn. apply Hne. rewrite (up_root_only _ _ ch U d R Hd HR Hn), (up_root_only _ _ ch U d c Hd Hcd Hcb). reflexivity. }
    split; [assumption|]. intros Hi. destruct (Hdon R Hi). contradiction. }
  assert (Shl : forall R, In R ls -> shl (rg s1) R = shl (rg s) R).
  { intros R HR. change (shl (rg s1) R) with (shl (rg s') R). rewrite (ab_shl _ _ A), E_shl, (in_eqb R HR). reflexivity. }
  eapply ends_bind; [apply (set_tops_ends b false (rho (nd s) ch y) s1 c (Some b) (fun R => In R ls) (bpar (rg s)) ch U)|].
  - intros x d Hx. change (chl (rg s1) x) with (chl (rg s') x). rewrite (ab_chl _ _ A), E_chl, (in_eqb x Hx). apply (g_chl _ _ _ _ _ _ _ HG x d Hx).
  - intros x Hx. change (chl (rg s1) x) with (chl (rg s') x). rewrite (ab_chl _ _ A), E_chl, (in_eqb x Hx). apply (g_chnd _ _ _ _ _ _ _ HG x Hx).
  - assumption.
  - apply (acc_agree (fun R => In R ls) (chl (rg s))); [|intros x q Hx Hq; apply (g_chl _ _ _ _ _ _ _ HG x q Hx) in Hq; apply Hq|apply (Geo_acc _ _ _ _ _ HGeo c Hcl)|assumption].
    intros x Hx. change (chl (rg s1) x) with (chl (rg s') x). rewrite (ab_chl _ _ A), E_chl, (in_eqb x Hx). reflexivity.
  - intros d v Hd Hcd Hv _. rewrite (Shl d Hd) in Hv. apply (g_shl _ _ _ _ _ _ _ HG d v Hd) in Hv as [Hv Ea]. split.
    + cbn [nd set_rg s1 rg]. rewrite (ab_src _ _ A). destruct (g_walk _ _ _ _ _ _ _ HG v d Hv Ea) as (z & -> & _). discriminate.
    + exists d, (ch d). cbn [nd set_rg rg bpar set_bpar rad rar]. change (nd s1) with (nd s'). rewrite (ab_arr _ _ A), (ab_rar _ _ A). split; [assumption|]. split.
      * change (bpar (rg s1)) with (bpar (rg s')).
        assert (P : forall R, In R ls -> (R = c -> upd (bpar (rg s')) c (Some b) R = Some b) /\ (R <> c -> ~ In R don -> upd (bpar (rg s')) c (Some b) R = bpar (rg s) R)).
        { intros R HR. split; [intros ->; apply upd_same|]. intros H1 H2. rewrite upd_other by assumption. rewrite (ab_bpar _ _ A), (proj2 (memb_nIn _ _) H2), E_bpar, (in_eqb R HR). reflexivity. }
        clear Ea Hv. revert Hcd. pattern d. apply (up_ind _ _ ch U); [| |exact Hd].
        -- intros x Hx Hn Hcx. assert (x = c) by (transitivity (root ch x); [now apply (up_root_only _ _ ch U x x Hx (up_self _ _ ch U x Hx))|symmetry; now apply (up_root_only _ _ ch U x c Hx)]).
           subst x. rewrite (up_eq _ _ ch U c Hx), Hn. cbn [upath]. split; [reflexivity|]. split; [now apply in_ne|]. exists b. split; [now apply P|reflexivity].
        -- intros x q Hx Eq Hq IH Hcx. rewrite (up_eq _ _ ch U x Hx), Eq in *. cbn [upath]. split; [reflexivity|]. split; [now apply in_ne|].
           assert (Nx : x <> c) by congruence. exists q. destruct Hcx as [E|Hcq]; [congruence|]. split; [|now apply IH]. rewrite <- Eq. apply P; auto.
           destruct (Chain x x Hx) as [_ C]; [rewrite (up_eq _ _ ch U x Hx), Eq; now right|apply (up_self _ _ ch U x Hx)|]. now apply C.
      * assert (EY : forall R, In R (ch d) -> y_intercept (rad (rg s1) R) = y R).
        { intros R HR. destruct (Chain d R Hd Hcd HR) as [HRl C]. rewrite Rs1, memb_snoc. destruct (Nat.eqb_spec R c) as [->|Hne].
          - rewrite orb_true_r. apply fz_ok. assumption.
          - destruct (C Hne) as [C1 C2]. rewrite (proj2 (memb_nIn _ _) C2). cbn. rewrite E_rad by now apply in_ne. now apply frozen_icpt. }
        assert (Hm : room G ev (nd s) ch (root ch d)) by (rewrite <- (up_root_only _ _ ch U d c Hd Hcd Hcb); now apply Hroom).
        split; [|split].
        -- unfold rho. rewrite Ea. f_equal. apply zsum_ext. intros R HR. symmetry. now apply EY.
        -- intros l1 l2 El. apply (part_fits G ev s ls ch HGeo NI _ d l1 l2 Hd Hm El). intros R HR. apply EY. rewrite El. apply in_or_app. now left.
        -- pose proof (rho_fits G ev s ls ch HGeo NI v 0 d Hv Hd Hm) as F. rewrite Z.sub_0_r in F. apply F; [intros d0 E0; rewrite Ea in E0; injection E0 as <-; exact Hm|]. split; [lia|]. now apply (g_y0 _ _ _ _ _ _ _ HG).
  - cbv beta. intros s2 (ds & Hds & T). apply ends_ok. destruct T. cbn [ma tr ra ta sc nd rg set_rg bpar set_bpar rad chl shl btop arr src crs rar top wrp] in *.
    assert (Vl : forall v R, (v < length G)%nat -> arr (nd s) v = Some R -> memb v (flat_map (shl (rg s1)) ds) = (root ch R =? c)%nat).
    { intros v R Hv Ea. pose proof (g_arr _ _ _ _ _ _ _ HG v R Hv Ea) as HR. apply eq_iff_eq_true. rewrite memb_In, in_flat_map, Nat.eqb_eq. split.
      - intros (d & H1 & H2). apply Hds in H1 as [H1 H3]. rewrite (Shl d H1) in H2. apply (g_shl _ _ _ _ _ _ _ HG d v H1) in H2 as [_ H2].
        assert (d = R) by congruence. subst d. symmetry. apply (up_root_only _ _ ch U R c HR H3 Hcb).
      - intros Er. exists R. split; [apply Hds; split; [assumption|]; rewrite <- Er; apply (root_spec _ _ ch U R HR)|]. rewrite (Shl R HR). apply (g_shl _ _ _ _ _ _ _ HG R v HR). auto. }
    assert (Dd : forall R, In R ls -> memb R ds = (root ch R =? c)%nat).
    { intros R HR. apply eq_iff_eq_true. rewrite memb_In, Nat.eqb_eq, Hds. split.
      - intros [_ H3]. symmetry. apply (up_root_only _ _ ch U R c HR H3 Hcb).
      - intros Er. split; [assumption|]. rewrite <- Er. apply (root_spec _ _ ch U R HR). }
    assert (Vn : forall v, (v < length G)%nat -> arr (nd s) v = None -> memb v (flat_map (shl (rg s1)) ds) = false).
    { intros v Hv Ea. apply memb_nIn. rewrite in_flat_map. intros (d & H1 & H2). apply Hds in H1 as [H1 H3]. rewrite (Shl d H1) in H2.
      apply (g_shl _ _ _ _ _ _ _ HG d v H1) in H2 as [_ H2]. congruence. }
    destruct A. split; unfold unwant_region; cbn [ma tr ra ta sc nd rg set_sc set_rtr ntr que now tick rtr].
    + rewrite t_ma. exact ab_ma0. + rewrite t_tr. exact ab_tr0. + rewrite t_ra. exact ab_ra0. + rewrite t_ta. exact ab_ta0.
    + rewrite t_sc. assumption. + rewrite t_sc. assumption. + rewrite t_sc. assumption. + rewrite t_sc. assumption.
    + intros R. rewrite t_sc, memb_snoc. unfold upd. change (rtr (sc s1)) with (rtr (sc s')). rewrite !ab_rtr0. destruct (Nat.eqb_spec R c) as [->|]; [|now rewrite orb_false_r].
      rewrite (proj2 (memb_nIn _ _) Ncd). reflexivity.
    + rewrite t_arr. exact ab_arr0. + rewrite t_src. exact ab_src0. + rewrite t_crs. exact ab_crs0. + rewrite t_rar. exact ab_rar0.
    + rewrite t_chl. assumption. + rewrite t_shl. assumption.
    + intros R. rewrite t_bpar, memb_snoc. change (bpar (rg s1)) with (bpar (rg s')). unfold upd. destruct (Nat.eqb_spec R c) as [->|]; [now rewrite orb_true_r|]. now rewrite orb_false_r.
    + intros R. rewrite t_rad. apply Rs1.
    + intros R HR. rewrite t_btop, memb_snoc, (Dd R HR). change (btop (rg s1) R) with (btop (rg s') R). rewrite (ab_btop0 R HR).
      destruct (Nat.eqb_spec (root ch R) c) as [->|]; [now rewrite orb_true_r|]. now rewrite orb_false_r.
    + rewrite t_btop. change (btop (rg s1) b) with (btop (rg s') b). rewrite ab_btopb0. now destruct (memb b ds).
    + intros v R Hv Ea. rewrite t_top, t_wrp, memb_snoc, (Vl v R Hv Ea). change (nd s1) with (nd s'). destruct (ab_top0 v R Hv Ea) as [-> ->].
      destruct (Nat.eqb_spec (root ch R) c) as [->|]; [rewrite orb_true_r; auto|]. rewrite orb_false_r. auto.
    + intros v Hv Ea. rewrite t_top, t_wrp, (Vn v Hv Ea). cbn. apply ab_emp0; auto.
Qed.

Lemma absorb_all : ends (fun fuel => foldS (absorb_child fuel NI b) cyc s3) (absorbed cyc).
Proof.
  apply (ends_foldS _ (fun fuel => absorb_child fuel NI b)).
  - split; auto.
    + rewrite E_nd. reflexivity. + rewrite E_nd. reflexivity. + rewrite E_nd. reflexivity. + rewrite E_nd. reflexivity.
    + intros R HR. cbn. rewrite E_btop, (in_eqb R HR). reflexivity.
    + rewrite E_btop, Nat.eqb_refl. reflexivity.
    + intros v R _ _. rewrite E_nd. auto.
    + intros v _ _. rewrite E_nd. auto.
  - intros don x rest s' E A. eapply absorb_step; eassumption.
Qed.

Definition chw (R : nat) : list nat := if (R =? b)%nat then [b] else ch R ++ (if memb (root ch R) cyc then [b] else []).

Hypothesis Hodd : Nat.odd (length cyc) = true.
Hypothesis Htight : forall i, (i < length cycle)%nat -> tgt G ev s ch (region_at cycle i) (region_at cycle (S i)) (edge_at cycle i).
Hypothesis Hpar : forall q, In q cyc -> par_ok ev s ch q.
Hypothesis E_radb : rad (rg s3) b = growing_varying_with_zero_distance_at_time (now (sc s)).

Lemma rval_new : forall s4, absorbed cyc s4 -> forall R, In R ls -> rval (rg s4) (now (sc s4)) R = y R.
Proof.
  intros s4 A R HR. unfold rval. rewrite (ab_rad _ _ A R). destruct (memb R cyc) eqn:M.
  - apply memb_In in M. destruct (fz_ok R HR) as (V1 & V2 & V3). rewrite (vok_distance _ _ V1), V2, V3. lia.
  - rewrite E_rad by now apply in_ne. rewrite (ab_now _ _ A), E_now. reflexivity.
Qed.
Lemma rval_newb : forall s4, absorbed cyc s4 -> rval (rg s4) (now (sc s4)) b = 0.
Proof.
  intros s4 A. unfold rval. rewrite (ab_rad _ _ A b). assert (M : memb b cyc = false) by (apply memb_nIn; intros H; destruct (Hcyc b H); contradiction).
  rewrite M, E_radb, (ab_now _ _ A), E_now. destruct (zero_growing_ok (now (sc s))) as (V1 & V2 & V3). rewrite (vok_distance _ _ V1), V2, V3. lia.
Qed.

Definition y4 (s4 : state) := rval (rg s4) (now (sc s4)).
Lemma absorbed_wrapped : forall s4, absorbed cyc s4 -> wrapped b cyc ls (nd s) (nd s4) (rg s) (rg s4) ch chw (y4 s4).
Proof.
  intros s4 A. split.
  - exact Hb.
  - intros R HR. unfold chw. rewrite (in_eqb R HR). reflexivity.
  - unfold chw. now rewrite Nat.eqb_refl.
  - now apply rval_newb.
  - exact Hcyc.
  - exact (ab_arr _ _ A). - exact (ab_src _ _ A). - exact (ab_crs _ _ A). - exact (ab_rar _ _ A).
  - intros R HR. rewrite (ab_bpar _ _ A), E_bpar, (in_eqb R HR). reflexivity.
  - rewrite (ab_bpar _ _ A), E_bpar, Nat.eqb_refl. assert (M : memb b cyc = false) by (apply memb_nIn; intros H; destruct (Hcyc b H); contradiction). now rewrite M.
  - intros R HR. rewrite (ab_chl _ _ A), E_chl, (in_eqb R HR). reflexivity.
  - rewrite (ab_chl _ _ A), E_chl, Nat.eqb_refl. reflexivity.
  - intros R HR. rewrite (ab_shl _ _ A), E_shl, (in_eqb R HR). reflexivity.
  - rewrite (ab_shl _ _ A), E_shl, Nat.eqb_refl. reflexivity.
Qed.

Lemma geo_y : forall s4, absorbed cyc s4 -> geo G ev (nd s) (rg s) ls (y4 s4) ch /\ (forall v, (v < length G)%nat -> rho (nd s) ch (y4 s4) v = rho (nd s) ch y v) /\
  (forall v, (v < length G)%nat -> Yv (nd s) ch (y4 s4) v = Yv (nd s) ch y v).
Proof.
  intros s4 A. pose proof (rval_new s4 A) as E. fold (y4 s4) in E.
  assert (Sm : forall R, In R ls -> zsum (y4 s4) (ch R) = zsum y (ch R)) by (intros R HR; apply zsum_ext; intros Q HQ; apply E; eapply (up_all_L _ _ ch U R); eauto).
  assert (YY : forall v, (v < length G)%nat -> Yv (nd s) ch (y4 s4) v = Yv (nd s) ch y v).
  { intros v Hv. unfold Yv, chn. destruct (arr (nd s) v) as [R|] eqn:ER; [|reflexivity]. apply Sm. apply (g_arr _ _ _ _ _ _ _ HG v R Hv ER). }
  assert (RR : forall v, (v < length G)%nat -> rho (nd s) ch (y4 s4) v = rho (nd s) ch y v).
  { intros v Hv. unfold rho. destruct (arr (nd s) v) as [R|] eqn:ER; [|reflexivity]. rewrite Sm; [reflexivity|]. apply (g_arr _ _ _ _ _ _ _ HG v R Hv ER). }
  split; [|auto].
  assert (PP : forall R x, In R ls -> phi (nd s) ch (y4 s4) R x = phi (nd s) ch y R x).
  { intros R [v|] HR; cbn; [|now apply E]. destruct (same_opt _ _); [reflexivity|]. destruct (memb _ _); [reflexivity|]. now apply E. }
  assert (TT : forall k R Q e, tightx G ev (nd s) ch y k R Q e -> tightx G ev (nd s) ch (y4 s4) k R Q e).
  { intros k R Q e (z & z' & E1 & E2 & H1 & H2 & H3 & H4 & Hw). exists z, z'. rewrite !YY by (eapply ev_lt; eauto). auto 10. }
  pose proof (ev_lt G _ _ _ _ _ _ HG) as EL. fold y in HG.
  pose proof (root_spec _ _ ch U) as RS. pose proof (g_arr _ _ _ _ _ _ _ HG) as AR.
  destruct HG. split; auto.
  - intros p i Hp Hi. rewrite (Sm p Hp). auto.
  - intros R HR. rewrite E by assumption. auto.
  - intros v R Hv Ea. rewrite RR, E by (auto; apply RS; eauto). auto.
  - intros v R Hv Ea. rewrite E by eauto. auto.
  - intros v R Hv Ea. destruct (g_walk v R Hv Ea) as (z & H1 & H2 & H3 & H4). exists z. rewrite YY, RR by auto. auto.
  - intros u x w o Hin. rewrite <- (g_dual u x w o Hin). apply Z.eq_le_incl. apply zsum_ext. intros R HR. rewrite !PP by assumption. reflexivity.
  - intros z z' R Hz Hz' H1 H2. rewrite !YY by auto. eauto.
Qed.

Lemma absorbed_geo : forall s4, absorbed cyc s4 -> Geo G ev s4 (b :: ls) chw.
Proof.
  intros s4 A. pose proof (absorbed_wrapped s4 A) as W. destruct (geo_y s4 A) as (HG4 & RR & YY).
  pose proof (g_arr _ _ _ _ _ _ _ HG) as AR. pose proof (ev_lt G _ _ _ _ _ _ HG) as EL.
  pose proof (wr_root b cyc ls _ _ _ _ ch chw _ W) as WR. pose proof (wr_rootb b cyc ls _ _ _ _ ch chw _ W) as WB.
  split.
  - apply (geo_wrap G ev b cyc ls _ _ _ _ ch chw (y4 s4) WF W HG4).
    + intros v R Hv Ea. pose proof (AR v R Hv Ea) as HR. destruct (ab_top _ _ A v R Hv Ea) as [-> ->]. rewrite (WR R HR), (wr_rho G _ _ _ _ _ _ _ _ _ _ W AR v Hv).
      destruct (memb (root ch R) cyc).
      * split; [reflexivity|]. unfold y4. rewrite (rval_newb s4 A), RR by assumption. lia.
      * split; [apply (g_top _ _ _ _ _ _ _ HG v R Hv Ea)|apply (g_wrp _ _ _ _ _ _ _ HG4 v R Hv Ea)].
    + intros v Hv Ea. apply (ab_emp _ _ A v Hv Ea).
    + intros R [<-|HR]; [rewrite (ab_btopb _ _ A), WB; reflexivity|]. rewrite (ab_btop _ _ A R HR), (WR R HR). destruct (memb _ _); [reflexivity|apply (g_btop _ _ _ _ _ _ _ HG R HR)].
    + exact Hnd.
    + exact Hodd.
    + rewrite (ab_chl _ _ A), E_chl, Nat.eqb_refl. intros i Hi. destruct (Htight i Hi) as (z & z' & E1 & E2 & H1 & H2 & H3 & H4 & Hw). exists z, z'.
      rewrite !YY by auto. auto 10.
    + exists (now (sc s)). intros q z Hq Hz Hin. rewrite YY by auto. apply (Hpar q Hq z Hz Hin).
  - destruct (proj2 HGeo). split.
    + intros R [<-|HR]; rewrite (ab_rad _ _ A).
      * assert (M : memb b cyc = false) by (apply memb_nIn; intros H; destruct (Hcyc b H); contradiction). rewrite M, E_radb. apply (zero_growing_ok (now (sc s))).
      * destruct (memb R cyc); [now apply fz_ok|]. rewrite E_rad by now apply in_ne. auto.
    + intros R [<-|HR] Hn.
      * rewrite (w_bparb _ _ _ _ _ _ _ _ _ _ W) in Hn. congruence.
      * rewrite (ab_rad _ _ A). rewrite (w_bpar _ _ _ _ _ _ _ _ _ _ W R HR) in Hn. destruct (memb R cyc); [now apply fz_ok|]. rewrite E_rad by now apply in_ne. auto.
    + intros z R Hz Ea Hs. rewrite (ab_arr _ _ A) in Ea. pose proof (AR z R (EL z Hz) Ea) as HR.
      change (rval (rg s4) (now (sc s4))) with (y4 s4). rewrite (wr_Y G _ _ _ _ _ _ _ _ _ _ W AR z (EL z Hz)), YY by auto. rewrite (ab_now _ _ A), E_now.
      destruct (memb (root ch R) cyc) eqn:M.
      * apply memb_In in M. apply (Hpar (root ch R) M z Hz). unfold chn. rewrite Ea. apply (root_spec _ _ ch U R HR).
      * rewrite (WR R HR), M, (ab_rad _ _ A), M in Hs. rewrite E_rad in Hs by (apply in_ne; apply (root_spec _ _ ch U R HR)). apply (s_par z R Hz Ea Hs).
Qed.

Variables (X : nat -> Prop).
Hypothesis HQ : sched G ls nobody X s.
Hypothesis E_ntr : ntr (sc s3) = ntr (sc s).
Hypothesis E_que : que (sc s3) = que (sc s).
Hypothesis E_rtr : forall R, rtr (sc s3) R = if (R =? b)%nat then tracker_clear else rtr (sc s) R.

Lemma absorbed_sched : forall s4, absorbed cyc s4 -> sched G (b :: ls) (fun v => top (nd s4) v = Some b) (fun r => X r /\ ~ In r cyc) s4.
Proof.
  intros s4 A. pose proof (absorbed_wrapped s4 A) as W. pose proof (g_arr _ _ _ _ _ _ _ HG) as AR.
  assert (Mb : memb b cyc = false) by (apply memb_nIn; intros H; destruct (Hcyc b H); contradiction).
  assert (Same : forall v, (v < length G)%nat -> top (nd s4) v <> Some b -> top (nd s4) v = top (nd s) v /\ local_radius s4 v = local_radius s v).
  { intros v Hv Hn. destruct (arr (nd s) v) as [R|] eqn:Ea.
    - pose proof (AR v R Hv Ea) as HR. destruct (ab_top _ _ A v R Hv Ea) as [E1 E2]. destruct (memb (root ch R) cyc) eqn:M; [congruence|]. split; [assumption|].
      unfold local_radius. rewrite E1, E2, (g_top _ _ _ _ _ _ _ HG v R Hv Ea), (ab_rad _ _ A), M, E_rad; [reflexivity|]. apply in_ne. apply (root_spec _ _ ch U R HR).
    - destruct (ab_emp _ _ A v Hv Ea) as [E1 E2]. split; [assumption|]. unfold local_radius. destruct (g_emp _ _ _ _ _ _ _ HG v Hv Ea) as (E3 & _). rewrite E1, E3. reflexivity. }
  assert (Rt : forall r, In r ls -> ~ In r cyc -> rtr (sc s4) r = rtr (sc s) r).
  { intros r Hr Hn. rewrite (ab_rtr _ _ A), (proj2 (memb_nIn _ _) Hn), E_rtr, (in_eqb r Hr). reflexivity. }
  assert (Rtb : has_desired (rtr (sc s4) b) = false /\ has_queued (rtr (sc s4) b) = false).
  { rewrite (ab_rtr _ _ A), Mb, E_rtr, Nat.eqb_refl. split; reflexivity. }
  assert (Rtc : forall r, In r cyc -> has_desired (rtr (sc s4) r) = false /\ has_queued (rtr (sc s4) r) = has_queued (rtr (sc s) r) /\ queued_time (rtr (sc s4) r) = queued_time (rtr (sc s) r)).
  { intros r Hr. rewrite (ab_rtr _ _ A), (proj2 (memb_In _ _) Hr), E_rtr, (in_eqb r (proj1 (Hcyc r Hr))). repeat split. }
  destruct HQ. split; rewrite ?(ab_ntr _ _ A), ?(ab_que _ _ A), ?(ab_now _ _ A), ?E_ntr, ?E_que, ?E_now; auto.
  - intros r [<-|Hr] Hq; [destruct Rtb; congruence|]. destruct (in_dec Nat.eq_dec r cyc) as [Hc|Hc].
    + destruct (Rtc r Hc) as (_ & E1 & E2). rewrite E2. rewrite E1 in Hq. auto.
    + rewrite (Rt r Hr Hc) in *. auto.
  - intros r [<-|Hr] Hd; [destruct Rtb; congruence|]. destruct (in_dec Nat.eq_dec r cyc) as [Hc|Hc].
    + destruct (Rtc r Hc) as (E1 & _). congruence.
    + rewrite (Rt r Hr Hc) in *. auto.
  - intros t r Hi Hd. destruct (Nat.eq_dec r b) as [->|Hne]; [now left|]. right. rewrite (ab_rtr _ _ A), E_rtr, (proj2 (Nat.eqb_neq _ _) Hne) in Hd. destruct (memb r cyc); [discriminate|]. eauto.
  - intros v Hv Hd Hw. unfold nsl. destruct (Same v Hv Hd) as [_ ->]. apply q_nsh; auto.
  - intros r [<-|Hr] Hd; [destruct Rtb; congruence|]. destruct (in_dec Nat.eq_dec r cyc) as [Hc|Hc].
    { destruct (Rtc r Hc) as (E1 & _). congruence. }
    rewrite (Rt r Hr Hc) in *. destruct (q_des r Hr Hd) as (D1 & D2 & D3). rewrite (w_bpar _ _ _ _ _ _ _ _ _ _ W r Hr), (ab_rad _ _ A), (proj2 (memb_nIn _ _) Hc), E_rad by now apply in_ne.
    split; [assumption|]. split; [assumption|]. rewrite D3. unfold shrink_time. rewrite (w_shl _ _ _ _ _ _ _ _ _ _ W r Hr). destruct (shl (rg s) r) as [|v l] eqn:Es.
    + rewrite (ab_rad _ _ A), (proj2 (memb_nIn _ _) Hc), E_rad by now apply in_ne. reflexivity.
    + assert (Hv : In v (shl (rg s) r)) by (rewrite Es; now left). apply (g_shl _ _ _ _ _ _ _ HG r v Hr) in Hv as [Hv Ea]. unfold icp.
      destruct (Same v Hv) as [_ ->]; [|reflexivity]. destruct (ab_top _ _ A v r Hv Ea) as [-> _]. rewrite (root_none _ _ ch U r Hr D1), (proj2 (memb_nIn _ _) Hc).
      rewrite (g_top _ _ _ _ _ _ _ HG v r Hv Ea), (root_none _ _ ch U r Hr D1). intros E. injection E as ->. contradiction.
  - intros r [<-|Hr] Hbp Hs Hx.
    + exfalso. rewrite (ab_rad _ _ A), Mb, E_radb in Hs. destruct (zero_growing_ok (now (sc s))) as (_ & V2 & _). rewrite V2 in Hs. lia.
    + rewrite (w_bpar _ _ _ _ _ _ _ _ _ _ W r Hr) in Hbp. destruct (memb r cyc) eqn:M; [discriminate|]. rewrite (ab_rad _ _ A), M, E_rad in Hs by now apply in_ne. apply memb_nIn in M.
      rewrite (Rt r Hr M). apply q_shr; auto.
  - intros u x w o T Hin Ha Hu Hx. unfold wants. rewrite (ab_ntr _ _ A), E_ntr. destruct (nbr_bound G WF _ _ _ _ Hin) as [Hlu Hlx].
    assert (Ha' : appr s u x w = Some T).
    { rewrite <- Ha. symmetry. apply appr_ext; [apply Same; auto|]. intros v Ev. apply Same; auto. }
    exact (q_cov u x w o T Hin Ha' (fun H => H) (fun v Ev H => H)).
Qed.
End Blossom.

Section Create.
Variable G : graph.
Context {NI : ints}.
Hypothesis WF : wf_graph G.

(** [s'] has the blossom [b] around [cycle]. *)
Record blossomed (s s' : state) (ls : list nat) (b : nat) (cycle : list (nat * cedge)) (ch ch' : nat -> list nat) : Prop := {
  bl_fresh : ~ In b ls;
  bl_wrap : wrapped b (map fst cycle) ls (nd s) (nd s') (rg s) (rg s') ch ch' (rval (rg s') (now (sc s')));
  bl_chl : chl (rg s') b = cycle;
  bl_now : now (sc s') = now (sc s);
  bl_ma : ma s' = set_alt (ma s) b None;
  bl_tr : tr s' = tr s; bl_ta : ta s' = ta s;
  bl_val : forall R, In R ls -> rval (rg s') (now (sc s')) R = rval (rg s) (now (sc s)) R;
  bl_slb : sof s' b = 1;
  bl_sl : forall R, In R ls -> sof s' R = if memb R (map fst cycle) then 0 else sof s R }.

Lemma create_blossom_spec : forall ev {FI : fine NI G ev} s ls ch X cycle, Geo G ev s ls ch -> sched G ls nobody X s -> arena_ok (ra s) ls ->
  (forall q, In q (map fst cycle) -> In q ls /\ bpar (rg s) q = None) -> NoDup (map fst cycle) -> Nat.odd (length cycle) = true ->
  (forall i, (i < length cycle)%nat -> tgt G ev s ch (region_at cycle i) (region_at cycle (S i)) (edge_at cycle i)) ->
  (forall q, In q (map fst cycle) -> par_ok ev s ch q) -> (forall q, In q (map fst cycle) -> room G ev (nd s) ch q) ->
  ends (fun fuel => create_blossom G fuel NI s cycle) (fun x => exists ch', let (b, s') := x in
    blossomed s s' ls b cycle ch ch' /\ arena_ok (ra s') (b :: ls) /\ Geo G ev s' (b :: ls) ch' /\
    sched G (b :: ls) nobody (fun r => X r /\ ~ In r (map fst cycle)) s').
Proof.
  intros ev FI s ls ch X cycle HGeo HQ AO Hcyc Hnd Hodd Htight Hpar Hroom. unfold create_blossom, new_region. destruct (alloc (ra s)) as [b a'] eqn:Ea.
  destruct (arena_alloc _ _ _ _ AO Ea) as [AO' Hb].
  match goal with |- context[foldS _ _ ?x] => set (s3 := x) end.
  assert (E_rad : forall R, R <> b -> rad (rg s3) R = rad (rg s) R).
  { intros R HR. unfold s3. cbn [rg set_rg set_rad set_chl rad]. now rewrite !upd_other. }
  assert (E_chl : forall R, chl (rg s3) R = if (R =? b)%nat then cycle else chl (rg s) R).
  { intros R. unfold s3. cbn [rg set_rg set_rad set_chl chl]. unfold upd. now destruct (R =? b)%nat. }
  assert (E_radb : rad (rg s3) b = growing_varying_with_zero_distance_at_time (now (sc s))).
  { unfold s3. cbn [rg set_rg set_rad set_chl rad sc set_rtr now]. now rewrite upd_same. }
  assert (Lc : length (map fst cycle) = length cycle) by apply map_length. 
  eapply ends_bind; [apply (absorb_all G ev s ls ch HGeo b Hb cycle Hcyc Hnd Hroom s3); auto; try reflexivity|].
  intros s4 A.
  assert (G4 : Geo G ev s4 (b :: ls) (chw ch b cycle)).
  { eapply (absorbed_geo G WF ev s ls ch HGeo b Hb cycle Hcyc Hnd s3); eauto; try reflexivity; congruence. }
  assert (W4 : wrapped b (map fst cycle) ls (nd s) (nd s4) (rg s) (rg s4) ch (chw ch b cycle) (rval (rg s4) (now (sc s4)))).
  { eapply (absorbed_wrapped G s ls ch b Hb cycle Hcyc s3); eauto; try reflexivity. }
  assert (Q4 : sched G (b :: ls) (fun v => top (nd s4) v = Some b) (fun r => X r /\ ~ In r (map fst cycle)) s4).
  { eapply (absorbed_sched G WF ev s ls ch HGeo b Hb cycle Hcyc s3); eauto; try reflexivity. }
  eapply ends_bind; [apply (total_area_ends G ev (nd s4) (rg s4) (b :: ls) _ _ (proj1 G4) s4 b (or_introl eq_refl) eq_refl eq_refl)|].
  intros l Hl. apply ends_ok. exists (chw ch b cycle).
  assert (Hbb : bpar (rg s4) b = None) by exact (w_bparb _ _ _ _ _ _ _ _ _ _ W4).
  assert (Mb : memb b (map fst cycle) = false) by (apply memb_nIn; intros H; destruct (Hcyc b H); contradiction).
  assert (Sb : slp (rad (rg s4) b) = 1). { rewrite (ab_rad _ _ _ _ _ _ _ _ A), Mb, E_radb. apply (zero_growing_ok (now (sc s))). }
  assert (Hl2 : forall v, In v l -> (v < length G)%nat /\ nsl s4 v <> -1).
  { intros v Hv. apply Hl in Hv as [Hv Hi]. split; [assumption|].
    apply (area_top G ev s4 (b :: ls) _ G4 b v (or_introl eq_refl) Hbb Hv) in Hi. rewrite (nsl_top_slope G ev s4 (b :: ls) _ G4 v b Hv Hi). lia. }
  destruct (sched_reschedule_all G WF (b :: ls) _ l s4 _ Q4 (Geo_lrok G ev s4 _ _ G4) (Geo_ontime G WF ev s4 _ _ G4) Hl2) as [O Q5].
  assert (G5 : Geo G ev (reschedule_all G NI s4 l) (b :: ls) (chw ch b cycle)) by (eapply only_sc_Geo; eauto).
  split; [|split; [|split]].
  - destruct O as (q & Eq & O1 & O2 & O3). rewrite Eq. split; cbn [nd rg sc set_sc ma tr ta].
    + assumption.
    + rewrite O2. exact W4.
    + rewrite (ab_chl _ _ _ _ _ _ _ _ A), E_chl, Nat.eqb_refl. reflexivity.
    + rewrite O2, (ab_now _ _ _ _ _ _ _ _ A). reflexivity.
    + rewrite (ab_ma _ _ _ _ _ _ _ _ A). reflexivity.
    + rewrite (ab_tr _ _ _ _ _ _ _ _ A). reflexivity.
    + rewrite (ab_ta _ _ _ _ _ _ _ _ A). reflexivity.
    + intros R HR. rewrite O2. eapply (rval_new G ev s ls ch HGeo b Hb cycle s3); eauto; reflexivity.
    + exact Sb.
    + intros R HR. unfold sof. cbn [rg set_sc]. rewrite (ab_rad _ _ _ _ _ _ _ _ A). destruct (memb R (map fst cycle)).
      * apply (fz_ok G ev s ls ch HGeo R HR).
      * rewrite E_rad; [reflexivity|]. intros ->. contradiction.
  - destruct O as (q & Eq & _). rewrite Eq. cbn [ra set_sc]. rewrite (ab_ra _ _ _ _ _ _ _ _ A). exact AO'.
  - exact G5.
  - eapply sched_D; [exact Q5| | |exact WF]; [|auto]. intros v Hv [Ht Hn]. exfalso. apply Hn. apply Hl. split; [assumption|].
    now apply (area_top G ev s4 (b :: ls) _ G4 b v (or_introl eq_refl) Hbb Hv).
Qed.
End Create.
