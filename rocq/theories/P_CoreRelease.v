(** Invariants of the decoder's core, part 17: releasing the children of an empty blossom. *)
From Coq Require Import ZArith NArith List Bool Arith Lia Permutation Sorting.Sorted.
From Verif Require Import M_Base M_Varying M_Tracker M_Core S_Core S_Tree P_Sum P_Up P_Tree P_Tree2 P_CoreGeo P_CoreSched P_CoreArea P_CoreRad P_CoreQueue P_CoreShat P_CoreRoles P_CoreWrap P_CoreTops P_CoreBlossom P_Ends P_CoreHalt.
Import ListNotations.
Local Open Scope Z_scope.

Lemma sched_perm : forall G ls ls' D X s, Permutation ls ls' -> sched G ls D X s -> sched G ls' D X s.
Proof.
  intros G ls ls' D X s P H. assert (E : forall R, In R ls' -> In R ls) by (intros R; apply Permutation_in; now apply Permutation_sym).
  destruct H. split; auto. intros t r Hi Hd. eapply Permutation_in; eauto.
Qed.
Lemma Geo_perm : forall G ev s ls ls' ch, Permutation ls ls' -> Geo G ev s ls ch -> Geo G ev s ls' ch.
Proof.
  intros G ev s ls ls' ch P [H K]. split; [eapply geo_perm; eauto|]. assert (E : forall R, In R ls' -> In R ls) by (intros R; apply Permutation_in; now apply Permutation_sym).
  destruct K. split; auto.
Qed.

Section Release.
Variable G : graph.
Hypothesis WF : wf_graph G.
Variables (ev : list nat) (s : state) (b : nat) (ls : list nat) (ch : nat -> list nat).
Context {NI : ints} {FI : fine NI G ev}.
Hypothesis HGeo : Geo G ev s (b :: ls) ch.
Let HG := proj1 HGeo.
Let U : up_ok (fun R => In R (b :: ls)) (bpar (rg s)) ch := g_up _ _ _ _ _ _ _ HG.
Hypothesis Hbb : bpar (rg s) b = None.
Let y := rval (rg s) (now (sc s)).
Hypothesis Hyb : y b = 0.
Hypothesis Hshb : shl (rg s) b = [].
Hypothesis Hroom : room G ev (nd s) ch b.
Let cyc := map fst (chl (rg s) b).

Definition chr (R : nat) : list nat := filter (fun q => negb (q =? b)%nat) (ch R).
Definition bpr (R : nat) : option nat := if memb R cyc then None else bpar (rg s) R.

Lemma rel_b : ~ In b ls.
Proof. pose proof (g_nd _ _ _ _ _ _ _ HG) as N. inversion N. assumption. Qed.
Lemma rel_ne : forall R, In R ls -> R <> b. Proof. intros R H ->. now apply rel_b. Qed.
Lemma rel_cyc : forall R, In R cyc <-> In R ls /\ bpar (rg s) R = Some b.
Proof.
  intros R. unfold cyc. rewrite (g_chl _ _ _ _ _ _ _ HG b R (or_introl eq_refl)). split; intros [H1 H2]; (split; [|assumption]); [|now right].
  destruct H1 as [<-|]; [congruence|assumption].
Qed.
Lemma rel_chb : ch b = [b].
Proof. rewrite (up_eq _ _ ch U b (or_introl eq_refl)), Hbb. reflexivity. Qed.

Lemma rel_up : up_ok (fun R => In R ls) bpr chr.
Proof.
  intros R HR. pose proof (rel_ne R HR) as Hn. unfold chr at 1. rewrite (up_eq _ _ ch U R (or_intror HR)). cbn [filter]. rewrite (proj2 (Nat.eqb_neq _ _) Hn). cbn [negb].
  unfold bpr. destruct (memb R cyc) eqn:M.
  - apply memb_In, rel_cyc in M as [_ M]. rewrite M, rel_chb. cbn [filter]. rewrite Nat.eqb_refl. split; [reflexivity|discriminate].
  - destruct (bpar (rg s) R) as [q|] eqn:E.
    + split; [reflexivity|]. intros q' E'. injection E' as <-. destruct (proj2 (U R (or_intror HR)) q E) as [<-|Hq]; [|assumption].
      apply memb_nIn in M. exfalso. apply M. apply rel_cyc. auto.
    + split; [reflexivity|discriminate].
Qed.
Let U1 := rel_up.

Lemma rel_ch : forall R, In R ls -> ch R = chr R ++ (if memb (root chr R) cyc then [b] else []).
Proof.
  intros R HR. pattern R. apply (up_ind _ _ chr U1); [| |exact HR].
  - intros x Hx Hn. rewrite (root_none _ _ chr U1 x Hx Hn), (up_eq _ _ chr U1 x Hx), Hn, (up_eq _ _ ch U x (or_intror Hx)). unfold bpr in Hn. destruct (memb x cyc) eqn:M.
    + apply memb_In, rel_cyc in M as [_ M]. rewrite M, rel_chb. reflexivity.
    + rewrite Hn. reflexivity.
  - intros x q Hx Eq Hq IH. rewrite (root_step _ _ chr U1 x q Hx Eq), (up_eq _ _ chr U1 x Hx), Eq, (up_eq _ _ ch U x (or_intror Hx)). unfold bpr in Eq. destruct (memb x cyc); [discriminate|].
    rewrite Eq, IH. reflexivity.
Qed.
Lemma rel_In : forall R q, In R ls -> q <> b -> (In q (ch R) <-> In q (chr R)).
Proof.
  intros R q _ Hq. unfold chr. rewrite filter_In. split; [|tauto]. intros H. split; [assumption|]. rewrite (proj2 (Nat.eqb_neq _ _) Hq). reflexivity.
Qed.
Lemma rel_root : forall R c, In R ls -> In c cyc -> (In c (ch R) <-> root chr R = c).
Proof.
  intros R c HR Hc. apply rel_cyc in Hc as Hc'. destruct Hc' as [Hcl _]. rewrite (rel_In R c HR (rel_ne c Hcl)). split.
  - intros H. symmetry. apply (up_root_only _ _ chr U1 R c HR H). unfold bpr. now rewrite (proj2 (memb_In _ _) Hc).
  - intros <-. apply (root_spec _ _ chr U1 R HR).
Qed.

(** Some of the children are released. *)
Record released (don : list nat) (s' : state) : Prop := {
  re_ma : ma s' = ma s; re_tr : tr s' = tr s; re_ra : ra s' = ra s; re_ta : ta s' = ta s; re_sc : sc s' = sc s;
  re_arr : arr (nd s') = arr (nd s); re_src : src (nd s') = src (nd s); re_crs : crs (nd s') = crs (nd s); re_rar : rar (nd s') = rar (nd s);
  re_chl : chl (rg s') = chl (rg s); re_shl : shl (rg s') = shl (rg s); re_rad : rad (rg s') = rad (rg s);
  re_bpar : forall R, bpar (rg s') R = if memb R don then None else bpar (rg s) R;
  re_btop : forall R, In R ls -> btop (rg s') R = if memb (root chr R) don then Some (root chr R) else btop (rg s) R;
  re_top : forall v R, (v < length G)%nat -> arr (nd s) v = Some R ->
     top (nd s') v = (if memb (root chr R) don then Some (root chr R) else top (nd s) v) /\
     wrp (nd s') v = (if memb (root chr R) don then rho (nd s) ch y v - y (root chr R) else wrp (nd s) v);
  re_emp : forall v, (v < length G)%nat -> arr (nd s) v = None -> top (nd s') v = top (nd s) v /\ wrp (nd s') v = wrp (nd s) v }.

Lemma rel_arr : forall v R, (v < length G)%nat -> arr (nd s) v = Some R -> In R ls.
Proof.
  intros v R Hv E. destruct (g_arr _ _ _ _ _ _ _ HG v R Hv E) as [<-|]; [|assumption].
  assert (Hin : In v (shl (rg s) b)) by (apply (g_shl _ _ _ _ _ _ _ HG b v (or_introl eq_refl)); auto). rewrite Hshb in Hin. destruct Hin.
Qed.
Lemma rel_icpt : forall R, In R (b :: ls) -> bpar (rg s) R <> None -> y_intercept (rad (rg s) R) = y R.
Proof.
  intros R HR Hn. pose proof (s_vok _ _ _ _ _ _ (proj2 HGeo) R HR) as K. unfold y, rval. rewrite (vok_distance _ _ K), (s_frz _ _ _ _ _ _ (proj2 HGeo) R HR Hn). lia.
Qed.

Lemma rel_path : forall (bp0 : nat -> option nat) c, In c cyc -> (forall R, In R (b :: ls) -> R <> c -> ~ In R cyc -> bp0 R = bpar (rg s) R) -> forall d, In d (b :: ls) -> In c (ch d) ->
  exists la, upath bp0 d la c /\ ch d = la ++ [c; b] /\ forall R, In R la -> In R (b :: ls) /\ bpar (rg s) R <> None.
Proof.
  intros bp0 c Hc HB d Hd. apply rel_cyc in Hc as Hc'. destruct Hc' as [Hcl Hcb]. pattern d. apply (up_ind _ _ ch U); [| |exact Hd].
  - intros x Hx Hn Hin. exfalso. rewrite (up_eq _ _ ch U x Hx), Hn in Hin. destruct Hin as [->|[]]. congruence.
  - intros x q Hx Eq Hq IH Hin. destruct (Nat.eq_dec x c) as [->|Hne].
    + exists []. split; [reflexivity|]. split; [|intros R []]. rewrite (up_eq _ _ ch U c Hx), Hcb, rel_chb. reflexivity.
    + rewrite (up_eq _ _ ch U x Hx), Eq in *. destruct Hin as [|Hin]; [congruence|].
      assert (Nc : ~ In x cyc). { intros H. apply rel_cyc in H as [_ H]. assert (q = b) by congruence. subst q. rewrite rel_chb in Hin. destruct Hin as [E|[]]. apply (rel_ne c Hcl). congruence. }
      destruct (IH Hin) as (la & A1 & A2 & A3). exists (x :: la). split; [|split].
      * cbn [upath]. split; [reflexivity|]. split; [assumption|]. exists q. split; [|assumption]. rewrite HB; auto.
      * rewrite A2. reflexivity.
      * intros R [<-|HR]; [split; [assumption|congruence]|auto].
Qed.

Lemma release_step : forall don c rest s', cyc = don ++ c :: rest -> released don s' -> ends (fun fuel => clear_blossom_parent fuel NI s' c) (released (don ++ [c])).
Proof.
  intros don c rest s' Ec A. assert (Hc : In c cyc) by (rewrite Ec; apply in_or_app; right; now left). apply rel_cyc in Hc as Hc'. destruct Hc' as [Hcl Hcb].
  assert (Hdon : forall q, In q don -> In q cyc) by (intros q Hq; rewrite Ec; apply in_or_app; now left).
  unfold clear_blossom_parent. eapply ends_impl; [apply (set_tops_ends c false (fun v => rho (nd s) ch y v - y c) s' c None (fun R => In R (b :: ls)) (bpar (rg s)) ch U)|].
  - intros x d Hx. rewrite (re_chl _ _ A). apply (g_chl _ _ _ _ _ _ _ HG x d Hx).
  - intros x Hx. rewrite (re_chl _ _ A). apply (g_chnd _ _ _ _ _ _ _ HG x Hx).
  - now right.
  - rewrite (re_chl _ _ A). apply (Geo_acc _ _ _ _ _ HGeo). now right.
  - intros d v Hd Hcd Hv _. rewrite (re_shl _ _ A) in Hv. apply (g_shl _ _ _ _ _ _ _ HG d v Hd) in Hv as [Hv Ea]. cbn [nd set_rg rg bpar set_bpar rad rar]. split.
    + rewrite (re_src _ _ A). destruct (g_walk _ _ _ _ _ _ _ HG v d Hv Ea) as (z & -> & _). discriminate.
    + destruct (rel_path (upd (bpar (rg s')) c None) c Hc) with (d := d) as (la & P1 & P2 & P3); auto.
      { intros R HR H1 H2. rewrite upd_other by assumption. rewrite (re_bpar _ _ A). assert (M : memb R don = false) by (apply memb_nIn; auto). now rewrite M. }
      assert (Hm : room G ev (nd s) ch (root ch d)) by (rewrite <- (up_root_only _ _ ch U d b Hd); [exact Hroom|rewrite P2; apply in_or_app; right; right; now left|exact Hbb]).
      assert (Hmc : room G ev (nd s) ch (root ch c)).
      { rewrite <- (up_root_only _ _ ch U c b (or_intror Hcl)); [exact Hroom| |exact Hbb]. rewrite (up_eq _ _ ch U c (or_intror Hcl)), Hcb, rel_chb. right. now left. }
      exists d, la. rewrite (re_arr _ _ A), (re_rar _ _ A), (re_rad _ _ A). split; [assumption|]. split; [assumption|]. split; [|split].
      * unfold rho. rewrite Ea, P2, zsum_app. cbn [zsum]. rewrite Hyb.
        assert (E : zsum (fun R => y_intercept (rad (rg s) R)) la = zsum y la) by (apply zsum_ext; intros R HR; destruct (P3 R HR); now apply rel_icpt). rewrite E. lia.
      * intros l1 l2 El. apply (part_fits G ev s (b :: ls) ch HGeo NI _ d l1 (l2 ++ [c; b]) Hd Hm); [rewrite P2, El; now rewrite app_assoc|].
        intros R HR. destruct (P3 R); [rewrite El; apply in_or_app; now left|]. now apply rel_icpt.
      * apply (rho_fits G ev s (b :: ls) ch HGeo NI v (y c) c Hv (or_intror Hcl) Hmc); [intros d0 E0; rewrite Ea in E0; injection E0 as <-; exact Hm|]. split; [apply (g_y0 _ _ _ _ _ _ _ (proj1 HGeo)); now right|apply Z.le_refl].
  - cbv beta. intros s2 (ds & Hds & T). destruct T. cbn [ma tr ra ta sc nd rg set_rg bpar set_bpar rad chl shl btop arr src crs rar top wrp negb] in *.
    assert (Dd : forall R, In R ls -> memb R ds = (root chr R =? c)%nat).
    { intros R HR. apply eq_iff_eq_true. rewrite memb_In, Nat.eqb_eq, Hds, <- (rel_root R c HR Hc). split; [tauto|]. intros H. split; [now right|assumption]. }
    assert (Vl : forall v R, (v < length G)%nat -> arr (nd s) v = Some R -> memb v (flat_map (shl (rg s')) ds) = (root chr R =? c)%nat).
    { intros v R Hv Ea. pose proof (rel_arr v R Hv Ea) as HR. rewrite <- (Dd R HR). apply eq_iff_eq_true. rewrite !memb_In, in_flat_map, (re_shl _ _ A). split.
      - intros (d & H1 & H2). apply Hds in H1 as H1'. destruct H1' as [H1' _]. apply (g_shl _ _ _ _ _ _ _ HG d v H1') in H2 as [_ H2]. congruence.
      - intros H. exists R. split; [assumption|]. apply (g_shl _ _ _ _ _ _ _ HG R v (or_intror HR)). auto. }
    assert (Vn : forall v, (v < length G)%nat -> arr (nd s) v = None -> memb v (flat_map (shl (rg s')) ds) = false).
    { intros v Hv Ea. apply memb_nIn. rewrite in_flat_map, (re_shl _ _ A). intros (d & H1 & H2). apply Hds in H1 as [H1 H3].
      apply (g_shl _ _ _ _ _ _ _ HG d v H1) in H2 as [_ H2]. congruence. }
    destruct A. split.
    + rewrite t_ma. exact re_ma0. + rewrite t_tr. exact re_tr0. + rewrite t_ra. exact re_ra0. + rewrite t_ta. exact re_ta0. + rewrite t_sc. exact re_sc0.
    + rewrite t_arr. exact re_arr0. + rewrite t_src. exact re_src0. + rewrite t_crs. exact re_crs0. + rewrite t_rar. exact re_rar0.
    + rewrite t_chl. assumption. + rewrite t_shl. assumption. + rewrite t_rad. assumption.
    + intros R. rewrite t_bpar, memb_snoc. unfold upd. destruct (Nat.eqb_spec R c) as [->|]; [now rewrite orb_true_r|]. now rewrite orb_false_r.
    + intros R HR. rewrite t_btop, memb_snoc, (Dd R HR), (re_btop0 R HR). destruct (Nat.eqb_spec (root chr R) c) as [->|]; [now rewrite orb_true_r|]. now rewrite orb_false_r.
    + intros v R Hv Ea. rewrite t_top, t_wrp, memb_snoc, (Vl v R Hv Ea), andb_true_r. destruct (re_top0 v R Hv Ea) as [-> ->].
      destruct (Nat.eqb_spec (root chr R) c) as [->|]; [rewrite orb_true_r; auto|]. rewrite orb_false_r. auto.
    + intros v Hv Ea. rewrite t_top, t_wrp, (Vn v Hv Ea). cbn. apply re_emp0; auto.
Qed.

Lemma release_all : ends (fun fuel => foldS (clear_blossom_parent fuel NI) cyc s) (released cyc).
Proof.
  apply (ends_foldS _ (fun fuel => clear_blossom_parent fuel NI)).
  - split; auto.
  - intros don x rest s' E A. eapply release_step; eassumption.
Qed.

Lemma released_wrapped : forall s1, released cyc s1 -> wrapped b cyc ls (nd s1) (nd s) (rg s1) (rg s) chr ch y.
Proof.
  intros s1 A. split; auto using rel_b.
  - apply rel_ch.
  - apply rel_chb.
  - intros q Hq. rewrite (re_bpar _ _ A), (proj2 (memb_In _ _) Hq). apply rel_cyc in Hq. tauto.
  - symmetry. exact (re_arr _ _ A). - symmetry. exact (re_src _ _ A). - symmetry. exact (re_crs _ _ A). - symmetry. exact (re_rar _ _ A).
  - intros R HR. rewrite (re_bpar _ _ A). destruct (memb R cyc) eqn:M; [|reflexivity]. apply memb_In, rel_cyc in M. tauto.
  - intros R HR. rewrite (re_chl _ _ A). reflexivity.
  - intros R HR. rewrite (re_shl _ _ A). reflexivity.
Qed.
Lemma released_y : forall s1, released cyc s1 -> rval (rg s1) (now (sc s1)) = y.
Proof. intros s1 A. unfold y, rval. rewrite (re_rad _ _ A), (re_sc _ _ A). reflexivity. Qed.

Lemma released_up : forall s1, released cyc s1 -> up_ok (fun R => In R ls) (bpar (rg s1)) chr.
Proof.
  intros s1 A R HR. rewrite (re_bpar _ _ A). apply rel_up. assumption.
Qed.

Lemma released_geo : forall s1, released cyc s1 -> Geo G ev s1 ls chr.
Proof.
  intros s1 A. pose proof (released_wrapped s1 A) as W. pose proof (released_y s1 A) as Ey. pose proof (released_up s1 A) as Up.
  pose proof (ev_lt G _ _ _ _ _ _ HG) as EL.
  assert (AR : forall v R, (v < length G)%nat -> arr (nd s1) v = Some R -> In R ls) by (intros v R; rewrite (re_arr _ _ A); apply rel_arr).
  pose proof (wr_root b cyc ls _ _ _ _ chr ch _ W) as WR.
  split; [rewrite Ey|].
  - apply (geo_unwrap G ev b cyc ls _ _ _ _ chr ch y WF W HG Up).
    + intros v R Hv Ea. rewrite (re_arr _ _ A) in Ea. pose proof (rel_arr v R Hv Ea) as HR. destruct (re_top _ _ A v R Hv Ea) as [-> ->].
      rewrite <- (wr_rho G _ _ _ _ _ _ _ _ _ _ W AR v Hv). destruct (memb (root chr R) cyc) eqn:M; [auto|].
      rewrite (g_top _ _ _ _ _ _ _ HG v R Hv Ea), (g_wrp _ _ _ _ _ _ _ HG v R Hv Ea), (WR R HR), M. auto.
    + intros v Hv Ea. rewrite (re_arr _ _ A) in Ea. apply (re_emp _ _ A v Hv Ea).
    + intros R HR. rewrite (re_btop _ _ A R HR). destruct (memb (root chr R) cyc) eqn:M; [reflexivity|]. rewrite (g_btop _ _ _ _ _ _ _ HG R (or_intror HR)), (WR R HR), M. reflexivity.
  - destruct (proj2 HGeo). split; rewrite ?(re_rad _ _ A).
    + intros R HR. apply s_vok. now right.
    + intros R HR. rewrite (re_bpar _ _ A). destruct (memb R cyc); [congruence|]. apply s_frz. now right.
    + intros z R Hz Ea Hs. rewrite Ey, (re_sc _ _ A), <- (wr_Y G _ _ _ _ _ _ _ _ _ _ W AR z (EL z Hz)). rewrite (re_arr _ _ A) in Ea. pose proof (rel_arr z R (EL z Hz) Ea) as HR.
      apply (s_par z R Hz Ea). rewrite (WR R HR). destruct (memb (root chr R) cyc) eqn:M; [|assumption]. exfalso. apply Hs.
      apply memb_In, rel_cyc in M as [M1 M2]. apply s_frz; [now right|congruence].
Qed.

Hypothesis HQ : sched G (b :: ls) nobody (one b) s.
Hypothesis Hdb : has_desired (rtr (sc s) b) = false.

Lemma released_sched : forall s1, released cyc s1 -> sched G ls (fun v => exists q, In q cyc /\ top (nd s1) v = Some q) nobody s1.
Proof.
  intros s1 A. pose proof (released_wrapped s1 A) as W.
  assert (Same : forall v, (v < length G)%nat -> ~ (exists q, In q cyc /\ top (nd s1) v = Some q) -> top (nd s1) v = top (nd s) v /\ local_radius s1 v = local_radius s v).
  { intros v Hv Hn. unfold local_radius. rewrite (re_rad _ _ A). destruct (arr (nd s) v) as [R|] eqn:Ea.
    - destruct (re_top _ _ A v R Hv Ea) as [E1 E2]. destruct (memb (root chr R) cyc) eqn:M; [|rewrite E1, E2; auto].
      exfalso. apply Hn. exists (root chr R). split; [now apply memb_In|assumption].
    - destruct (re_emp _ _ A v Hv Ea) as [-> ->]. auto. }
  destruct HQ. split; rewrite ?(re_sc _ _ A); auto.
  - intros r Hr. apply q_rq. now right.
  - intros r Hr. apply q_rd. now right.
  - intros t r Hi Hd. destruct (q_live t r Hi Hd) as [<-|]; [congruence|assumption].
  - intros v Hv Hn Hw. unfold nsl. destruct (Same v Hv Hn) as [_ ->]. apply q_nsh; auto.
  - intros r Hr Hd. destruct (q_des r (or_intror Hr) Hd) as (D1 & D2 & D3). assert (Nc : ~ In r cyc) by (intros H; apply rel_cyc in H; destruct H; congruence).
    rewrite (re_bpar _ _ A), (proj2 (memb_nIn _ _) Nc), (re_rad _ _ A). split; [assumption|]. split; [assumption|]. rewrite D3. unfold shrink_time. rewrite (re_shl _ _ A), (re_rad _ _ A).
    destruct (shl (rg s) r) as [|v l] eqn:Es; [reflexivity|].
    assert (Hv : In v (shl (rg s) r)) by (rewrite Es; now left). apply (g_shl _ _ _ _ _ _ _ HG r v (or_intror Hr)) in Hv as [Hv Ea]. unfold icp.
    destruct (Same v Hv) as [_ ->]; [|reflexivity]. intros (q & Q1 & Q2). destruct (re_top _ _ A v r Hv Ea) as [E1 _].
    assert (Er : root chr r = r) by (apply (root_none _ _ chr U1 r Hr); unfold bpr; now rewrite (proj2 (memb_nIn _ _) Nc)). rewrite Er, (proj2 (memb_nIn _ _) Nc) in E1.
    rewrite E1, (g_top _ _ _ _ _ _ _ HG v r Hv Ea), (root_none _ _ ch U r (or_intror Hr) D1) in Q2. injection Q2 as <-. contradiction.
  - intros r Hr Hbp Hs _. rewrite (re_rad _ _ A) in Hs. rewrite (re_bpar _ _ A) in Hbp. destruct (memb r cyc) eqn:M.
    + apply memb_In, rel_cyc in M as [_ M]. rewrite (s_frz _ _ _ _ _ _ (proj2 HGeo) r (or_intror Hr)) in Hs by congruence. lia.
    + apply q_shr; auto; [now right|]. intros E. unfold one in E. subst r. now apply rel_b.
  - intros u x w o T Hin Ha Hu Hx. unfold wants. rewrite (re_sc _ _ A). destruct (nbr_bound G WF _ _ _ _ Hin) as [Hlu Hlx].
    assert (Ha' : appr s u x w = Some T).
    { rewrite <- Ha. symmetry. apply appr_ext; [apply Same; auto|]. intros v Ev. apply Same; auto. }
    exact (q_cov u x w o T Hin Ha' (fun H => H) (fun v Ev H => H)).
Qed.
End Release.
