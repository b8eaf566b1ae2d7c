(** Invariants of the decoder's core, part 12: wrapping regions into a blossom, and the converse. *)
From Coq Require Import ZArith NArith List Bool Arith Lia Permutation Sorting.Sorted.
From Verif Require Import M_Base M_Varying M_Tracker M_Core S_Core S_Tree P_Sum P_Up P_Tree P_CoreGeo.
Import ListNotations.
Local Open Scope Z_scope.

Lemma geo_perm : forall G ev n g ls ls' y ch, Permutation ls ls' -> geo G ev n g ls y ch -> geo G ev n g ls' y ch.
Proof.
  intros G ev n g ls ls' y ch P H. assert (E : forall R, In R ls' <-> In R ls) by (intros R; split; apply Permutation_in; auto using Permutation_sym).
  destruct H. split; auto; try (intros; repeat match goal with H : In _ ls' |- _ => apply E in H end; eauto; fail).
  - eapply Permutation_NoDup; eauto.
  - intros R HR. rewrite E in HR. destruct (g_up R HR) as [U1 U2]. split; [assumption|]. intros q Eq. apply E. auto.
  - intros p q Hp. apply E in Hp. rewrite E. auto.
  - intros v R Hv Ea. apply E. eauto.
  - intros u x w o Hin. erewrite <- zsum_perm by exact P. eauto.
Qed.

(** [n2], [g2], [ch2]: with the blossom [b] around the regions [cyc]; [n1], [g1], [ch1]: without. *)
Record wrapped (b : nat) (cyc : list nat) (ls : list nat) (n1 n2 : nodesM) (g1 g2 : regionsM) (ch1 ch2 : nat -> list nat) (y : nat -> Z) : Prop := {
  w_fresh : ~ In b ls;
  w_ch : forall R, In R ls -> ch2 R = ch1 R ++ (if memb (root ch1 R) cyc then [b] else []);
  w_chb : ch2 b = [b];
  w_yb : y b = 0;
  w_cyc : forall q, In q cyc -> In q ls /\ bpar g1 q = None;
  w_arr : arr n2 = arr n1; w_src : src n2 = src n1; w_crs : crs n2 = crs n1; w_rar : rar n2 = rar n1;
  w_bpar : forall R, In R ls -> bpar g2 R = if memb R cyc then Some b else bpar g1 R;
  w_bparb : bpar g2 b = None;
  w_chl : forall R, In R ls -> chl g2 R = chl g1 R;
  w_chlb : map fst (chl g2 b) = cyc;
  w_shl : forall R, In R ls -> shl g2 R = shl g1 R;
  w_shlb : shl g2 b = [] }.

Lemma filter_disj : forall (A : Type) (p q : A -> bool) l, (forall x, In x l -> p x = true -> q x = true -> False) ->
  length (filter (fun x => p x || q x) l) = (length (filter p l) + length (filter q l))%nat.
Proof.
  intros A p q l. induction l as [|x l IH]; intros H; [reflexivity|]. cbn [filter]. specialize (IH (fun z Hz => H z (or_intror Hz))).
  pose proof (H x (or_introl eq_refl)). destruct (p x), (q x); cbn [orb length]; try lia; exfalso; auto.
Qed.

Section Wrap.
Variable G : graph.
Variables (ev : list nat) (b : nat) (cyc : list nat) (ls : list nat) (n1 n2 : nodesM) (g1 g2 : regionsM) (ch1 ch2 : nat -> list nat) (y : nat -> Z).
Hypothesis W : wrapped b cyc ls n1 n2 g1 g2 ch1 ch2 y.
Hypothesis U : up_ok (fun R => In R ls) (bpar g1) ch1.
Hypothesis AR : forall v R, (v < length G)%nat -> arr n1 v = Some R -> In R ls.
Hypothesis EL : forall s, In s ev -> (s < length G)%nat.

Definition inb (v : nat) : bool := match arr n1 v with Some R => memb (root ch1 R) cyc | None => false end.

Lemma wr_ne : forall R, In R ls -> R <> b.
Proof. intros R H ->. exact (w_fresh _ _ _ _ _ _ _ _ _ _ W H). Qed.
Lemma wr_chn : forall v, (v < length G)%nat -> chn n2 ch2 v = chn n1 ch1 v ++ (if inb v then [b] else []).
Proof.
  intros v Hv. unfold chn, inb. rewrite (w_arr _ _ _ _ _ _ _ _ _ _ W). destruct (arr n1 v) as [R|] eqn:E; [|reflexivity].
  apply (w_ch _ _ _ _ _ _ _ _ _ _ W). eauto.
Qed.
Lemma wr_sum : forall R, In R ls -> zsum y (ch2 R) = zsum y (ch1 R).
Proof.
  intros R H. rewrite (w_ch _ _ _ _ _ _ _ _ _ _ W R H), zsum_app. destruct (memb _ _); simpl; rewrite ?(w_yb _ _ _ _ _ _ _ _ _ _ W); lia.
Qed.
Lemma wr_Y : forall v, (v < length G)%nat -> Yv n2 ch2 y v = Yv n1 ch1 y v.
Proof.
  intros v Hv. unfold Yv. rewrite wr_chn by assumption. rewrite zsum_app. destruct (inb v); simpl; rewrite ?(w_yb _ _ _ _ _ _ _ _ _ _ W); lia.
Qed.
Lemma wr_rho : forall v, (v < length G)%nat -> rho n2 ch2 y v = rho n1 ch1 y v.
Proof.
  intros v Hv. unfold rho. rewrite (w_arr _ _ _ _ _ _ _ _ _ _ W), (w_rar _ _ _ _ _ _ _ _ _ _ W). destruct (arr n1 v) as [R|] eqn:E; [|reflexivity].
  rewrite wr_sum; [reflexivity|eauto].
Qed.
Lemma wr_In : forall v R, (v < length G)%nat -> R <> b -> (In R (chn n2 ch2 v) <-> In R (chn n1 ch1 v)).
Proof.
  intros v R Hv Hne. rewrite wr_chn by assumption. rewrite in_app_iff. destruct (inb v); simpl; split; auto.
  - intros [H|[H|[]]]; congruence.
  - intros [H|[]]; assumption.
Qed.
Lemma wr_incl : forall v R, (v < length G)%nat -> In R (chn n1 ch1 v) -> In R ls.
Proof.
  intros v R Hv H. unfold chn in H. destruct (arr n1 v) as [Q|] eqn:E; [|destruct H]. eapply (up_all_L _ _ ch1 U Q); eauto.
Qed.
Lemma wr_b : forall v, (v < length G)%nat -> (In b (chn n2 ch2 v) <-> exists q, In q cyc /\ In q (chn n1 ch1 v)).
Proof.
  intros v Hv. rewrite wr_chn by assumption. rewrite in_app_iff. split.
  - intros [H|H].
    + exfalso. apply (w_fresh _ _ _ _ _ _ _ _ _ _ W). eapply wr_incl; eauto.
    + unfold inb in H. destruct (arr n1 v) as [R|] eqn:E; [|destruct H]. destruct (memb (root ch1 R) cyc) eqn:M; [|destruct H].
      apply memb_In in M. exists (root ch1 R). split; [assumption|]. unfold chn. rewrite E. apply (root_spec _ _ ch1 U R). eauto.
  - intros (q & H1 & H2). right. unfold inb. unfold chn in H2. destruct (arr n1 v) as [R|] eqn:E; [|destruct H2].
    destruct (w_cyc _ _ _ _ _ _ _ _ _ _ W q H1) as [H3 H4]. rewrite <- (up_root_only _ _ ch1 U R q (AR v R Hv E) H2 H4).
    rewrite (proj2 (memb_In q cyc) H1). now left.
Qed.
Lemma wr_inb : forall v, (v < length G)%nat -> memb b (chn n2 ch2 v) = inb v.
Proof.
  intros v Hv. destruct (inb v) eqn:E.
  - apply memb_In. rewrite wr_chn, E by assumption. apply in_or_app. right. now left.
  - apply memb_nIn. rewrite wr_chn, E, app_nil_r by assumption. intros H. apply (w_fresh _ _ _ _ _ _ _ _ _ _ W). eapply wr_incl; eauto.
Qed.
Lemma wr_phi : forall R x, In R ls -> match x with Some v => (v < length G)%nat | None => True end -> phi n2 ch2 y R x = phi n1 ch1 y R x.
Proof.
  intros R [v|] HR Hv; [|reflexivity]. unfold phi. rewrite (w_arr _ _ _ _ _ _ _ _ _ _ W), (w_rar _ _ _ _ _ _ _ _ _ _ W).
  destruct (same_opt (arr n1 v) (Some R)); [reflexivity|]. pose proof (wr_In v R Hv (wr_ne R HR)) as E.
  destruct (memb R (chn n1 ch1 v)) eqn:M.
  - apply memb_In, E, memb_In in M. now rewrite M.
  - apply memb_nIn in M. assert (M2 : memb R (chn n2 ch2 v) = false) by (apply memb_nIn; tauto). now rewrite M2.
Qed.
Lemma wr_phib : forall x, match x with Some v => (v < length G)%nat | None => True end -> phi n2 ch2 y b x = 0.
Proof.
  intros [v|] Hv; [|exact (w_yb _ _ _ _ _ _ _ _ _ _ W)]. unfold phi. rewrite (w_arr _ _ _ _ _ _ _ _ _ _ W).
  destruct (same_opt (arr n1 v) (Some b)) eqn:E.
  - apply same_opt_spec in E. exfalso. apply (w_fresh _ _ _ _ _ _ _ _ _ _ W). eauto.
  - rewrite (w_yb _ _ _ _ _ _ _ _ _ _ W). now destruct (memb _ _).
Qed.
Lemma wr_tightx : forall k R Q e, R <> b -> Q <> b -> (tightx G ev n2 ch2 y k R Q e <-> tightx G ev n1 ch1 y k R Q e).
Proof.
  intros k R Q e HR HQ. split; intros (s & s' & E1 & E2 & H1 & H2 & H3 & H4 & Hw); exists s, s'; pose proof (EL s H1) as L1; pose proof (EL s' H2) as L2;
    [rewrite !wr_Y in Hw by assumption; apply wr_In in H3, H4; auto|rewrite !wr_Y by assumption]; rewrite ?wr_In by assumption; auto 10.
Qed.
Lemma wr_tightB : forall R e, R <> b -> (tightB G ev n2 ch2 y R e <-> tightB G ev n1 ch1 y R e).
Proof.
  intros R e HR. split; intros (s & E1 & E2 & H1 & H3 & Hw); exists s; pose proof (EL s H1) as L1;
    [rewrite !wr_Y in Hw by assumption; apply wr_In in H3; auto|rewrite !wr_Y by assumption]; rewrite ?wr_In by assumption; auto 10.
Qed.
(** A connection to a region of the cycle is one to the blossom. *)
Lemma wr_tight_b : forall k R Q e, R <> b -> In Q cyc -> tightx G ev n1 ch1 y k R Q e -> tightx G ev n2 ch2 y k R b e.
Proof.
  intros k R Q e HR HQ (s & s' & E1 & E2 & H1 & H2 & H3 & H4 & Hw). exists s, s'. pose proof (EL s H1) as L1. pose proof (EL s' H2) as L2.
  rewrite !wr_Y, wr_In, wr_b by assumption. repeat split; auto. now exists Q.
Qed.
Lemma wr_b_tight : forall k R e, R <> b -> tightx G ev n2 ch2 y k R b e -> forall s', eto e = Some s' -> forall Q, In Q cyc -> In Q (chn n1 ch1 s') ->
  tightx G ev n1 ch1 y k R Q e.
Proof.
  intros k R e HR (s & s' & E1 & E2 & H1 & H2 & H3 & H4 & Hw) s'' Es Q HQ Hin. exists s, s'. pose proof (EL s H1) as L1. pose proof (EL s' H2) as L2.
  rewrite !wr_Y in Hw by assumption. apply wr_In in H3; auto. repeat split; auto. congruence.
Qed.
Lemma wr_root : forall R, In R ls -> root ch2 R = if memb (root ch1 R) cyc then b else root ch1 R.
Proof.
  intros R HR. unfold root at 1. rewrite (w_ch _ _ _ _ _ _ _ _ _ _ W R HR). destruct (memb (root ch1 R) cyc); [apply last_last|]. now rewrite app_nil_r.
Qed.
Lemma wr_rootb : root ch2 b = b.
Proof. unfold root. now rewrite (w_chb _ _ _ _ _ _ _ _ _ _ W). Qed.

(** The zero-radius blossom adds nothing to the dual sums. *)
Lemma wr_dual : wf_graph G -> forall u x w o, In (x, w, o) (nbrs G u) ->
  zsum (fun R => Z.abs (phi n2 ch2 y R (Some u) - phi n2 ch2 y R x)) (b :: ls) = zsum (fun R => Z.abs (phi n1 ch1 y R (Some u) - phi n1 ch1 y R x)) ls.
Proof.
  intros WF u x w o Hin. destruct (nbr_bound G WF u x w o Hin) as [Hu Hx]. assert (Hx' : match x with Some v => (v < length G)%nat | None => True end) by (destruct x; auto).
  cbn [zsum]. rewrite !wr_phib by assumption. rewrite Z.sub_diag, Z.abs_0, Z.add_0_l. apply zsum_ext. intros R HR. rewrite !wr_phi by assumption. reflexivity.
Qed.

Lemma up_wrap : up_ok (fun R => In R (b :: ls)) (bpar g2) ch2.
Proof.
  intros R [<-|HR].
  - rewrite (w_chb _ _ _ _ _ _ _ _ _ _ W), (w_bparb _ _ _ _ _ _ _ _ _ _ W). split; [reflexivity|discriminate].
  - rewrite (w_bpar _ _ _ _ _ _ _ _ _ _ W R HR), (w_ch _ _ _ _ _ _ _ _ _ _ W R HR). destruct (U R HR) as [U1 U2]. destruct (memb R cyc) eqn:M.
    + apply memb_In in M. destruct (w_cyc _ _ _ _ _ _ _ _ _ _ W R M) as [_ Hn]. rewrite (root_none _ _ ch1 U R HR Hn), (proj2 (memb_In _ _) M).
      rewrite U1, Hn, (w_chb _ _ _ _ _ _ _ _ _ _ W). split; [reflexivity|]. intros q E. injection E as <-. now left.
    + apply memb_nIn in M. destruct (bpar g1 R) as [q|] eqn:E.
      * assert (Hq : In q ls) by auto. rewrite U1, (w_ch _ _ _ _ _ _ _ _ _ _ W q Hq). rewrite (root_step _ _ ch1 U R q HR E). split; [reflexivity|].
        intros q' E'. injection E' as <-. now right.
      * rewrite U1, (root_none _ _ ch1 U R HR E). rewrite (proj2 (memb_nIn _ _) M). split; [reflexivity|discriminate].
Qed.

Lemma evodd_wrap : (forall R, In R ls -> Nat.odd (length (filter (fun s => memb R (chn n1 ch1 s)) ev)) = true) -> NoDup cyc ->
  Nat.odd (length (filter (fun s => memb b (chn n2 ch2 s)) ev)) = Nat.odd (length cyc).
Proof.
  intros HO HN. assert (E : filter (fun s => memb b (chn n2 ch2 s)) ev = filter (fun s => existsb (fun q => memb q (chn n1 ch1 s)) cyc) ev).
  { apply filter_ext_in. intros s Hs. apply eq_iff_eq_true. rewrite memb_In, (wr_b s (EL s Hs)), existsb_exists. split; intros (q & H1 & H2); exists q; (split; [assumption|]); now apply memb_In. }
  rewrite E. clear E. pose proof (w_cyc _ _ _ _ _ _ _ _ _ _ W) as HC. revert HN HC. clear W. induction cyc as [|q l IH]; intros HN HC.
  - cbn [existsb length]. clear. now induction ev.
  - inversion HN as [|? ? Hq Hl]; subst. cbn [existsb]. rewrite filter_disj.
    + rewrite Nat.odd_add, IH; [|assumption|intros z Hz; apply HC; now right]. rewrite HO by (apply HC; now left). cbn [length]. rewrite Nat.odd_succ, <- Nat.negb_odd. now destruct (Nat.odd (length l)).
    + intros s Hs H1 H2. apply memb_In in H1. apply existsb_exists in H2 as (q' & H2 & H3). apply memb_In in H3.
      destruct (HC q (or_introl eq_refl)) as [_ N1]. destruct (HC q' (or_intror H2)) as [_ N2]. unfold chn in H1, H3. destruct (arr n1 s) as [R|] eqn:ER; [|destruct H1].
      pose proof (AR s R (EL s Hs) ER) as HR. pose proof (up_root_only _ _ ch1 U R q HR H1 N1). pose proof (up_root_only _ _ ch1 U R q' HR H3 N2). congruence.
Qed.
End Wrap.

Lemma geo_wrap : forall G ev b cyc ls n1 n2 g1 g2 ch1 ch2 y, wf_graph G -> wrapped b cyc ls n1 n2 g1 g2 ch1 ch2 y -> geo G ev n1 g1 ls y ch1 ->
  (forall v R, (v < length G)%nat -> arr n1 v = Some R -> top n2 v = Some (root ch2 R) /\ wrp n2 v = rho n2 ch2 y v - y (root ch2 R)) ->
  (forall v, (v < length G)%nat -> arr n1 v = None -> top n2 v = top n1 v /\ wrp n2 v = wrp n1 v) ->
  (forall R, In R (b :: ls) -> btop g2 R = Some (root ch2 R)) ->
  NoDup cyc -> Nat.odd (length cyc) = true ->
  (forall i, (i < length (chl g2 b))%nat -> tightx G ev n1 ch1 y 0 (region_at (chl g2 b) i) (region_at (chl g2 b) (S i)) (edge_at (chl g2 b) i)) ->
  (exists t, forall q s, In q cyc -> In s ev -> In q (chn n1 ch1 s) -> Z.Even (Yv n1 ch1 y s + t)) ->
  geo G ev n2 g2 (b :: ls) y ch2.
Proof.
  intros G ev b cyc ls n1 n2 g1 g2 ch1 ch2 y WF W HG HT HE HB Hnd Hodd Htight (t & Hpar).
  pose proof (g_up _ _ _ _ _ _ _ HG) as U. pose proof (g_arr _ _ _ _ _ _ _ HG) as AR. pose proof (ev_lt G _ _ _ _ _ _ HG) as EL.
  assert (Lc : length (chl g2 b) = length cyc) by (rewrite <- (w_chlb _ _ _ _ _ _ _ _ _ _ W); now rewrite map_length).
  assert (NE : cyc <> []) by (intros ->; discriminate).
  assert (RA : forall i, In (region_at (chl g2 b) i) cyc).
  { intros i. rewrite <- (w_chlb _ _ _ _ _ _ _ _ _ _ W). unfold region_at. apply in_map. apply nth_In. apply Nat.mod_upper_bound. rewrite Lc. destruct cyc; simpl; congruence. }
  pose proof (wr_ne b cyc ls n1 n2 g1 g2 ch1 ch2 y W) as NB.
  split.
  - constructor; [exact (w_fresh _ _ _ _ _ _ _ _ _ _ W)|exact (g_nd _ _ _ _ _ _ _ HG)].
  - exact (up_wrap _ _ _ _ _ _ _ _ _ _ W U).
  - intros p q [<-|Hp].
    + rewrite (w_chlb _ _ _ _ _ _ _ _ _ _ W). split.
      * intros Hq. destruct (w_cyc _ _ _ _ _ _ _ _ _ _ W q Hq) as [H1 _]. split; [now right|]. rewrite (w_bpar _ _ _ _ _ _ _ _ _ _ W q H1), (proj2 (memb_In _ _) Hq). reflexivity.
      * intros [[<-|Hq] E]; [rewrite (w_bparb _ _ _ _ _ _ _ _ _ _ W) in E; discriminate|]. rewrite (w_bpar _ _ _ _ _ _ _ _ _ _ W q Hq) in E.
        destruct (memb q cyc) eqn:M; [now apply memb_In|]. exfalso. apply (w_fresh _ _ _ _ _ _ _ _ _ _ W). exact (proj2 (U q Hq) b E).
    + rewrite (w_chl _ _ _ _ _ _ _ _ _ _ W p Hp), (g_chl _ _ _ _ _ _ _ HG p q Hp). split.
      * intros [H1 H2]. split; [now right|]. rewrite (w_bpar _ _ _ _ _ _ _ _ _ _ W q H1). destruct (memb q cyc) eqn:M; [|assumption].
        apply memb_In in M. destruct (w_cyc _ _ _ _ _ _ _ _ _ _ W q M). congruence.
      * intros [[<-|Hq] E]; [rewrite (w_bparb _ _ _ _ _ _ _ _ _ _ W) in E; discriminate|]. rewrite (w_bpar _ _ _ _ _ _ _ _ _ _ W q Hq) in E.
        destruct (memb q cyc); [injection E as E; destruct (NB p Hp); congruence|auto].
  - intros p [<-|Hp]; [rewrite (w_chlb _ _ _ _ _ _ _ _ _ _ W); assumption|]. rewrite (w_chl _ _ _ _ _ _ _ _ _ _ W p Hp). apply (g_chnd _ _ _ _ _ _ _ HG p Hp).
  - intros p [<-|Hp]; [right; now rewrite Lc|]. rewrite (w_chl _ _ _ _ _ _ _ _ _ _ W p Hp). apply (g_odd _ _ _ _ _ _ _ HG p Hp).
  - intros p i [<-|Hp] Hi.
    + assert (F : forall i, region_at (chl g2 b) i <> b) by (intros j; apply NB; apply (w_cyc _ _ _ _ _ _ _ _ _ _ W), RA).
      apply (wr_tightx G ev _ _ _ _ _ _ _ _ _ _ W AR EL); auto. rewrite (w_chb _ _ _ _ _ _ _ _ _ _ W). cbn [zsum]. rewrite (w_yb _ _ _ _ _ _ _ _ _ _ W). auto.
    + rewrite (w_chl _ _ _ _ _ _ _ _ _ _ W p Hp) in *.
      assert (F : forall i, region_at (chl g1 p) i <> b).
      { intros j. apply NB. assert (Hj : In (region_at (chl g1 p) j) (map fst (chl g1 p))) by (unfold region_at; apply in_map, nth_In, Nat.mod_upper_bound; lia).
        apply (g_chl _ _ _ _ _ _ _ HG p _ Hp) in Hj. tauto. }
      apply (wr_tightx G ev _ _ _ _ _ _ _ _ _ _ W AR EL); auto. rewrite (wr_sum _ _ _ _ _ _ _ _ _ _ W p Hp). apply (g_cyc _ _ _ _ _ _ _ HG p i Hp Hi).
  - exact HB.
  - intros R [<-|HR]; [rewrite (w_yb _ _ _ _ _ _ _ _ _ _ W); lia|apply (g_y0 _ _ _ _ _ _ _ HG R HR)].
  - intros R v [<-|HR].
    + rewrite (w_shlb _ _ _ _ _ _ _ _ _ _ W), (w_arr _ _ _ _ _ _ _ _ _ _ W). split; [intros []|]. intros [Hv E]. exfalso. apply (w_fresh _ _ _ _ _ _ _ _ _ _ W). eauto.
    + rewrite (w_shl _ _ _ _ _ _ _ _ _ _ W R HR), (w_arr _ _ _ _ _ _ _ _ _ _ W). apply (g_shl _ _ _ _ _ _ _ HG R v HR).
  - intros R [<-|HR]; [rewrite (w_shlb _ _ _ _ _ _ _ _ _ _ W); constructor|]. rewrite (w_shl _ _ _ _ _ _ _ _ _ _ W R HR). apply (g_shnd _ _ _ _ _ _ _ HG R HR).
  - intros v R Hv E. rewrite (w_arr _ _ _ _ _ _ _ _ _ _ W) in E. right. eauto.
  - intros v R Hv E. rewrite (w_arr _ _ _ _ _ _ _ _ _ _ W) in E. apply HT; auto.
  - intros v R Hv E. rewrite (w_arr _ _ _ _ _ _ _ _ _ _ W) in E. apply HT; auto.
  - intros v Hv E. rewrite (w_arr _ _ _ _ _ _ _ _ _ _ W) in E. destruct (HE v Hv E) as [-> ->]. rewrite (w_src _ _ _ _ _ _ _ _ _ _ W), (w_crs _ _ _ _ _ _ _ _ _ _ W), (w_rar _ _ _ _ _ _ _ _ _ _ W).
    apply (g_emp _ _ _ _ _ _ _ HG v Hv E).
  - intros s Hs. destruct (g_ev _ _ _ _ _ _ _ HG s Hs) as (H1 & R & H2 & H3 & H4 & H5 & H6). split; [assumption|]. exists R.
    rewrite (w_arr _ _ _ _ _ _ _ _ _ _ W), (w_src _ _ _ _ _ _ _ _ _ _ W), (w_crs _ _ _ _ _ _ _ _ _ _ W), (w_rar _ _ _ _ _ _ _ _ _ _ W), (w_chl _ _ _ _ _ _ _ _ _ _ W R); eauto.
  - exact (g_evnd _ _ _ _ _ _ _ HG).
  - intros R [<-|HR] E.
    + exfalso. apply NE. rewrite <- (w_chlb _ _ _ _ _ _ _ _ _ _ W), E. reflexivity.
    + rewrite (w_shl _ _ _ _ _ _ _ _ _ _ W R HR). rewrite (w_chl _ _ _ _ _ _ _ _ _ _ W R HR) in E. apply (g_leaf _ _ _ _ _ _ _ HG R HR E).
  - intros v R Hv E. rewrite (w_arr _ _ _ _ _ _ _ _ _ _ W) in E. rewrite (w_rar _ _ _ _ _ _ _ _ _ _ W). apply (g_rar _ _ _ _ _ _ _ HG v R Hv E).
  - intros R [<-|HR]; [rewrite (w_shlb _ _ _ _ _ _ _ _ _ _ W); constructor|]. rewrite (w_shl _ _ _ _ _ _ _ _ _ _ W R HR), (w_rar _ _ _ _ _ _ _ _ _ _ W). apply (g_sort _ _ _ _ _ _ _ HG R HR).
  - intros v R Hv E. rewrite (w_arr _ _ _ _ _ _ _ _ _ _ W) in E. destruct (g_walk _ _ _ _ _ _ _ HG v R Hv E) as (s & H1 & H2 & H3 & H4). exists s.
    rewrite (w_src _ _ _ _ _ _ _ _ _ _ W), (w_crs _ _ _ _ _ _ _ _ _ _ W). rewrite (wr_Y G _ _ _ _ _ _ _ _ _ _ W AR), (wr_rho G _ _ _ _ _ _ _ _ _ _ W AR), (wr_In G _ _ _ _ _ _ _ _ _ _ W AR) by eauto. auto.
  - intros u x w o Hin. rewrite (wr_dual G _ _ _ _ _ _ _ _ _ _ W AR WF u x w o Hin). apply (g_dual _ _ _ _ _ _ _ HG u x w o Hin).
  - intros R [<-|HR].
    + rewrite (evodd_wrap G ev _ _ _ _ _ _ _ _ _ _ W U AR EL (g_evodd _ _ _ _ _ _ _ HG) Hnd). assumption.
    + rewrite (filter_ext_in _ (fun s => memb R (chn n1 ch1 s))); [apply (g_evodd _ _ _ _ _ _ _ HG R HR)|].
      intros s Hs. apply eq_iff_eq_true. rewrite !memb_In. apply (wr_In G _ _ _ _ _ _ _ _ _ _ W AR); auto.
  - intros s s' R Hs Hs' H1 H2. rewrite !(wr_Y G _ _ _ _ _ _ _ _ _ _ W AR) by auto. destruct (Nat.eq_dec R b) as [->|Hne].
    + apply (wr_b G _ _ _ _ _ _ _ _ _ _ W U AR) in H1, H2; auto. destruct H1 as (q & Q1 & Q2), H2 as (q' & Q1' & Q2').
      destruct (Hpar q s Q1 Hs Q2) as [k K]. destruct (Hpar q' s' Q1' Hs' Q2') as [k' K']. exists (k + k' - t). lia.
    + apply (wr_In G _ _ _ _ _ _ _ _ _ _ W AR) in H1, H2; auto. exact (g_par _ _ _ _ _ _ _ HG s s' R Hs Hs' H1 H2).
Qed.

Lemma geo_unwrap : forall G ev b cyc ls n1 n2 g1 g2 ch1 ch2 y, wf_graph G -> wrapped b cyc ls n1 n2 g1 g2 ch1 ch2 y -> geo G ev n2 g2 (b :: ls) y ch2 ->
  up_ok (fun R => In R ls) (bpar g1) ch1 ->
  (forall v R, (v < length G)%nat -> arr n1 v = Some R -> top n1 v = Some (root ch1 R) /\ wrp n1 v = rho n1 ch1 y v - y (root ch1 R)) ->
  (forall v, (v < length G)%nat -> arr n1 v = None -> top n1 v = top n2 v /\ wrp n1 v = wrp n2 v) ->
  (forall R, In R ls -> btop g1 R = Some (root ch1 R)) ->
  geo G ev n1 g1 ls y ch1.
Proof.
  intros G ev b cyc ls n1 n2 g1 g2 ch1 ch2 y WF W HG U HT HE HB.
  pose proof (ev_lt G _ _ _ _ _ _ HG) as EL.
  assert (AR : forall v R, (v < length G)%nat -> arr n1 v = Some R -> In R ls).
  { intros v R Hv E. pose proof (w_arr _ _ _ _ _ _ _ _ _ _ W) as EA. rewrite <- EA in E. destruct (g_arr _ _ _ _ _ _ _ HG v R Hv E) as [<-|]; [|assumption].
    assert (Hin : In v (shl g2 b)) by (apply (g_shl _ _ _ _ _ _ _ HG b v (or_introl eq_refl)); auto). rewrite (w_shlb _ _ _ _ _ _ _ _ _ _ W) in Hin. destruct Hin. }
  pose proof (wr_ne b cyc ls n1 n2 g1 g2 ch1 ch2 y W) as NB. pose proof (w_arr _ _ _ _ _ _ _ _ _ _ W) as EA.
  assert (ND : NoDup ls) by (pose proof (g_nd _ _ _ _ _ _ _ HG) as N; inversion N; assumption).
  assert (CL : forall p q, In p ls -> (In q (map fst (chl g1 p)) <-> In q ls /\ bpar g1 q = Some p)).
  { intros p q Hp. rewrite <- (w_chl _ _ _ _ _ _ _ _ _ _ W p Hp), (g_chl _ _ _ _ _ _ _ HG p q (or_intror Hp)). split.
    - intros [[<-|Hq] E]; [rewrite (w_bparb _ _ _ _ _ _ _ _ _ _ W) in E; discriminate|]. rewrite (w_bpar _ _ _ _ _ _ _ _ _ _ W q Hq) in E.
      destruct (memb q cyc); [injection E as E; destruct (NB p Hp); congruence|auto].
    - intros [Hq E]. split; [now right|]. rewrite (w_bpar _ _ _ _ _ _ _ _ _ _ W q Hq). destruct (memb q cyc) eqn:M; [|assumption].
      apply memb_In in M. destruct (w_cyc _ _ _ _ _ _ _ _ _ _ W q M). congruence. }
  split.
  - exact ND.
  - exact U.
  - exact CL.
  - intros p Hp. rewrite <- (w_chl _ _ _ _ _ _ _ _ _ _ W p Hp). apply (g_chnd _ _ _ _ _ _ _ HG p (or_intror Hp)).
  - intros p Hp. rewrite <- (w_chl _ _ _ _ _ _ _ _ _ _ W p Hp). apply (g_odd _ _ _ _ _ _ _ HG p (or_intror Hp)).
  - intros p i Hp Hi.
    assert (F : forall i, region_at (chl g1 p) i <> b).
    { intros j. apply NB. assert (Hj : In (region_at (chl g1 p) j) (map fst (chl g1 p))) by (unfold region_at; apply in_map, nth_In, Nat.mod_upper_bound; lia).
      apply (CL p _ Hp) in Hj. tauto. }
    apply (wr_tightx G ev _ _ _ _ _ _ _ _ _ _ W AR EL); auto. rewrite <- (wr_sum _ _ _ _ _ _ _ _ _ _ W p Hp). rewrite <- (w_chl _ _ _ _ _ _ _ _ _ _ W p Hp) in *.
    apply (g_cyc _ _ _ _ _ _ _ HG p i (or_intror Hp) Hi).
  - exact HB.
  - intros R HR. apply (g_y0 _ _ _ _ _ _ _ HG R (or_intror HR)).
  - intros R v HR. rewrite <- (w_shl _ _ _ _ _ _ _ _ _ _ W R HR), <- EA. apply (g_shl _ _ _ _ _ _ _ HG R v (or_intror HR)).
  - intros R HR. rewrite <- (w_shl _ _ _ _ _ _ _ _ _ _ W R HR). apply (g_shnd _ _ _ _ _ _ _ HG R (or_intror HR)).
  - exact AR.
  - intros v R Hv E. apply HT; auto.
  - intros v R Hv E. apply HT; auto.
  - intros v Hv E. destruct (HE v Hv E) as [-> ->]. rewrite <- (w_src _ _ _ _ _ _ _ _ _ _ W), <- (w_crs _ _ _ _ _ _ _ _ _ _ W), <- (w_rar _ _ _ _ _ _ _ _ _ _ W).
    rewrite <- EA in E. apply (g_emp _ _ _ _ _ _ _ HG v Hv E).
  - intros s Hs. destruct (g_ev _ _ _ _ _ _ _ HG s Hs) as (H1 & R & H2 & H3 & H4 & H5 & H6). split; [assumption|]. exists R. rewrite EA in H2.
    rewrite <- (w_src _ _ _ _ _ _ _ _ _ _ W), <- (w_crs _ _ _ _ _ _ _ _ _ _ W), <- (w_rar _ _ _ _ _ _ _ _ _ _ W), <- (w_chl _ _ _ _ _ _ _ _ _ _ W R); eauto.
  - exact (g_evnd _ _ _ _ _ _ _ HG).
  - intros R HR E. rewrite <- (w_shl _ _ _ _ _ _ _ _ _ _ W R HR). rewrite <- (w_chl _ _ _ _ _ _ _ _ _ _ W R HR) in E. apply (g_leaf _ _ _ _ _ _ _ HG R (or_intror HR) E).
  - intros v R Hv E. rewrite <- EA in E. rewrite <- (w_rar _ _ _ _ _ _ _ _ _ _ W). apply (g_rar _ _ _ _ _ _ _ HG v R Hv E).
  - intros R HR. rewrite <- (w_shl _ _ _ _ _ _ _ _ _ _ W R HR), <- (w_rar _ _ _ _ _ _ _ _ _ _ W). apply (g_sort _ _ _ _ _ _ _ HG R (or_intror HR)).
  - intros v R Hv E. pose proof (AR v R Hv E) as HR. rewrite <- EA in E. destruct (g_walk _ _ _ _ _ _ _ HG v R Hv E) as (s & H1 & H2 & H3 & H4). exists s.
    rewrite <- (w_src _ _ _ _ _ _ _ _ _ _ W), <- (w_crs _ _ _ _ _ _ _ _ _ _ W). rewrite (wr_Y G _ _ _ _ _ _ _ _ _ _ W AR), (wr_rho G _ _ _ _ _ _ _ _ _ _ W AR) in H4 by auto.
    rewrite (wr_In G _ _ _ _ _ _ _ _ _ _ W AR) in H3 by auto. auto.
  - intros u x w o Hin. rewrite <- (wr_dual G _ _ _ _ _ _ _ _ _ _ W AR WF u x w o Hin). apply (g_dual _ _ _ _ _ _ _ HG u x w o Hin).
  - intros R HR. rewrite (filter_ext_in _ (fun s => memb R (chn n2 ch2 s))); [apply (g_evodd _ _ _ _ _ _ _ HG R (or_intror HR))|].
    intros s Hs. apply eq_iff_eq_true. rewrite !memb_In. symmetry. apply (wr_In G _ _ _ _ _ _ _ _ _ _ W AR); auto.
  - intros s s' R Hs Hs' H1 H2. rewrite <- !(wr_Y G _ _ _ _ _ _ _ _ _ _ W AR) by auto.
    assert (R <> b) by (apply NB; apply (wr_incl G _ _ _ _ U AR s R (EL s Hs) H1)).
    apply (wr_In G _ _ _ _ _ _ _ _ _ _ W AR) in H1, H2; auto. exact (g_par _ _ _ _ _ _ _ HG s s' R Hs Hs' H1 H2).
Qed.
