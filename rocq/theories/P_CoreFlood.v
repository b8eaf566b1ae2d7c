(** Invariants of the decoder's core, part 6: regions reach nodes and leave them. *)
From Coq Require Import ZArith NArith List Bool Arith Lia Sorting.Sorted.
From Verif Require Import M_Base M_Varying M_Tracker M_Core S_Core S_Tree P_Sum P_Up P_Tree P_CoreGeo P_CoreSched P_CoreArea P_CoreRad P_CoreQueue.
Import ListNotations.
Local Open Scope Z_scope.

(** Nodes other than [v] are unchanged. *)
Definition off (n n' : nodesM) (v : nat) : Prop := forall x, x <> v ->
  arr n' x = arr n x /\ top n' x = top n x /\ wrp n' x = wrp n x /\ src n' x = src n x /\ crs n' x = crs n x /\ rar n' x = rar n x.

Section Off.
Variables (n n' : nodesM) (v : nat) (ch : nat -> list nat) (y : nat -> Z).
Hypothesis O : off n n' v.
Lemma off_chn : forall x, x <> v -> chn n' ch x = chn n ch x.
Proof. intros x H. unfold chn. now destruct (O x H) as [-> _]. Qed.
Lemma off_rho : forall x, x <> v -> rho n' ch y x = rho n ch y x.
Proof. intros x H. unfold rho. destruct (O x H) as (-> & _ & _ & _ & _ & ->). reflexivity. Qed.
Lemma off_Y : forall x, x <> v -> Yv n' ch y x = Yv n ch y x.
Proof. intros x H. unfold Yv. now rewrite off_chn. Qed.
Lemma off_phi : forall R x, x <> v -> phi n' ch y R (Some x) = phi n ch y R (Some x).
Proof. intros R x H. unfold phi. rewrite off_chn by assumption. destruct (O x H) as (-> & _ & _ & _ & _ & ->). reflexivity. Qed.
Lemma off_tightx : forall G ev k R Q e, ~ In v ev -> tightx G ev n ch y k R Q e -> tightx G ev n' ch y k R Q e.
Proof.
  intros G ev k R Q e Hv (s & s' & E1 & E2 & E3 & E4 & E5 & E6 & W). exists s, s'.
  assert (s <> v /\ s' <> v) as [N1 N2] by (split; intros ->; contradiction).
  rewrite !off_chn, !off_Y by assumption. repeat split; auto.
Qed.
Lemma off_tightB : forall G ev R e, ~ In v ev -> tightB G ev n ch y R e -> tightB G ev n' ch y R e.
Proof.
  intros G ev R e Hv (s & E1 & E2 & E3 & E4 & W). exists s.
  assert (N1 : s <> v) by (intros ->; contradiction).
  rewrite !off_chn, !off_Y by assumption. repeat split; auto.
Qed.
End Off.

Lemma geo_arrive : forall G ev n g ls y ch, wf_graph G -> geo G ev n g ls y ch ->
  forall r u v w o, In (Some v, w, o) (nbrs G u) -> arr n v = None -> top n u = Some r -> rho n ch y u = w ->
  forall n', off n n' v -> arr n' v = Some r -> top n' v = Some r -> wrp n' v = - y r -> src n' v = src n u ->
    crs n' v = N.lxor (crs n u) o -> rar n' v = y r ->
  geo G ev n' (set_shl g r (v :: shl g r)) ls y ch.
Proof.
  intros G ev n g ls y ch WF HG r u v w o Hin Av Tu Hw n' O A1 A2 A3 A4 A5 A6.
  destruct (nbr_bound G WF _ _ _ _ Hin) as [Hu Hv]. specialize (Hv v eq_refl).
  pose proof (g_up _ _ _ _ _ _ _ HG) as U. pose proof (g_emp _ _ _ _ _ _ _ HG v Hv Av) as Ev.
  assert (Hne : u <> v). { intros ->. destruct Ev as [Ev _]. congruence. }
  destruct (arr n u) as [Ru|] eqn:Au; [|destruct (g_emp _ _ _ _ _ _ _ HG u Hu Au); congruence].
  assert (HRu := g_arr _ _ _ _ _ _ _ HG u Ru Hu Au). rewrite (g_top _ _ _ _ _ _ _ HG u Ru Hu Au) in Tu. injection Tu as Er.
  destruct (root_spec _ _ ch U Ru HRu) as (Rin & Rls & Rb). rewrite Er in *.
  assert (Cr : ch r = [r]) by (rewrite (up_eq _ _ ch U r Rls), Rb; reflexivity).
  assert (Hvev : ~ In v ev). { intros Hi. destruct (g_ev _ _ _ _ _ _ _ HG v Hi) as (_ & R & E & _). congruence. }
  assert (Evne : forall s, In s ev -> s <> v) by (intros s Hs ->; contradiction).
  assert (Rr0 : root ch r = r) by exact (root_none _ _ ch U r Rls Rb).
  assert (Rhov : rho n' ch y v = 0) by (unfold rho; rewrite A1, A6, Cr; cbn [zsum]; lia).
  assert (Phiv : forall R, phi n' ch y R (Some v) = phi n ch y R (Some v)).
  { intros R. unfold phi, chn. rewrite A1, Av. cbn [same_opt]. rewrite Cr. destruct (Nat.eqb_spec r R) as [->|H]; [rewrite A6; reflexivity|].
    cbn [memb existsb]. destruct (Nat.eqb_spec R r); [congruence|]. reflexivity. }
  assert (Phi : forall R x, phi n' ch y R x = phi n ch y R x).
  { intros R [x|]; [|reflexivity]. destruct (Nat.eq_dec x v) as [->|Hx]; [apply Phiv|now apply (off_phi n n' v)]. }
  destruct HG. split; cbn [bpar btop rad chl shl set_shl]; auto.
  - intros p i Hp Hi. apply (off_tightx n n' v); auto.
  - intros R x HR. unfold upd. destruct (Nat.eqb_spec R r) as [->|HRr].
    + cbn [In]. rewrite (g_shl r x HR). destruct (Nat.eq_dec x v) as [->|Hx].
      * split; auto.
      * destruct (O x Hx) as [-> _]. split; [intros [E|E]; [congruence|assumption]|auto].
    + rewrite (g_shl R x HR). destruct (Nat.eq_dec x v) as [->|Hx].
      * rewrite A1, Av. split; intros [_ E]; [discriminate|congruence].
      * destruct (O x Hx) as [-> _]. reflexivity.
  - intros R HR. unfold upd. destruct (Nat.eqb_spec R r) as [->|HRr]; auto. constructor; auto.
    intros Hi. apply (g_shl r v HR) in Hi as [_ E]. congruence.
  - intros x R Hx. destruct (Nat.eq_dec x v) as [->|Hxv].
    + rewrite A1. intros E. injection E as <-. assumption.
    + destruct (O x Hxv) as [-> _]. now apply g_arr.
  - intros x R Hx. destruct (Nat.eq_dec x v) as [->|Hxv].
    + rewrite A1, A2. intros E. injection E as <-. now rewrite Rr0.
    + destruct (O x Hxv) as (-> & -> & _). now apply g_top.
  - intros x R Hx. destruct (Nat.eq_dec x v) as [->|Hxv].
    + rewrite A1, A3, Rhov. intros E. injection E as <-. rewrite Rr0. lia.
    + destruct (O x Hxv) as (-> & _ & -> & _). rewrite (off_rho n n' v) by assumption. now apply g_wrp.
  - intros x Hx. destruct (Nat.eq_dec x v) as [->|Hxv].
    + rewrite A1. discriminate.
    + destruct (O x Hxv) as (-> & -> & -> & -> & -> & ->). now apply g_emp.
  - intros s Hs. destruct (O s (Evne s Hs)) as (-> & _ & _ & -> & -> & ->). now apply g_ev.
  - intros R HR HC. destruct (g_leaf R HR HC) as (l & s & L1 & L2 & L3). unfold upd. destruct (Nat.eqb_spec R r) as [->|HRr].
    + exists (v :: l), s. rewrite L1. repeat split; auto. intros x [<-|Hx]; auto.
    + exists l, s. auto.
  - intros x R Hx. destruct (Nat.eq_dec x v) as [->|Hxv].
    + rewrite A1, A6. intros E. injection E as <-. specialize (g_y0 r Rls). lia.
    + destruct (O x Hxv) as (-> & _ & _ & _ & _ & ->). now apply g_rar.
  - assert (SS : forall l, ~ In v l -> StronglySorted (fun a b => rar n b <= rar n a) l -> StronglySorted (fun a b => rar n' b <= rar n' a) l).
    { clear - O. induction l as [|a l IH]; intros Hn Hs; constructor; apply StronglySorted_inv in Hs as [H1 H2].
      - apply IH; auto. intros Hi. apply Hn. now right.
      - rewrite Forall_forall in *. intros b Hb. assert (a <> v) by (intros ->; apply Hn; now left).
        assert (b <> v) by (intros ->; apply Hn; now right). destruct (O a H) as (_ & _ & _ & _ & _ & ->). destruct (O b H0) as (_ & _ & _ & _ & _ & ->). auto. }
    assert (NI : forall R, In R ls -> ~ In v (shl g R)) by (intros R HR Hi; apply (g_shl R v HR) in Hi as [_ E]; congruence).
    intros R HR. unfold upd. destruct (Nat.eqb_spec R r) as [->|HRr]; auto. constructor; auto.
    rewrite Forall_forall. intros x Hx. assert (x <> v) by (intros ->; eapply NI; eauto). destruct (O x H) as (_ & _ & _ & _ & _ & ->).
    rewrite A6. apply (g_shl r x HR) in Hx as [Hx Ex]. apply (g_rar x r Hx Ex).
  - intros x R Hx. destruct (Nat.eq_dec x v) as [->|Hxv].
    + rewrite A1. intros E. injection E as <-. destruct (g_walk u Ru Hu Au) as (s & S1 & S2 & S3 & S4).
      exists s. rewrite A4, S1, A5, Rhov. rewrite (off_chn n n' v), (off_Y n n' v) by auto. repeat split; auto.
      * destruct (g_ev s S2) as (Hs & Rs & Es & _). unfold chn in *. rewrite Es in *.
        assert (HRs := g_arr s Rs Hs Es). apply (up_trans _ _ ch U Rs Ru r HRs S3). exact Rin.
      * eapply walk_eq; [eapply walk_step; [exact S4|exact Hin]|lia|reflexivity].
    + destruct (O x Hxv) as (-> & _ & _ & -> & -> & _). intros Ex. destruct (g_walk x R Hx Ex) as (s & S1 & S2 & S3 & S4).
      exists s. rewrite (off_chn n n' v), (off_Y n n' v), (off_rho n n' v) by auto. auto.
  - intros a x w' o' Ha. erewrite zsum_ext; [eapply g_dual; exact Ha|]. intros R _. cbv beta. rewrite !Phi. reflexivity.
  - intros R HR. rewrite <- (g_evodd R HR). do 2 f_equal. apply filter_ext_in. intros s Hs. now rewrite (off_chn n n' v) by auto.
  - intros s s' R Hs Hs'. rewrite !(off_chn n n' v), !(off_Y n n' v) by auto. eauto.
Qed.

Lemma geo_leave : forall G ev n g ls y ch, geo G ev n g ls y ch ->
  forall r v rest, In r ls -> bpar g r = None -> shl g r = v :: rest -> rar n v = y r -> ~ (rest = [] /\ chl g r = []) ->
  forall n', off n n' v -> arr n' v = None -> top n' v = None -> wrp n' v = 0 -> src n' v = None -> crs n' v = 0%N -> rar n' v = 0 ->
  geo G ev n' (set_shl g r rest) ls y ch.
Proof.
  intros G ev n g ls y ch HG r v rest Hr Hb Hs Hrar Hnt n' O A1 A2 A3 A4 A5 A6.
  pose proof (g_up _ _ _ _ _ _ _ HG) as U.
  assert (Hv : (v < length G)%nat /\ arr n v = Some r) by (apply (g_shl _ _ _ _ _ _ _ HG r v Hr); rewrite Hs; now left). destruct Hv as [Hv Av].
  assert (Cr : ch r = [r]) by (rewrite (up_eq _ _ ch U r Hr), Hb; reflexivity).
  assert (Hvev : ~ In v ev).
  { intros Hi. destruct (g_ev _ _ _ _ _ _ _ HG v Hi) as (_ & R & E & E2 & _). rewrite Av in E. injection E as <-.
    destruct (g_leaf _ _ _ _ _ _ _ HG r Hr E2) as (l & s & L1 & L2 & L3). rewrite Hs in L1. destruct l as [|a l].
    - injection L1 as -> ->. apply Hnt. auto.
    - injection L1 as <- _. apply (L3 v); auto. now left. }
  assert (Evne : forall s, In s ev -> s <> v) by (intros s H ->; contradiction).
  assert (Phi : forall R x, phi n' ch y R x = phi n ch y R x).
  { intros R [x|]; [|reflexivity]. destruct (Nat.eq_dec x v) as [->|Hx]; [|now apply (off_phi n n' v)].
    unfold phi, chn. rewrite A1, Av. cbn [same_opt]. rewrite Cr. destruct (Nat.eqb_spec r R) as [->|H]; [rewrite Hrar; reflexivity|].
    cbn [memb existsb]. destruct (Nat.eqb_spec R r); [congruence|]. reflexivity. }
  assert (Hnv : ~ In v rest) by (pose proof (g_shnd _ _ _ _ _ _ _ HG r Hr) as N; rewrite Hs in N; now inversion N).
  destruct HG. split; cbn [bpar btop rad chl shl set_shl]; auto.
  - intros p i Hp Hi. apply (off_tightx n n' v); auto.
  - intros R x HR. unfold upd. destruct (Nat.eqb_spec R r) as [->|HRr].
    + destruct (Nat.eq_dec x v) as [->|Hx].
      * rewrite A1. split; [contradiction|intros [_ E]; discriminate].
      * destruct (O x Hx) as [-> _]. rewrite <- (g_shl r x HR), Hs. cbn [In]. split; [auto|intros [E|E]; [congruence|assumption]].
    + rewrite (g_shl R x HR). destruct (Nat.eq_dec x v) as [->|Hx].
      * rewrite A1, Av. split; intros [_ E]; [congruence|discriminate].
      * destruct (O x Hx) as [-> _]. reflexivity.
  - intros R HR. unfold upd. destruct (Nat.eqb_spec R r) as [->|HRr]; auto. specialize (g_shnd r HR). rewrite Hs in g_shnd. now inversion g_shnd.
  - intros x R Hx. destruct (Nat.eq_dec x v) as [->|Hxv]; [rewrite A1; discriminate|].
    destruct (O x Hxv) as [-> _]. now apply g_arr.
  - intros x R Hx. destruct (Nat.eq_dec x v) as [->|Hxv]; [rewrite A1; discriminate|].
    destruct (O x Hxv) as (-> & -> & _). now apply g_top.
  - intros x R Hx. destruct (Nat.eq_dec x v) as [->|Hxv]; [rewrite A1; discriminate|].
    destruct (O x Hxv) as (-> & _ & -> & _). rewrite (off_rho n n' v) by assumption. now apply g_wrp.
  - intros x Hx. destruct (Nat.eq_dec x v) as [->|Hxv]; [auto|].
    destruct (O x Hxv) as (-> & -> & -> & -> & -> & ->). now apply g_emp.
  - intros s H. destruct (O s (Evne s H)) as (-> & _ & _ & -> & -> & ->). now apply g_ev.
  - intros R HR HC. destruct (g_leaf R HR HC) as (l & s & L1 & L2 & L3). unfold upd. destruct (Nat.eqb_spec R r) as [->|HRr].
    + rewrite Hs in L1. destruct l as [|a l]; [injection L1 as -> ->; exfalso; apply Hnt; auto|]. injection L1 as <- L1.
      exists l, s. repeat split; auto. intros x Hx. apply L3. now right.
    + exists l, s. auto.
  - intros x R Hx. destruct (Nat.eq_dec x v) as [->|Hxv]; [rewrite A1; discriminate|].
    destruct (O x Hxv) as (-> & _ & _ & _ & _ & ->). now apply g_rar.
  - assert (SS : forall l, ~ In v l -> StronglySorted (fun a b => rar n b <= rar n a) l -> StronglySorted (fun a b => rar n' b <= rar n' a) l).
    { clear - O. induction l as [|a l IH]; intros Hn Hs; constructor; apply StronglySorted_inv in Hs as [H1 H2].
      - apply IH; auto. intros Hi. apply Hn. now right.
      - rewrite Forall_forall in *. intros b Hb. assert (a <> v) by (intros ->; apply Hn; now left).
        assert (b <> v) by (intros ->; apply Hn; now right). destruct (O a H) as (_ & _ & _ & _ & _ & ->). destruct (O b H0) as (_ & _ & _ & _ & _ & ->). auto. }
    intros R HR. unfold upd. destruct (Nat.eqb_spec R r) as [->|HRr].
    + apply SS; auto. specialize (g_sort r HR). rewrite Hs in g_sort. now apply StronglySorted_inv in g_sort.
    + apply SS; auto. intros Hi. apply (g_shl R v HR) in Hi as [_ E]. congruence.
  - intros x R Hx. destruct (Nat.eq_dec x v) as [->|Hxv]; [rewrite A1; discriminate|].
    destruct (O x Hxv) as (-> & _ & _ & -> & -> & _). intros Ex. destruct (g_walk x R Hx Ex) as (s & S1 & S2 & S3 & S4).
    exists s. rewrite (off_chn n n' v), (off_Y n n' v), (off_rho n n' v) by auto. auto.
  - intros a x w' o' Ha. erewrite zsum_ext; [eapply g_dual; exact Ha|]. intros R _. cbv beta. rewrite !Phi. reflexivity.
  - intros R HR. rewrite <- (g_evodd R HR). do 2 f_equal. apply filter_ext_in. intros s H. now rewrite (off_chn n n' v) by auto.
  - intros s s' R H H'. rewrite !(off_chn n n' v), !(off_Y n n' v) by auto. eauto.
Qed.

(** A new region at a new event. *)
Lemma geo_event : forall G ev n g ls y ch, wf_graph G -> geo G ev n g ls y ch ->
  forall r v, ~ In r ls -> ~ In v ev -> (v < length G)%nat -> arr n v = None ->
  (forall R, In R ls -> y R = 0) -> y r = 0 ->
  forall n' g' ch', off n n' v -> arr n' v = Some r -> top n' v = Some r -> wrp n' v = 0 -> src n' v = Some v ->
    crs n' v = crs n v -> rar n' v = 0 ->
    (forall R, R <> r -> bpar g' R = bpar g R /\ btop g' R = btop g R /\ chl g' R = chl g R /\ shl g' R = shl g R) ->
    bpar g' r = None -> btop g' r = Some r -> chl g' r = [] -> shl g' r = [v] ->
    (forall R, ch' R = if Nat.eqb R r then [r] else ch R) ->
  geo G (v :: ev) n' g' (r :: ls) y ch'.
Proof.
  intros G ev n g ls y ch WF HG r v Hr Hvev Hv Av Y0 Yr n' g' ch' O A1 A2 A3 A4 A5 A6 Og B1 B2 B3 B4 Hch.
  pose proof (g_up _ _ _ _ _ _ _ HG) as U. pose proof (g_emp _ _ _ _ _ _ _ HG v Hv Av) as (Tv & Wv & Sv & Cv & Rv).
  assert (ch'r : ch' r = [r]) by (rewrite Hch, Nat.eqb_refl; reflexivity).
  assert (ch'o : forall R, In R ls -> ch' R = ch R).
  { intros R HR. rewrite Hch. destruct (Nat.eqb_spec R r) as [->|]; [contradiction|reflexivity]. }
  assert (U' : up_ok (fun R => In R (r :: ls)) (bpar g') ch').
  { intros b Hb. destruct (Nat.eq_dec b r) as [->|Hne].
    - rewrite ch'r, B1. split; [reflexivity|discriminate].
    - destruct Hb as [Hb|Hb]; [congruence|]. destruct (Og b Hne) as (-> & _). destruct (U b Hb) as [E1 E2].
      rewrite (ch'o b Hb), E1. split.
      + destruct (bpar g b) as [q|] eqn:Eq; [|reflexivity]. rewrite (ch'o q); [reflexivity|auto].
      + intros q Eq. right. auto. }
  assert (root' : forall R, In R ls -> root ch' R = root ch R) by (intros R HR; unfold root; now rewrite ch'o).
  assert (rootr : root ch' r = r) by (unfold root; rewrite ch'r; reflexivity).
  assert (chn' : forall x, (x < length G)%nat -> x <> v -> chn n' ch' x = chn n ch x).
  { intros x Hx Hne. unfold chn. destruct (O x Hne) as [-> _]. destruct (arr n x) as [R|] eqn:E; [|reflexivity]. apply ch'o. exact (g_arr _ _ _ _ _ _ _ HG x R Hx E). }
  assert (chnv : chn n' ch' v = [r]) by (unfold chn; now rewrite A1).
  assert (Evne : forall s, In s ev -> s <> v) by (intros s H ->; contradiction).
  pose proof (ev_lt G _ _ _ _ _ _ HG) as Elt.
  assert (Yv' : forall x, (x < length G)%nat -> x <> v -> Yv n' ch' y x = Yv n ch y x) by (intros; unfold Yv; now rewrite chn').
  assert (Yvv : Yv n' ch' y v = 0) by (unfold Yv; rewrite chnv; cbn [zsum]; lia).
  assert (Y00 : forall x, (x < length G)%nat -> Yv n ch y x = 0).
  { intros x Hx. unfold Yv. apply zsum_0. intros R HR. apply Y0. eapply chn_incl; eauto. }
  assert (rho' : forall x, (x < length G)%nat -> x <> v -> rho n' ch' y x = rho n ch y x).
  { intros x Hx Hne. unfold rho. destruct (O x Hne) as (-> & _ & _ & _ & _ & ->). destruct (arr n x) as [R|] eqn:E; [|reflexivity].
    rewrite ch'o; [reflexivity|]. exact (g_arr _ _ _ _ _ _ _ HG x R Hx E). }
  assert (rhov : rho n' ch' y v = 0) by (unfold rho; rewrite A1, A6, ch'r; cbn [zsum]; lia).
  assert (rar0 : forall x R, (x < length G)%nat -> arr n x = Some R -> rar n x = 0).
  { intros x R Hx E. pose proof (g_rar _ _ _ _ _ _ _ HG x R Hx E). rewrite (Y0 R) in H by exact (g_arr _ _ _ _ _ _ _ HG x R Hx E). lia. }
  (* all potentials vanish *)
  assert (Phi0 : forall R x, In R (r :: ls) -> match x with Some z => (z < length G)%nat | None => True end -> phi n' ch' y R x = 0).
  { intros R x HR Hx. assert (Ey : y R = 0) by (destruct HR as [<-|HR]; auto). unfold phi. destruct x as [z|]; [|assumption].
    destruct (same_opt _ _) eqn:E.
    - apply same_opt_spec in E. destruct (Nat.eq_dec z v) as [->|Hne]; [assumption|]. destruct (O z Hne) as (E1 & _ & _ & _ & _ & ->).
      eapply rar0; eauto. now rewrite <- E1, E.
    - destruct (memb _ _); auto. }
  assert (Nr : forall R, In R ls -> R <> r) by (intros R HR ->; contradiction).
  destruct HG. split; auto.
  - constructor; auto.
  - intros p q Hp. destruct (Nat.eq_dec p r) as [->|Hne].
    + rewrite B3. split; [intros []|]. intros [Hq E]. destruct (Nat.eq_dec q r) as [->|Hq']; [congruence|].
      destruct Hq as [Hq|Hq]; [congruence|]. destruct (Og q Hq') as [Eq _]. rewrite Eq in E. exfalso. apply Hr. exact (proj2 (U q Hq) _ E).
    + destruct Hp as [Hp|Hp]; [congruence|]. destruct (Og p Hne) as (_ & _ & -> & _). rewrite (g_chl p q Hp). split.
      * intros [Hq E]. destruct (Og q (Nr q Hq)) as (-> & _). auto using in_cons.
      * intros [Hq E]. destruct (Nat.eq_dec q r) as [->|Hq']; [congruence|]. destruct Hq as [Hq|Hq]; [congruence|].
        destruct (Og q Hq') as (Eq & _). rewrite <- Eq. auto.
  - intros p Hp. destruct (Nat.eq_dec p r) as [->|Hne]; [rewrite B3; constructor|].
    destruct Hp as [Hp|Hp]; [congruence|]. destruct (Og p Hne) as (_ & _ & -> & _). auto.
  - intros p Hp. destruct (Nat.eq_dec p r) as [->|Hne]; [now left|].
    destruct Hp as [Hp|Hp]; [congruence|]. destruct (Og p Hne) as (_ & _ & -> & _). auto.
  - intros p i Hp. destruct (Nat.eq_dec p r) as [->|Hne]; [rewrite B3; cbn [length]; lia|].
    destruct Hp as [Hp|Hp]; [congruence|]. destruct (Og p Hne) as (_ & _ & -> & _). intros Hi.
    destruct (g_cyc p i Hp Hi) as (s & s' & E1 & E2 & E3 & E4 & E5 & E6 & W). exists s, s'.
    rewrite !chn', !Yv', (ch'o p Hp) by auto. repeat split; auto; now right.
  - intros R HR. destruct (Nat.eq_dec R r) as [->|Hne]; [now rewrite rootr|].
    destruct HR as [HR|HR]; [congruence|]. destruct (Og R Hne) as (_ & -> & _). rewrite root'; auto.
  - intros R [<-|HR]; [lia|auto].
  - intros R x HR. destruct (Nat.eq_dec R r) as [->|Hne].
    + rewrite B4. cbn [In]. destruct (Nat.eq_dec x v) as [->|Hx].
      * split; auto.
      * destruct (O x Hx) as [-> _]. split; [intros [E|[]]; congruence|]. intros [Hl E]. exfalso. apply Hr. eauto.
    + destruct HR as [HR|HR]; [congruence|]. destruct (Og R Hne) as (_ & _ & _ & ->). rewrite (g_shl R x HR).
      destruct (Nat.eq_dec x v) as [->|Hx].
      * rewrite A1, Av. split; intros [_ E]; [discriminate|congruence].
      * destruct (O x Hx) as [-> _]. reflexivity.
  - intros R HR. destruct (Nat.eq_dec R r) as [->|Hne].
    + rewrite B4. repeat constructor. intros [].
    + destruct HR as [HR|HR]; [congruence|]. destruct (Og R Hne) as (_ & _ & _ & ->). auto.
  - intros x R Hx. destruct (Nat.eq_dec x v) as [->|Hxv].
    + rewrite A1. intros E. injection E as <-. now left.
    + destruct (O x Hxv) as [-> _]. intros E. right. eauto.
  - intros x R Hx. destruct (Nat.eq_dec x v) as [->|Hxv].
    + rewrite A1, A2. intros E. injection E as <-. now rewrite rootr.
    + destruct (O x Hxv) as (-> & -> & _). intros E. rewrite root' by eauto. eauto.
  - intros x R Hx. destruct (Nat.eq_dec x v) as [->|Hxv].
    + rewrite A1, A3, rhov. intros E. injection E as <-. rewrite rootr. lia.
    + destruct (O x Hxv) as (-> & _ & -> & _). intros E. rewrite rho', root' by eauto. eauto.
  - intros x Hx. destruct (Nat.eq_dec x v) as [->|Hxv].
    + rewrite A1. discriminate.
    + destruct (O x Hxv) as (-> & -> & -> & -> & -> & ->). now apply g_emp.
  - intros s [<-|Hs].
    + split; [assumption|]. exists r. rewrite A1, A4, A6, A5, Cv. auto.
    + destruct (g_ev s Hs) as (Hl & R & E1 & E2 & E3 & E4 & E5). split; [assumption|].
      exists R. destruct (O s (Evne s Hs)) as (-> & _ & _ & -> & -> & ->). destruct (Og R) as (_ & _ & -> & _); auto.
      apply Nr. eauto.
  - constructor; auto.
  - intros R HR HC. destruct (Nat.eq_dec R r) as [->|Hne].
    + exists [], v. rewrite B4. repeat split; [now left|]. intros x [].
    + destruct HR as [HR|HR]; [congruence|]. destruct (Og R Hne) as (_ & _ & Ec & Es). rewrite Ec in HC. rewrite Es.
      destruct (g_leaf R HR HC) as (l & s & L1 & L2 & L3). exists l, s. repeat split; auto; [now right|].
      intros x Hx [<-|Hx']; [|eapply L3; eauto].
      assert (Hi : In v (shl g R)) by (rewrite L1; apply in_or_app; now left). apply (g_shl R v HR) in Hi as [_ E]. congruence.
  - intros x R Hx. destruct (Nat.eq_dec x v) as [->|Hxv].
    + rewrite A1, A6. intros E. injection E as <-. lia.
    + destruct (O x Hxv) as (-> & _ & _ & _ & _ & ->). now apply g_rar.
  - intros R HR. destruct (Nat.eq_dec R r) as [->|Hne].
    + rewrite B4. repeat constructor.
    + destruct HR as [HR|HR]; [congruence|]. destruct (Og R Hne) as (_ & _ & _ & ->).
      assert (Hall : forall x, In x (shl g R) -> rar n' x = 0).
      { intros x Hx. apply (g_shl R x HR) in Hx as [Hx E]. destruct (Nat.eq_dec x v) as [->|Hxv]; [assumption|].
        destruct (O x Hxv) as (_ & _ & _ & _ & _ & ->). eauto. }
      revert Hall. generalize (shl g R). induction l as [|a l IH]; intros Hall; constructor.
      * apply IH. intros x Hx. apply Hall. now right.
      * rewrite Forall_forall. intros b Hb. rewrite (Hall a), (Hall b) by (auto using in_eq, in_cons). lia.
  - intros x R Hx. destruct (Nat.eq_dec x v) as [->|Hxv].
    + rewrite A1. intros E. injection E as <-. exists v. rewrite A4, A5, Cv, chnv, Yvv, rhov. repeat split; [now left|now left|]. constructor.
    + destruct (O x Hxv) as (-> & _ & _ & -> & -> & _). intros Ex. destruct (g_walk x R Hx Ex) as (s & S1 & S2 & S3 & S4).
      exists s. rewrite chn', Yv', rho' by auto. repeat split; auto. now right.
  - intros a x w' o' Ha. destruct (nbr_bound G WF _ _ _ _ Ha) as [Hla Hlx]. rewrite zsum_0; [apply (wf_weight G WF _ _ _ _ Ha)|].
    intros R HR. rewrite !Phi0; auto. destruct x; auto.
  - intros R HR. cbn [filter]. rewrite chnv. destruct (Nat.eq_dec R r) as [->|Hne].
    + cbn [memb existsb]. rewrite Nat.eqb_refl. cbn [orb length].
      replace (filter _ ev) with (@nil nat); [reflexivity|]. symmetry.
      destruct (filter _ ev) as [|s l] eqn:E; [reflexivity|]. exfalso.
      assert (Hs : In s (s :: l)) by now left. rewrite <- E in Hs. apply filter_In in Hs as [Hs Hm]. apply memb_In in Hm.
      rewrite chn' in Hm by auto. apply Hr. unfold chn in Hm. destruct (arr n s) as [Q|] eqn:EQ; [|destruct Hm].
      exact (up_all_L _ _ ch U Q (g_arr s Q (Elt s Hs) EQ) r Hm).
    + destruct HR as [HR|HR]; [congruence|]. cbn [memb existsb]. destruct (Nat.eqb_spec R r); [congruence|]. cbn [orb].
      rewrite <- (g_evodd R HR). do 2 f_equal. apply filter_ext_in. intros s H. now rewrite chn' by auto.
  - intros s s' R Hs Hs' H1 H2. exists 0.
    assert (Y0' : forall z, In z (v :: ev) -> Yv n' ch' y z = 0).
    { intros z Hz. destruct (Nat.eq_dec z v) as [->|Hzv]; [assumption|]. destruct Hz as [Hz|Hz]; [congruence|]. rewrite Yv' by auto. auto. }
    rewrite !Y0' by assumption. reflexivity.
Qed.
