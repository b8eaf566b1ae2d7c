(** Invariants of the decoder's core, part 9: breaking up alternating trees. *)
From Coq Require Import ZArith NArith List Bool Arith Lia Permutation.
From Verif Require Import M_Base M_Varying M_Tracker M_Core S_Core S_Tree P_Sum P_Up P_Tree P_CoreGeo P_CoreSched P_CoreArea P_Ends P_CoreRad P_CoreHalt P_CoreQueue P_CoreFlood P_CoreStep P_CoreRoles.
Import ListNotations.
Local Open Scope Z_scope.

(** Speeds may change, but no radius and nothing else about regions and nodes. *)
Record calm (s s' : state) : Prop := {
  a_nd : nd s' = nd s; a_ra : ra s' = ra s; a_now : now (sc s') = now (sc s);
  a_bpar : bpar (rg s') = bpar (rg s); a_btop : btop (rg s') = btop (rg s); a_chl : chl (rg s') = chl (rg s); a_shl : shl (rg s') = shl (rg s);
  a_val : forall R, rval (rg s') (now (sc s)) R = rval (rg s) (now (sc s)) R }.
Lemma calm_refl : forall s, calm s s. Proof. now split. Qed.
Lemma calm_trans : forall a b c, calm a b -> calm b c -> calm a c.
Proof.
  intros a b c H K. destruct H as [h1 h2 h3 h4 h5 h6 h7 h8], K as [k1 k2 k3 k4 k5 k6 k7 k8]. split; try congruence.
Qed.
Lemma calm_Y : forall s s' ch x, calm s s' -> Yv (nd s') ch (rval (rg s') (now (sc s'))) x = Yv (nd s) ch (rval (rg s) (now (sc s))) x.
Proof. intros s s' ch x H. unfold Yv. rewrite (a_nd _ _ H), (a_now _ _ H). apply zsum_ext. intros R _. apply (a_val _ _ H). Qed.
Lemma calm_tgt : forall G ev s s' ch R Q e, calm s s' -> tgt G ev s ch R Q e -> tgt G ev s' ch R Q e.
Proof.
  intros G ev s s' ch R Q e H (p & p' & E1 & E2 & E3 & E4 & E5 & E6 & W). exists p, p'. rewrite !(calm_Y s s') by assumption. rewrite (a_nd _ _ H). repeat split; auto.
Qed.
Lemma calm_tbt : forall G ev s s' ch R e, calm s s' -> tbt G ev s ch R e -> tbt G ev s' ch R e.
Proof.
  intros G ev s s' ch R e H (p & E1 & E2 & E3 & E4 & W). exists p. rewrite !(calm_Y s s') by assumption. rewrite (a_nd _ _ H). repeat split; auto.
Qed.
Lemma calm_par_ok : forall ev s s' ch r, calm s s' -> par_ok ev s ch r -> par_ok ev s' ch r.
Proof. intros ev s s' ch r H P p Hp Hr. rewrite (calm_Y s s') by assumption. rewrite (a_now _ _ H). rewrite (a_nd _ _ H) in Hr. auto. Qed.

Lemma radded_calm : forall s r k s', radded s r k s' -> calm s s'.
Proof.
  intros s r k s' (d & q & -> & N1 & E1 & E2). split; try reflexivity; auto.
  intros R. unfold rval. cbn [rg set_sc set_rg rad set_rad]. unfold upd. destruct (Nat.eqb_spec R r) as [->|]; auto.
Qed.
Lemma radded_keep : forall s r k s', radded s r k s' -> ma s' = ma s /\ tr s' = tr s /\ ta s' = ta s /\ ra s' = ra s /\
  sof s' r = k /\ forall R, R <> r -> sof s' R = sof s R.
Proof.
  intros s r k s' (d & q & -> & N1 & E1 & E2). repeat split; auto.
  - unfold sof. cbn [rg set_sc set_rg rad set_rad]. now rewrite upd_same.
  - intros R H. unfold sof. cbn [rg set_sc set_rg rad set_rad]. now rewrite upd_other.
Qed.
Lemma sched_only : forall G ls D X s s', nd s' = nd s -> rg s' = rg s -> sc s' = sc s -> sched G ls D X s -> sched G ls D X s'.
Proof.
  intros G ls D X [n g m t a b q] [n' g' m' t' a' b' q'] E1 E2 E3 H. cbn in E1, E2, E3. subst.
  destruct H. split; auto.
Qed.
Lemma foldS_cons : forall A (f : state -> A -> outcome state) x l s, foldS f (x :: l) s = bindO (f s x) (foldS f l).
Proof.
  intros A f x l s. unfold foldS. cbn [fold_left bindO].
  assert (E : forall l m, (forall a : state, m <> Ok a) -> fold_left (fun o a => bindO o (fun s => f s a)) l m = m).
  { induction l0 as [|y l0 IH]; intros m Hm; [reflexivity|]. cbn [fold_left]. destruct m; try (apply IH; assumption). congruence. }
  destruct (f s x) as [s'| | |]; [reflexivity| | |]; apply E; discriminate.
Qed.
Lemma arena_remove : forall a ls r, arena_ok a ls -> In r ls -> exists ls', arena_ok (del a r) ls' /\ Permutation ls (r :: ls') /\ forall b, In b ls' <-> In b ls /\ b <> r.
Proof.
  intros a ls r H Hr. pose proof (arena_NoDup a ls H) as N. destruct (in_split _ _ Hr) as (l1 & l2 & ->). exists (l1 ++ l2). split; [|split].
  - eapply arena_del; [exact H|]. symmetry. apply Permutation_middle.
  - symmetry. apply Permutation_middle.
  - apply NoDup_remove in N as [_ N]. intros b. rewrite !in_app_iff in *. cbn [In]. split.
    + intros Hb. split; [tauto|]. intros ->. contradiction.
    + intros [[Hb|[Hb|Hb]] Hne]; auto. congruence.
Qed.

Section Shatter.
Variable G : graph.
Hypothesis WF : wf_graph G.
Variables (ev : list nat) (s0 : state) (ls : list nat) (ch : nat -> list nat) (al0 : list nat) (c0 : nat -> list nat) (X : nat -> Prop).
Context {NI : ints} {FI : fine NI G ev}.
Variable tg : nat -> nat -> cedge -> Prop.
Hypothesis H_str : tstr (fun x => In x al0) (tr s0) c0 tg.
Hypothesis H_in : forall x i, In x al0 -> inn (tr s0) x = Some i -> In i ls /\ bpar (rg s0) i = None.
Hypothesis H_out : forall x o, In x al0 -> out (tr s0) x = Some o -> In o ls /\ bpar (rg s0) o = None.
Hypothesis H_oinj : forall x y o, In x al0 -> In y al0 -> out (tr s0) x = Some o -> out (tr s0) y = Some o -> x = y.
Hypothesis H_dis : forall x y R, In x al0 -> In y al0 -> inn (tr s0) x = Some R -> out (tr s0) y = Some R -> False.
Let T0 := tr s0.

Record J (Z : nat -> Prop) (s : state) : Prop := {
  j_calm : calm s0 s;
  j_geo : Geo G ev s ls ch;
  j_q : sched G ls nobody X s;
  j_al : exists al, arena_ok (ta s) al /\ forall b, In b al <-> In b al0 /\ ~ Z b;
  j_tree : kid (tr s) = kid T0 /\ inn (tr s) = inn T0 /\ out (tr s) = out T0 /\ i2o (tr s) = i2o T0 /\ vis (tr s) = vis T0;
  j_par : forall b, In b al0 -> ~ Z b -> par (tr s) b = par T0 b /\ ped (tr s) b = ped T0 b;
  j_mat : forall b i o, In b al0 -> Z b -> inn T0 b = Some i -> out T0 b = Some o ->
     alt (ma s) i = None /\ alt (ma s) o = None /\ sof s i = 0 /\ sof s o = 0 /\ mreg (ma s) i = Some o /\ medge (ma s) i = i2o T0 b /\
     mreg (ma s) o = Some i /\ medge (ma s) o = rev_e (i2o T0 b);
  j_root : forall b o, In b al0 -> Z b -> out T0 b = Some o -> alt (ma s) o = None;
  j_alt : forall R, (forall b, In b al0 -> Z b -> inn T0 b <> Some R /\ out T0 b <> Some R) -> alt (ma s) R = alt (ma s0) R;
  j_rest : forall R, (forall b, In b al0 -> Z b -> inn T0 b <> None -> inn T0 b <> Some R /\ out T0 b <> Some R) ->
     mreg (ma s) R = mreg (ma s0) R /\ medge (ma s) R = medge (ma s0) R /\ sof s R = sof s0 R }.

Lemma J_ext : forall (Z Z' : nat -> Prop) s, J Z s -> (forall b, In b al0 -> (Z b <-> Z' b)) -> J Z' s.
Proof.
  intros Z Z' s H E. destruct H. split; auto.
  - destruct j_al0 as (al & A1 & A2). exists al. split; [assumption|]. intros b. rewrite A2. split; intros [H1 H2]; split; auto; intros H3; apply H2; now apply E.
  - intros b Hb Hz. apply j_par0; auto. intros H. apply Hz. now apply E.
  - intros b i o Hb Hz. apply j_mat0; auto. now apply E.
  - intros b o Hb Hz. apply j_root0; auto. now apply E.
  - intros R HR. apply j_alt0. intros b Hb Hz. apply HR; auto. now apply E.
  - intros R HR. apply j_rest0. intros b Hb Hz. apply HR; auto. now apply E.
Qed.

Lemma shatter_one_spec : forall Z s a, J Z s -> In a al0 -> ~ Z a -> ends (fun fuel => shatter_one G fuel NI s a) (J (fun b => Z b \/ b = a)).
Proof.
  intros Z s a HJ Ha Hz. pose proof (ts_out _ _ _ _ H_str a Ha) as (o & Ho). destruct (H_out a o Ha Ho) as [O1 O2].
  pose proof HJ as HJ'. destruct HJ as [Cm HGeo HQ (al & A1 & A2) (T1 & T2 & T3 & T4 & T5) Pr Mt Rt At Rs].
  assert (Hal : In a al) by (apply A2; auto). destruct (arena_remove _ _ _ A1 Hal) as (al' & B1 & _ & B2).
  assert (B3 : forall b, In b al' <-> In b al0 /\ ~ (Z b \/ b = a)) by (intros b; rewrite B2, A2; tauto).
  unfold shatter_one. rewrite T2. fold T0 in Ho. destruct (inn T0 a) as [i|] eqn:Ei.
  2:{ cbn [bindO]. rewrite T3, Ho. apply ends_ok. split; cbn [nd rg sc ta tr ma ra del_tree_node set_ta set_ma].
    - eapply calm_trans; [exact Cm|]. split; reflexivity.
    - exact HGeo.
    - eapply sched_only; [| | |exact HQ]; reflexivity.
    - exists al'. auto.
    - repeat split; auto.
    - intros b Hb Hn. apply Pr; tauto.
    - intros b i0 o0 Hb [Hzb| ->] E1 E2; [|congruence]. destruct (Mt b i0 o0 Hb Hzb E1 E2) as (M1 & M2 & M3). cbn [alt set_alt mreg medge].
      split; [|split; [|exact M3]]; unfold upd; [destruct (Nat.eqb_spec i0 o)|destruct (Nat.eqb_spec o0 o)]; auto.
    - intros b o0 Hb [Hzb| ->] E1; cbn [alt set_alt]; unfold upd; destruct (Nat.eqb_spec o0 o); eauto; congruence.
    - intros R HR. cbn [alt set_alt]. unfold upd. destruct (Nat.eqb_spec R o) as [->|]; [exfalso; apply (HR a); auto|]. apply At. intros b Hb Hzb. apply HR; auto.
    - intros R HR. apply Rs. intros b Hb Hzb. apply HR; auto. }
  destruct (H_in a i Ha Ei) as [I1 I2]. assert (Hio : i <> o) by (intros ->; exact (H_dis a a o Ha Ha Ei Ho)).
  cbn [out i2o set_tr tr set_parent]. rewrite T3, Ho. cbn [deref bindO]. rewrite T4.
  set (s2 := add_match (set_tr s (set_parent (tr s) a None cedge_null)) i o (i2o T0 a)).
  assert (HGeo2 : Geo G ev s2 ls ch) by exact HGeo.
  assert (HQ2 : sched G ls nobody X s2) by (eapply sched_only; [| | |exact HQ]; reflexivity).
  assert (I2' : bpar (rg s2) i = None) by (change (bpar (rg s) i = None); rewrite (a_bpar _ _ Cm); assumption).
  eapply ends_bind; [|].
  { eapply ends_bind; [exact (set_region_frozen_ends G WF ev s2 ls ch nobody X i HGeo2 HQ2 I1 I2')|].
    intros s3 (R3 & HGeo3 & HQ3). assert (O2' : bpar (rg s3) o = None) by (rewrite (a_bpar _ _ (radded_calm _ _ _ _ R3)); change (bpar (rg s) o = None); rewrite (a_bpar _ _ Cm); assumption).
    eapply ends_bind; [exact (set_region_frozen_ends G WF ev s3 ls ch _ _ o HGeo3 HQ3 O1 O2')|].
    intros s4 (R4 & HGeo4 & HQ4). apply ends_ok.
    instantiate (1 := fun s5 => exists s3 s4, radded s2 i 0 s3 /\ radded s3 o 0 s4 /\ Geo G ev s4 ls ch /\ sched G ls nobody X s4 /\ s5 = set_ma s4 (set_alt (set_alt (ma s4) i None) o None)).
    exists s3, s4. repeat (split; [solve [auto]|]). split; [|reflexivity]. eapply sched_D; [exact HQ4| | |exact WF]; [auto|]. intros r _ [[H _] _]. exact H. }
  intros s5 (s3 & s4 & R3 & R4 & HGeo4 & HQ4 & ->).
  destruct (radded_keep _ _ _ _ R3) as (K1 & K2 & K3 & K4 & K5 & K6). destruct (radded_keep _ _ _ _ R4) as (L1 & L2 & L3 & L4 & L5 & L6).
  cbn [out tr set_ma]. rewrite L2, K2. cbn [s2 tr add_match set_ma set_tr set_parent out]. rewrite T3, Ho. apply ends_ok.
  assert (EA : ma s4 = set_match (set_match (ma s) i (Some o) (i2o T0 a)) o (Some i) (rev_e (i2o T0 a))) by (rewrite L1, K1; reflexivity).
  assert (ET : tr s4 = set_parent (tr s) a None cedge_null) by (rewrite L2, K2; reflexivity).
  assert (ETa : ta s4 = ta s) by (rewrite L3, K3; reflexivity).
  assert (Sl : forall R, sof s4 R = if Nat.eqb R i || Nat.eqb R o then 0 else sof s R).
  { intros R. destruct (Nat.eqb_spec R o) as [->|H1]; [rewrite orb_true_r; assumption|]. rewrite L6 by assumption.
    destruct (Nat.eqb_spec R i) as [->|H2]; [assumption|]. cbn [orb]. rewrite K6 by assumption. reflexivity. }
  split; cbn [nd rg sc ta tr ma ra del_tree_node set_ta set_ma].
  - eapply calm_trans; [exact Cm|]. eapply calm_trans; [|eapply calm_trans; [exact (radded_calm _ _ _ _ R3)|]].
    + split; reflexivity.
    + destruct (radded_calm _ _ _ _ R4). split; auto.
  - exact HGeo4.
  - eapply sched_only; [| | |exact HQ4]; reflexivity.
  - exists al'. rewrite ETa. auto.
  - rewrite ET. repeat split; auto.
  - intros b Hb Hn. rewrite ET. cbn [par ped set_parent]. rewrite !upd_other by tauto. apply Pr; tauto.
  - intros b i0 o0 Hb Hzb E1 E2. rewrite EA. unfold sof. cbn [rg del_tree_node set_ta set_ma]. fold (sof s4 i0). fold (sof s4 o0). rewrite !Sl.
    cbn [alt set_alt set_match mreg medge]. unfold upd.
    destruct Hzb as [Hzb| ->].
    + assert (i0 <> i). { intros ->. apply Hz. rewrite (ts_inj _ _ _ _ H_str a b i); auto. }
      assert (o0 <> o). { intros ->. apply Hz. rewrite (H_oinj a b o); auto. }
      assert (i0 <> o) by (intros ->; eapply (H_dis b a); eauto). assert (o0 <> i) by (intros ->; eapply (H_dis a b); eauto).
      destruct (Nat.eqb_spec i0 i); [congruence|]. destruct (Nat.eqb_spec i0 o); [congruence|]. destruct (Nat.eqb_spec o0 i); [congruence|]. destruct (Nat.eqb_spec o0 o); [congruence|].
      cbn [orb]. apply Mt; auto.
    + rewrite Ei in E1. injection E1 as <-. rewrite Ho in E2. injection E2 as <-. rewrite !Nat.eqb_refl.
      destruct (Nat.eqb_spec i o); [congruence|]. destruct (Nat.eqb_spec o i); [congruence|]. cbn [orb]. repeat split; reflexivity.
  - intros b o0 Hb Hzb E1. rewrite EA. cbn [alt set_alt set_match]. unfold upd.
    destruct (Nat.eqb_spec o0 o); [reflexivity|]. destruct (Nat.eqb_spec o0 i); [reflexivity|]. destruct Hzb as [Hzb| ->]; [eauto|congruence].
  - intros R HR. rewrite EA. cbn [alt set_alt set_match]. destruct (HR a Ha (or_intror eq_refl)) as [N1 N2]. unfold upd.
    destruct (Nat.eqb_spec R o); [congruence|]. destruct (Nat.eqb_spec R i); [congruence|]. apply At. intros b Hb Hzb. apply HR; auto.
  - intros R HR. rewrite EA. unfold sof. cbn [rg del_tree_node set_ta set_ma]. fold (sof s4 R). rewrite Sl. cbn [mreg medge set_alt set_match].
    destruct (HR a Ha (or_intror eq_refl) ltac:(congruence)) as [N1 N2]. unfold upd.
    destruct (Nat.eqb_spec R o); [congruence|]. destruct (Nat.eqb_spec R i); [congruence|]. cbn [orb]. apply Rs. intros b Hb Hzb. apply HR; auto.
Qed.

Let U : up_ok (fun x => In x al0) (par (tr s0)) c0 := ts_up _ _ _ _ H_str.
Lemma desc_kids : forall a b, In a al0 -> In b al0 -> (In a (c0 b) <-> b = a \/ exists x, In x (kid T0 a) /\ In (fst x) (c0 b)).
Proof.
  intros a b Ha Hb. split.
  - intros H. destruct (Nat.eq_dec b a) as [E|Hne]; [now left|]. right. destruct (up_child _ _ c0 U b Hb a H Hne) as (r & R1 & R2 & R3).
    destruct (ts_par _ _ _ _ H_str r a R3 R1) as [K _]. exists (r, rev_e (ped T0 r)). auto.
  - intros [->|([r e] & K & H)]; [apply (up_self _ _ c0 U a Ha)|]. cbn [fst] in H.
    destruct (ts_kid _ _ _ _ H_str a r e Ha K) as (R1 & R2 & _).
    apply (up_trans _ _ c0 U b r a Hb H). rewrite (up_eq _ _ c0 U r R1), R2. right. apply (up_self _ _ c0 U a Ha).
Qed.

Lemma shatter_descendants_spec : forall fuel k s Z a, J Z s -> In a al0 -> (forall b, In b al0 -> In a (c0 b) -> ~ Z b) ->
  safe (shatter_descendants G fuel NI k s a) (J (fun b => Z b \/ In a (c0 b))).
Proof.
  intros fuel. induction k as [|k IH]; intros s Z a HJ Ha HZ; [exact I|]. cbn [shatter_descendants].
  assert (Fold : forall l, (forall x, In x l -> In x (kid T0 a)) -> NoDup (map fst l) -> forall s Z, J Z s ->
    (forall x b, In x l -> In b al0 -> In (fst x) (c0 b) -> ~ Z b) ->
    safe (foldS (fun s c => shatter_descendants G fuel NI k s (fst c)) l s) (J (fun b => Z b \/ exists x, In x l /\ In (fst x) (c0 b)))).
  { clear s Z HJ HZ. induction l as [|x l IHl]; intros Hl Hnd s Z HJ HZ.
    - cbn [foldS fold_left safe]. eapply J_ext; [exact HJ|]. intros b Hb. split; [auto|]. intros [H|(x & [] & _)]; assumption.
    - assert (Hx : In x (kid T0 a)) by (apply Hl; now left). destruct x as [r e]. destruct (ts_kid _ _ _ _ H_str a r e Ha Hx) as (R1 & R2 & _).
      cbn [map fst] in Hnd. inversion Hnd as [|? ? N1 N2]; subst.
      rewrite foldS_cons. cbn [fst]. eapply safe_bind; [apply (IH s Z r HJ R1); intros b Hb Hr; apply (HZ (r, e) b); auto using in_eq|].
      intros s' HJ'. eapply safe_impl; [apply (IHl (fun x Hx => Hl x (or_intror Hx)) N2 s' _ HJ')|].
      + intros [r' e'] b Hx' Hb Hr' [Hzb|Hrb].
        * apply (HZ (r', e') b); auto using in_cons.
        * cbn [fst] in Hr'. assert (In (r', e') (kid T0 a)) by (apply Hl; now right). destruct (ts_kid _ _ _ _ H_str a r' e' Ha H) as (R1' & R2' & _).
          rewrite (up_child_unique _ _ c0 U b r r' a Hb Hrb Hr' R2 R2') in N1. apply N1. apply (in_map fst) in Hx'. exact Hx'.
      + intros s'' HJ''. eapply J_ext; [exact HJ''|]. intros b Hb. split.
        * intros [[H|H]|(x & H1 & H2)]; [auto| |]; right; [exists (r, e)|exists x]; auto using in_eq, in_cons.
        * intros [H|(x & [<-|H1] & H2)]; auto. right. exists x. auto. }
  pose proof (j_tree _ _ HJ) as (T1 & _). rewrite T1.
  eapply safe_bind; [apply (Fold (kid T0 a) (fun x H => H) (ts_kidnd _ _ _ _ H_str a Ha) s Z HJ)|].
  - intros x b Hx Hb Hxb. apply HZ; auto. apply (desc_kids a b Ha Hb). right. exists x. auto.
  - intros s' HJ'. eapply safe_impl; [apply (shatter_one_spec _ s' a HJ' Ha)|].
    + intros [H|([r e] & H1 & H2)]; [apply (HZ a); auto; apply (up_self _ _ c0 U a Ha)|]. cbn [fst] in H2.
      destruct (ts_kid _ _ _ _ H_str a r e Ha H1) as (R1 & R2 & _).
      assert (E : r = a). { apply (up_antisym _ _ c0 U r a R1 Ha H2). rewrite (up_eq _ _ c0 U r R1), R2. right. apply (up_self _ _ c0 U a Ha). }
      subst r. pose proof (up_eq _ _ c0 U a Ha) as Ua. rewrite R2 in Ua. apply (f_equal (@length nat)) in Ua. cbn [length] in Ua. lia.
    + intros s'' HJ''. eapply J_ext; [exact HJ''|]. intros b Hb. rewrite (desc_kids a b Ha Hb). tauto.
Qed.

Lemma kid_deeper : forall a r e, In a al0 -> In (r, e) (kid T0 a) -> (length al0 - length (c0 r) < length al0 - length (c0 a))%nat.
Proof.
  intros a r e Ha H. destruct (ts_kid _ _ _ _ H_str a r e Ha H) as (R1 & R2 & _). pose proof (up_eq _ _ c0 U r R1) as E. rewrite R2 in E.
  assert (B : (length (c0 r) <= length al0)%nat).
  { apply NoDup_incl_length; [exact (up_NoDup _ _ c0 U r R1)|]. intros x Hx. exact (up_all_L _ _ c0 U r R1 x Hx). }
  apply (f_equal (@length nat)) in E. cbn [length] in E. lia.
Qed.

Lemma shatter_descendants_ends : forall (d : nat) s (Z : nat -> Prop) a, J Z s -> In a al0 -> (forall b, In b al0 -> In a (c0 b) -> ~ Z b) ->
  ends (fun f => shatter_descendants G f NI (f - d) s a) (J (fun b => Z b \/ In a (c0 b))).
Proof.
  assert (K : forall (n d : nat) s (Z : nat -> Prop) a, (length al0 - length (c0 a) < n)%nat -> J Z s -> In a al0 -> (forall b, In b al0 -> In a (c0 b) -> ~ Z b) ->
    stops (fun f => shatter_descendants G f NI (f - d) s a)).
  { induction n as [|n IH]; intros d s Z a Hn HJ Ha HZ; [lia|].
    eapply (stops_fix _ (fun f k => shatter_descendants G f NI k s a)); [intros f k; cbn [shatter_descendants]; reflexivity|]. cbv beta.
    pose proof (j_tree _ _ HJ) as (T1 & _). rewrite T1. fold T0.
    pose proof (ts_kidnd _ _ _ _ H_str a Ha) as Hnd. fold T0 in Hnd.
    assert (F : ends (fun f => foldS (fun s c => shatter_descendants G f NI (f - S d) s (fst c)) (kid T0 a) s) (J (fun b => Z b \/ exists x, In x (kid T0 a) /\ In (fst x) (c0 b)))).
    { apply (ends_foldS _ (fun f s c => shatter_descendants G f NI (f - S d) s (fst c)) (kid T0 a) (fun don => J (fun b => Z b \/ exists x, In x don /\ In (fst x) (c0 b)))).
      - eapply J_ext; [exact HJ|]. intros b Hb. split; [auto|]. intros [H|(x & [] & _)]; assumption.
      - intros don [r e] rest s1 E HJ1. cbn [fst].
        assert (Hx : In (r, e) (kid T0 a)) by (rewrite E; apply in_or_app; right; now left). destruct (ts_kid _ _ _ _ H_str a r e Ha Hx) as (R1 & R2 & _).
        assert (HZ1 : forall b, In b al0 -> In r (c0 b) -> ~ (Z b \/ exists x, In x don /\ In (fst x) (c0 b))).
        { intros b Hb Hr [Hzb|([r' e'] & Hx' & Hr')].
          - apply (HZ b Hb); [|assumption]. apply (desc_kids a b Ha Hb). right. exists (r, e). auto.
          - cbn [fst] in Hr'. assert (Hx2 : In (r', e') (kid T0 a)) by (rewrite E; apply in_or_app; now left). destruct (ts_kid _ _ _ _ H_str a r' e' Ha Hx2) as (R1' & R2' & _).
            rewrite E, map_app in Hnd. cbn [map fst] in Hnd. apply NoDup_remove in Hnd as [_ Hnd]. apply Hnd. apply in_or_app. left.
            rewrite (up_child_unique _ _ c0 U b r r' a Hb Hr Hr' R2 R2'). apply (in_map fst) in Hx'. exact Hx'. }
        split.
        + apply (IH (S d) s1 _ r) with (2 := HJ1); auto. pose proof (kid_deeper a r e Ha Hx). lia.
        + intros f. eapply safe_impl; [apply (shatter_descendants_spec f (f - S d) s1 _ r HJ1 R1 HZ1)|]. intros s2 HJ2. eapply J_ext; [exact HJ2|].
          intros b Hb. split.
          * intros [[H|(x & H1 & H2)]|H]; [now left| |]; right; [exists x|exists (r, e)]; rewrite in_app_iff; cbn [In fst]; auto.
          * intros [H|(x & H1 & H2)]; [auto|]. apply in_app_or in H1 as [H1|[<-|[]]]; [|auto]. left. right. exists x. auto. }
    eapply stops_bind; [exact (proj1 F)|exact (proj2 F)|]. intros s' HJ'. apply (shatter_one_spec _ s' a HJ' Ha).
    intros [H|([r e] & H1 & H2)]; [apply (HZ a); auto; apply (up_self _ _ c0 U a Ha)|]. cbn [fst] in H2.
    destruct (ts_kid _ _ _ _ H_str a r e Ha H1) as (R1 & R2 & _).
    assert (E : r = a). { apply (up_antisym _ _ c0 U r a R1 Ha H2). rewrite (up_eq _ _ c0 U r R1), R2. right. apply (up_self _ _ c0 U a Ha). }
    subst r. pose proof (up_eq _ _ c0 U a Ha) as Ua. rewrite R2 in Ua. apply (f_equal (@length nat)) in Ua. cbn [length] in Ua. lia. }
  intros d s Z a HJ Ha HZ. split; [eapply (K _ d s Z a (Nat.lt_succ_diag_r _)); eassumption|].
  intros f. now apply shatter_descendants_spec.
Qed.
End Shatter.
