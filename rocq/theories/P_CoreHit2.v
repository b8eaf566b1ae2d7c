(** Invariants of the decoder's core, part 11: a matched pair of regions joins a tree. *)
From Coq Require Import ZArith NArith List Bool Arith Lia Permutation.
From Verif Require Import M_Base M_Varying M_Tracker M_Core S_Core S_Tree P_Sum P_Up P_Tree P_Tree2 P_CoreGeo P_CoreSched P_CoreArea P_CoreRad P_CoreQueue P_CoreFlood P_CoreStep P_CoreRoles P_CoreShat P_CoreHit P_Ends P_CoreHalt P_CoreCount.
Import ListNotations.
Local Open Scope Z_scope.

Lemma NoDup_join : forall (X : Type) (l m : list X), NoDup l -> NoDup m -> (forall x, In x l -> ~ In x m) -> NoDup (l ++ m).
Proof.
  induction l as [|a l IH]; intros m Hl Hm Hd; simpl; [exact Hm|]. inversion Hl as [|? ? Ha Hl']; subst. constructor.
  - rewrite in_app_iff. intros [H|H]; [contradiction|]. apply (Hd a); [now left|assumption].
  - apply IH; auto. intros x Hx. apply Hd. now right.
Qed.

(** A new tree node below [p]. *)
Definition child_tree (T : treesM) (p x i o : nat) (e ce : cedge) : treesM :=
    mkT (upd (inn T) x (Some i)) (upd (out T) x (Some o)) (upd (i2o T) x e)
         (upd (upd (par T) x None) x (Some p)) (upd (upd (ped T) x cedge_null) x (rev_e ce))
         (upd (upd (kid T) x []) p (upd (kid T) x [] p ++ [(x, ce)])) (upd (vis T) x false).
Lemma tstr_child : forall (A : nat -> Prop) T c (tg : nat -> nat -> cedge -> Prop) p op x i o e ce, tstr A T c tg -> A p -> ~ A x -> out T p = Some op ->
  (forall b, A b -> inn T b <> Some i) -> tg i o e -> tg i op (rev_e ce) ->
  tstr (fun b => b = x \/ A b) (child_tree T p x i o e ce) (upd c x (x :: c p)) tg.
Proof.
  intros A T c tg p op x i o e ce H Ap Ax Ho Hni T1 T2. destruct H.
  assert (Ne : forall b, A b -> b <> x) by (intros b Hb ->; contradiction).
  assert (Npx : p <> x) by auto.
  assert (Kp : forall b e', In (b, e') (kid T p) -> b <> x) by (intros b e' Hin; apply Ne; apply (ts_kid p b e' Ap Hin)).
  unfold child_tree. split; cbn [inn out i2o par ped kid vis].
  - intros b Hb. destruct (Nat.eq_dec b x) as [->|Hbx].
    + rewrite !upd_same. split; [|intros q E; injection E as <-; now right]. now rewrite (upd_other _ c) by auto.
    + destruct Hb as [|Hb]; [contradiction|]. rewrite !upd_other by auto. destruct (ts_up b Hb) as [U1 U2]. split.
      * rewrite U1. destruct (par T b) as [q|] eqn:E; [|reflexivity]. rewrite upd_other; [reflexivity|]. apply Ne. auto.
      * intros q E. right. auto.
  - intros b q Hb E. destruct (Nat.eq_dec b x) as [->|Hbx].
    + rewrite !upd_same in E. injection E as <-. rewrite !upd_same. split.
      * rewrite rev_rev_e. apply in_or_app. right. now left.
      * exists i, o, op. repeat split; auto. now rewrite upd_other.
    + destruct Hb as [|Hb]; [contradiction|]. rewrite !upd_other in * by auto. destruct (ts_par b q Hb E) as (K1 & i' & o' & oq & K2 & K3 & K4 & K5 & K6).
      assert (Aq : A q) by exact (proj2 (ts_up b Hb) q E). split.
      * destruct (Nat.eq_dec q p) as [->|]; [rewrite upd_same; apply in_or_app; left; now rewrite upd_other|rewrite !upd_other by auto; assumption].
      * exists i', o', oq. rewrite !(upd_other _ _ x) by auto. repeat split; auto.
  - intros b Hb E. destruct (Nat.eq_dec b x) as [->|Hbx]; [rewrite !upd_same in E; discriminate|]. destruct Hb as [|Hb]; [contradiction|].
    rewrite !upd_other in * by auto. auto.
  - intros b Hb. destruct (Nat.eq_dec b x) as [->|Hbx]; [rewrite upd_same; eauto|]. destruct Hb as [|Hb]; [contradiction|]. rewrite upd_other by auto. auto.
  - intros a b e' Ha Hin. destruct (Nat.eq_dec a p) as [->|Hap].
    + rewrite upd_same in Hin. rewrite upd_other in Hin by auto. apply in_app_or in Hin as [Hin|[E|[]]].
      * destruct (ts_kid p b e' Ap Hin) as (K1 & K2 & K3). rewrite !upd_other by (apply Ne; auto). auto.
      * injection E as <- <-. rewrite !upd_same. auto.
    + rewrite (upd_other _ _ p) in Hin by auto. destruct (Nat.eq_dec a x) as [->|Hax]; [rewrite upd_same in Hin; destruct Hin|].
      rewrite upd_other in Hin by auto. destruct Ha as [|Ha]; [contradiction|]. destruct (ts_kid a b e' Ha Hin) as (K1 & K2 & K3).
      rewrite !upd_other by (apply Ne; auto). auto.
  - intros a Ha. destruct (Nat.eq_dec a p) as [->|Hap].
    + rewrite upd_same, upd_other by auto. rewrite map_app. apply NoDup_join; [auto|repeat constructor; intros []|].
      intros y Hy [<-|[]]. apply in_map_iff in Hy as ((b & e') & E & Hin). cbn in E. subst b. exact (Kp x e' Hin eq_refl).
    + rewrite (upd_other _ _ p) by auto. destruct (Nat.eq_dec a x) as [->|Hax]; [rewrite upd_same; constructor|]. destruct Ha as [|Ha]; [contradiction|].
      rewrite upd_other by auto. auto.
  - intros b b' i' Hb Hb' E E'. destruct (Nat.eq_dec b x) as [->|Hbx], (Nat.eq_dec b' x) as [->|Hbx']; auto.
    + rewrite upd_same in E. rewrite upd_other in E' by auto. injection E as <-. destruct Hb' as [|Hb']; [congruence|]. destruct (Hni b' Hb' E').
    + rewrite upd_same in E'. rewrite upd_other in E by auto. injection E' as <-. destruct Hb as [|Hb]; [congruence|]. destruct (Hni b Hb E).
    + rewrite upd_other in * by auto. destruct Hb as [|Hb], Hb' as [|Hb']; try congruence. eauto.
Qed.

Section Hit2.
Variable G : graph.
Hypothesis WF : wf_graph G.
Variables (ev : list nat) (ls : list nat) (ch : nat -> list nat).
Context {NI : ints} {FI : fine NI G ev}.
Notation Rl := (fun s al c M Lo => Roles G ev s ls ch al c M Lo).

(** The roles with respect to a tree that may differ from the state's. *)
Definition RolesT (s : state) (T : treesM) (al : list nat) (c : nat -> list nat) (M Lo : nat -> Prop) : Prop :=
  roles (tgt G ev s ch) (tbt G ev s ch) ls (bpar (rg s)) (sof s) (ma s) T (ta s) al c M Lo.
Definition unusedT (T : treesM) (al : list nat) (R : nat) : Prop := forall x, In x al -> inn T x <> Some R /\ out T x <> Some R.
Definition unused (s : state) := unusedT (tr s).

Lemma grow_stepT : forall s T al c M Lo D X p op i o e ce x s1, Geo G ev s ls ch -> sched G ls D X s -> RolesT s T al c M Lo ->
  In p al -> out T p = Some op -> In i ls -> In o ls -> bpar (rg s) i = None -> bpar (rg s) o = None -> i <> o ->
  unusedT T al i -> unusedT T al o -> Lo i -> Lo o ->
  (forall R Q, In R ls -> bpar (rg s) R = None -> ~ Lo R -> mated (tgt G ev s ch) (tbt G ev s ch) ls (bpar (rg s)) (sof s) (ma s) R -> mreg (ma s) R = Some Q -> Q <> i /\ Q <> o) ->
  tgt G ev s ch i o e -> tgt G ev s ch i op (rev_e ce) -> par_ok ev s ch i -> par_ok ev s ch o -> 
  make_child s p i o e ce = (x, s1) ->
  ends (fun fuel => set_region_shrinking fuel NI s1 i) (fun s2 => ends (fun fuel => set_region_growing G fuel NI s2 o) (fun s3 =>
    calm s s3 /\ Geo G ev s3 ls ch /\ sched G ls (fun v => D v /\ top (nd s) v <> Some i /\ top (nd s) v <> Some o) (fun r => X r /\ r <> i /\ r <> o) s3 /\
    ~ In x al /\ RolesT s3 (child_tree T p x i o e ce) (x :: al) (upd c x (x :: c p)) (fun b => M b /\ b <> x) (fun R => Lo R /\ R <> i /\ R <> o) /\
    tr s3 = child_tree (tr s) p x i o e ce /\
    mreg (ma s3) = mreg (ma s) /\ medge (ma s3) = medge (ma s) /\ sof s3 i = -1 /\ sof s3 o = 1 /\
    (forall R, R <> i -> R <> o -> alt (ma s3) R = alt (ma s) R /\ sof s3 R = sof s R))).
Proof.
  intros s T al c M Lo D X p op i o e ce x s1 HGeo HQ H Hp Hop Hi Ho Hbi Hbo Hio Ui Uo Li Loo Hmate T1 T2 Pi Po Emc.
  unfold make_child, new_tree_node in Emc. destruct (alloc (ta s)) as [x0 sl] eqn:Eal. cbn [tr ma] in Emc. injection Emc as Ex Es1. subst x0.
  destruct (arena_alloc _ _ _ _ (b_arena _ _ _ _ _ _ _ _ _ _ _ _ H) Eal) as [Ar Nx].
  assert (Cs : calm s s1) by (rewrite <- Es1; now split).
  assert (G1 : Geo G ev s1 ls ch) by (rewrite <- Es1; exact HGeo).
  assert (Q1 : sched G ls D X s1) by (eapply sched_only; [| | |exact HQ]; rewrite <- Es1; reflexivity).
  assert (Npx : p <> x) by (intros ->; contradiction).
  eapply ends_impl; [apply (set_region_shrinking_ends G WF ev s1 ls ch D X i G1 Q1 Hi)|].
  { rewrite (a_bpar _ _ Cs). assumption. } { eapply calm_par_ok; eassumption. } { rewrite (a_nd _ _ Cs). exact (tight_room G ev s ls ch HGeo _ _ i o e Hio Hbi Hbo T1). }
  cbv beta. intros s2 (Rd2 & G2 & Q2). destruct (radded_keep _ _ _ _ Rd2) as (K1 & K2 & K3 & K4 & K5 & K6).
  assert (C2 : calm s s2) by (eapply calm_trans; [exact Cs|apply (radded_calm _ _ _ _ Rd2)]).
  eapply ends_impl; [apply (set_region_growing_ends G WF ev s2 ls ch _ _ o G2 Q2 Ho)|].
  { rewrite (a_bpar _ _ C2). assumption. } { eapply calm_par_ok; eassumption. }
  cbv beta. intros s3 (Rd3 & G3 & Q3). destruct (radded_keep _ _ _ _ Rd3) as (V1 & V2 & V3 & V4 & V5 & V6).
  assert (C3 : calm s s3) by (eapply calm_trans; [exact C2|apply (radded_calm _ _ _ _ Rd3)]).
  assert (Et : tr s3 = tr s1) by congruence. assert (Em : ma s3 = ma s1) by congruence. assert (Eta : ta s3 = ta s1) by congruence.
  assert (Et' : tr s3 = child_tree (tr s) p x i o e ce) by (rewrite Et, <- Es1; reflexivity).
  assert (Si : sof s3 i = -1) by (rewrite (V6 i) by assumption; assumption).
  assert (Sr : forall R, R <> i -> R <> o -> sof s3 R = sof s R).
  { intros R A1 A2. rewrite (V6 R A2), (K6 R A1). rewrite <- Es1. reflexivity. }
  pose proof (b_str _ _ _ _ _ _ _ _ _ _ _ _ H) as ST. cbv beta in ST.
  assert (ST' : tstr (fun b => b = x \/ In b al) (child_tree T p x i o e ce) (upd c x (x :: c p)) (tgt G ev s ch)).
  { apply (tstr_child _ T c (tgt G ev s ch) p op x i o e ce ST Hp Nx Hop); auto. intros b Hb. now apply Ui. }
  assert (Alt : forall R, R <> i -> R <> o -> alt (ma s3) R = alt (ma s) R).
  { intros R A1 A2. rewrite Em, <- Es1. cbn [ma set_tr add_child set_alt alt]. rewrite !upd_other by assumption. reflexivity. }
  assert (Ai : alt (ma s3) i = Some x). { rewrite Em, <- Es1. cbn [ma set_tr add_child set_alt alt]. rewrite upd_other by assumption. now rewrite upd_same. }
  assert (Ao : alt (ma s3) o = Some x). { rewrite Em, <- Es1. cbn [ma set_tr add_child set_alt alt]. now rewrite upd_same. }
  set (T3 := child_tree T p x i o e ce) in *.
  assert (Tr : forall b, b <> x -> inn T3 b = inn T b /\ out T3 b = out T b /\ vis T3 b = vis T b).
  { intros b Hb. unfold T3, child_tree. cbn [inn out vis]. rewrite !upd_other by assumption. auto. }
  assert (Trx : inn T3 x = Some i /\ out T3 x = Some o /\ vis T3 x = false).
  { unfold T3, child_tree. cbn [inn out vis]. rewrite !upd_same. auto. }
  destruct Trx as (X2 & X3 & X7).
  split; [assumption|]. split; [assumption|]. split.
  { eapply sched_D; [exact Q3| | |exact WF].
    - intros v Hv [[Hd Hn1] Hn2]. rewrite (a_nd _ _ Cs) in Hn1. rewrite (a_nd _ _ C2) in Hn2. auto.
    - intros r _ [[Hr Hn1] Hn2]. auto. }
  split; [assumption|]. split; [|split; [assumption|]; split; [rewrite Em, <- Es1; reflexivity|]; split; [rewrite Em, <- Es1; reflexivity|]; split; [assumption|]; split; [assumption|]; auto].
  unfold RolesT in *. rewrite (a_bpar _ _ C3), Eta. pose proof (fun R Q e => calm_tgt G ev s s3 ch R Q e C3) as CT. pose proof (fun R e => calm_tbt G ev s s3 ch R e C3) as CB.
  destruct H. split.
  - rewrite <- Es1. exact Ar.
  - eapply tstr_weaken with (tg := tgt G ev s ch); [|auto]. destruct ST'. split; auto.
    + intros b Hb. destruct (ts_up b) as [U1 U2]; [destruct Hb; auto|]. split; [assumption|]. intros q E. destruct (U2 q E); [left|right]; auto.
    + intros b q Hb. apply ts_par. destruct Hb; auto.
    + intros b Hb. apply ts_root. destruct Hb; auto.
    + intros b Hb. apply ts_out. destruct Hb; auto.
    + intros a b e' Ha Hin. destruct (ts_kid a b e') as (A1 & A2 & A3); [destruct Ha; auto|assumption|]. split; [destruct A1; [left|right]; auto|auto].
    + intros a Ha. apply ts_kidnd. destruct Ha; auto.
    + intros b b' i' Hb Hb'. apply ts_inj; [destruct Hb|destruct Hb']; auto.
  - intros b [<-|Hb] Hn; [assumption|]. destruct (Nat.eq_dec b x) as [->|Hbx]; [contradiction|]. destruct (Tr b Hbx) as (_ & _ & ->). apply b_vis; auto.
  - intros b i' [<-|Hb] E.
    + rewrite X2 in E. injection E as <-. repeat split; auto.
    + assert (Hbx : b <> x) by (intros ->; contradiction). destruct (Tr b Hbx) as (E1 & _). rewrite E1 in E.
      destruct (b_inn b i' Hb E) as (I1 & I2 & I3 & I4). assert (i' <> i /\ i' <> o) as [N1 N2].
      { split; intros ->; [apply (proj1 (Ui b Hb) E)|apply (proj1 (Uo b Hb) E)]. }
      rewrite (Sr i' N1 N2), (Alt i' N1 N2). split; [assumption|]. split; [assumption|]. split; [assumption|]. intros Hn. apply I4. tauto.
  - intros b o' [<-|Hb] E.
    + rewrite X3 in E. injection E as <-. repeat split; auto. rewrite V5. lia.
    + assert (Hbx : b <> x) by (intros ->; contradiction). destruct (Tr b Hbx) as (_ & E1 & _). rewrite E1 in E.
      destruct (b_out b o' Hb E) as (I1 & I2 & I3 & I4 & I5). assert (o' <> i /\ o' <> o) as [N1 N2].
      { split; intros ->; [apply (proj2 (Ui b Hb) E)|apply (proj2 (Uo b Hb) E)]. }
      rewrite (Sr o' N1 N2), (Alt o' N1 N2). split; [assumption|]. split; [assumption|]. split; [|split; assumption]. intros Hn. apply I3. tauto.
  - intros R HR1 HR2 HR3. destruct (Nat.eq_dec R i) as [->|N1]; [left; exists x; split; [now left|assumption]|].
    destruct (Nat.eq_dec R o) as [->|N2]; [right; left; exists x; split; [now left|assumption]|].
    assert (NL : ~ Lo R) by (intros L; apply HR3; auto).
    destruct (b_reg R HR1 HR2 NL) as [(b & B1 & B2)|[(b & B1 & B2)|B]].
    + left. exists b. assert (Hbx : b <> x) by (intros ->; contradiction). destruct (Tr b Hbx) as (-> & _). split; [now right|assumption].
    + right; left. exists b. assert (Hbx : b <> x) by (intros ->; contradiction). destruct (Tr b Hbx) as (_ & -> & _). split; [now right|assumption].
    + right; right. pose proof (fun Q => Hmate R Q HR1 HR2 NL B) as HM. destruct B as (B1 & B2 & B3). unfold mated.
      assert (Emr : mreg (ma s3) = mreg (ma s)) by (rewrite Em, <- Es1; reflexivity). assert (Eme : medge (ma s3) = medge (ma s)) by (rewrite Em, <- Es1; reflexivity).
      rewrite Emr, Eme, (Sr R N1 N2), (Alt R N1 N2). split; [assumption|]. split; [assumption|].
      destruct (mreg (ma s) R) as [Q|]; [|auto]. destruct (HM Q eq_refl) as [M1 M2]. rewrite (Sr Q M1 M2). destruct B3 as (D0 & D1 & D2 & D3 & D4 & D5 & D6). repeat split; auto.
  - intros R HR1 HR2. rewrite Alt; [auto|congruence|congruence].
Qed.

(** A tight edge carries the right parity over. *)
Lemma tight_par : forall s R Q e, Geo G ev s ls ch -> tgt G ev s ch R Q e -> par_ok ev s ch R -> par_ok ev s ch Q.
Proof.
  intros s R Q e HGeo (u & v & E1 & E2 & H1 & H2 & H3 & H4 & W) Pr. apply (par_one G ev s ls ch HGeo Q v H2 H4).
  destruct (walk_even G WF _ _ _ _ W) as [k Hk]. destruct (Pr u H1 H3) as [j Hj]. exists (k - j + now (sc s)). lia.
Qed.

Lemma tree_hits_match_spec : forall s al c r1 r2 e, Core G ev ls ch s al c -> In r1 ls -> In r2 ls -> bpar (rg s) r1 = None -> bpar (rg s) r2 = None ->
  sof s r1 = 1 -> sof s r2 = 0 -> mreg (ma s) r2 <> None -> tgt G ev s ch r1 r2 e ->
  ends (fun fuel => tree_hits_match G fuel NI s r1 r2 e) (settled G ev ls ch s).
Proof.
  intros s al c r1 r2 e (HGeo & HQ & H) HR1 HR2 Hb1 Hb2 Hs1 Hs2 Hm Ht. unfold tree_hits_match.
  destruct (growing_outer _ _ _ _ _ _ _ _ _ _ _ _ H r1 HR1 Hb1 Hs1 (fun x => x)) as (a & Ha & Ho & Ea). rewrite Ea. cbn [deref bindO].
  destruct (frozen_mated _ _ _ _ _ _ _ _ _ _ _ _ H r2 HR2 Hb2 Hs2 (fun x => x)) as (F1 & F2 & F3).
  destruct (mreg (ma s) r2) as [o|] eqn:Emr; [|congruence]. cbn [deref bindO]. destruct F3 as (N & Lo & Bo & So & Mo & Meo & To).
  destruct (make_child s a r2 o (medge (ma s) r2) e) as [x s1] eqn:Emc.
  assert (Em1 : mreg (ma s1) = mreg (ma s)).
  { unfold make_child, new_tree_node in Emc. destruct (alloc (ta s)). injection Emc as <- <-. reflexivity. }
  rewrite Em1, Emr. cbn [deref bindO]. set (s2 := set_ma s1 _).
  set (s0 := set_ma s (set_match (set_match (ma s) o None cedge_null) r2 None cedge_null)).
  assert (Emc0 : make_child s0 a r2 o (medge (ma s) r2) e = (x, s2)).
  { unfold s2, s0. unfold make_child, new_tree_node in *. cbn [ta set_ma]. destruct (alloc (ta s)) as [x0 sl]. injection Emc as <- <-. reflexivity. }
  assert (C0 : calm s s0) by now split.
  assert (Q0 : sched G ls nobody nobody s0) by (eapply sched_only; [| | |exact HQ]; reflexivity).
  assert (Unused : forall R, In R ls -> sof s R = 0 -> unused s al R).
  { intros R _ E0 b Hb. split; intros E.
    - destruct (b_inn _ _ _ _ _ _ _ _ _ _ _ _ H b R Hb E) as (_ & _ & E' & _). lia.
    - destruct (b_out _ _ _ _ _ _ _ _ _ _ _ _ H b R Hb E) as (_ & _ & E' & _). specialize (E' (fun x => x)). lia. }
  assert (H0 : Rl s0 al c nobody (fun R => R = r2 \/ R = o)).
  { apply (roles_frame G ev ls ch s s0 al c nobody nobody _ (fun R => R = r2 \/ R = o) H C0); auto.
    - intros R HR. assert (R <> r2 /\ R <> o) as [A1 A2] by (split; intros ->; apply HR; auto).
      unfold s0. cbn [ma set_ma set_match mreg medge]. rewrite !upd_other by assumption. auto.
    - intros R. destruct (Nat.eq_dec R r2), (Nat.eq_dec R o); auto. right. intros [|]; contradiction.
    - intros R HR. change (sof s0 R) with (sof s R). destruct HR as [-> | ->]; lia.
    - intros y o' _ _ [[]|]; assumption.
    - intros R HR HbR Hn. left. split; [intros []|]. split; [assumption|]. intros Q HQ' Em HW. destruct (mated_mate0 _ _ _ _ _ _ _ _ HQ' Em) as [_ E].
      apply Hn. destruct HW as [-> | ->]; [right|left]; congruence. }
  assert (P1 : par_ok ev s ch r1) by (apply (par_moving G ev s ls ch HGeo r1 HR1 Hb1); unfold sof in Hs1; lia).
  assert (P2 : par_ok ev s ch r2) by (eapply tight_par; eassumption).
  assert (Po : par_ok ev s ch o) by (eapply tight_par; eassumption).
  assert (NM : forall R Q, In R ls -> ~ (R = r2 \/ R = o) -> mated (tgt G ev s0 ch) (tbt G ev s0 ch) ls (bpar (rg s0)) (sof s0) (ma s0) R -> mreg (ma s0) R = Some Q -> Q <> r2 /\ Q <> o).
  { intros R Q HR Hn HM Em. destruct (mated_mate0 _ _ _ _ _ _ _ _ HM Em) as [_ E].
    unfold s0 in E. cbn [ma set_ma set_match mreg] in E. unfold upd in E. split; intros ->.
    - rewrite Nat.eqb_refl in E. discriminate.
    - destruct (Nat.eqb_spec o r2) as [E'|_]; [discriminate|]. rewrite Nat.eqb_refl in E. discriminate. }
  pose proof (grow_stepT s0 (tr s0) al c nobody _ nobody nobody a r1 r2 o (medge (ma s) r2) e x s2 HGeo Q0 H0 Ha Ho HR2 Lo Hb2 Bo (fun E => N (eq_sym E))
     (Unused r2 HR2 Hs2) (Unused o Lo So) (or_introl eq_refl) (or_intror eq_refl) (fun R Q HR _ => NM R Q HR) To (tightx_rev G _ _ _ _ _ _ _ _ WF Ht) P2 Po Emc0) as GS.
  eapply ends_bind; [exact GS|]. clear GS. cbv beta. intros s3 GS. eapply ends_impl; [exact GS|]. cbv beta. clear GS.
  intros s4 (C4 & G4 & Q4 & Nx & H4 & Et4 & _ & _ & Si4 & So4 & Oth4). assert (H4' : Rl s4 (x :: al) (upd c x (x :: c a)) (fun b => nobody b /\ b <> x) (fun R => (R = r2 \/ R = o) /\ R <> r2 /\ R <> o)) by (unfold Roles; rewrite Et4; exact H4). split; [eapply calm_trans; eassumption|]. split.
  { right. split.
    - apply (nroots_incl s s4 al (x :: al) (b_arena _ _ _ _ _ _ _ _ _ _ _ _ H) (b_arena _ _ _ _ _ _ _ _ _ _ _ _ H4)).
      rewrite Et4. unfold child_tree. cbn [par]. intros b Hb. unfold upd. destruct (Nat.eqb_spec b x) as [->|Hne]; [discriminate|]. destruct Hb as [|Hb]; [congruence|]. auto.
    - left. pose proof (g_evnd _ _ _ _ _ _ _ (proj1 HGeo)) as ND. assert (En : nd s4 = nd s) by (rewrite (a_nd _ _ C4); reflexivity).
      assert (Sm : forall R, sof s R = 1 -> sof s4 R = 1) by (intros R E; destruct (Oth4 R) as [_ ->]; [intros ->; lia|intros ->; lia|exact E]).
      apply nout_more; [assumption|exact (nsl_calm G ev s s4 ls ch HGeo G4 En Sm)|].
      destruct (top_event G ev s ls ch HGeo o Lo Bo) as (v & R & Hv & Ev & HR & Er & Nv). exists v. split; [assumption|]. split; [lia|].
      destruct (g_ev _ _ _ _ _ _ _ (proj1 HGeo) v Hv) as (Hl & _). rewrite <- En in Ev. rewrite (nsl_top_slope G ev s4 ls ch G4 v _ Hl (g_top _ _ _ _ _ _ _ (proj1 G4) v R Hl Ev)), Er. exact So4. }
  exists (x :: al), (upd c x (x :: c a)). split; [assumption|]. split.
  - eapply sched_D; [exact Q4| | |exact WF]; [intros v _ [[] _]|intros r _ [[] _]].
  - eapply roles_mono; [exact H4'| |]; [intros y _ [[] _]|intros R _ ([|] & A & B); contradiction].
Qed.
End Hit2.
