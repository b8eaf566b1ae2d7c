(** Invariants of the decoder's core, part 18: breaking up an empty inner blossom. *)
From Coq Require Import ZArith NArith List Bool Arith Lia Permutation Sorting.Sorted.
From Verif Require Import M_Base M_Varying M_Tracker M_Core S_Core S_Tree P_Sum P_Up P_Tree P_Tree2 P_Cycle P_CoreGeo P_CoreSched P_CoreArea P_CoreRad P_CoreQueue P_CoreShat P_CoreRoles P_CoreHit P_CoreHit2 P_CoreWrap P_CoreTops P_CoreBlossom P_CoreSelf P_CoreSelf2 P_CoreRelease P_Ends P_CoreHalt P_CoreCount.
Import ListNotations.
Local Open Scope Z_scope.

(** ** Cutting a node off its parent and grafting it elsewhere *)
Fixpoint upto (a : nat) (l : list nat) : list nat :=
  match l with [] => [] | z :: l' => z :: if (z =? a)%nat then [] else upto a l' end.

Lemma tstr_ext : forall (A : nat -> Prop) T T' c tg, tstr A T c tg ->
  (forall b, A b -> inn T' b = inn T b /\ out T' b = out T b /\ i2o T' b = i2o T b /\ par T' b = par T b /\ ped T' b = ped T b /\ kid T' b = kid T b) -> tstr A T' c tg.
Proof.
  intros A T T' c tg H E. pose proof (ts_up _ _ _ _ H) as U. destruct H. split.
  - intros b Hb. destruct (E b Hb) as (_ & _ & _ & -> & _). auto.
  - intros b q Hb Hq. destruct (E b Hb) as (E1 & E2 & E3 & E4 & E5 & _). rewrite E4 in Hq. rewrite E1, E2, E3, E5.
    assert (Hq' : A q) by exact (proj2 (U b Hb) q Hq). destruct (E q Hq') as (_ & -> & _ & _ & _ & ->). auto.
  - intros b Hb. destruct (E b Hb) as (-> & _ & _ & -> & _). auto.
  - intros b Hb. destruct (E b Hb) as (_ & -> & _). auto.
  - intros a b e Ha Hin. destruct (E a Ha) as (_ & _ & _ & _ & _ & E6). rewrite E6 in Hin. destruct (ts_kid a b e Ha Hin) as (H1 & H2 & H3).
    destruct (E b H1) as (_ & _ & _ & -> & -> & _). auto.
  - intros a Ha. destruct (E a Ha) as (_ & _ & _ & _ & _ & ->). auto.
  - intros b b' i Hb Hb'. destruct (E b Hb) as (-> & _). destruct (E b' Hb') as (-> & _). now apply ts_inj.
Qed.

Definition cut_tree (T : treesM) (a p : nat) : treesM :=
  mkT (upd (inn T) a None) (out T) (i2o T) (upd (par T) a None) (ped T) (upd (kid T) p (unstable_erase a (kid T p))) (vis T).
Lemma tstr_cut : forall (A : nat -> Prop) T c tg a p, tstr A T c tg -> A a -> par T a = Some p -> tstr A (cut_tree T a p) (fun y => upto a (c y)) tg.
Proof.
  intros A T c tg a p H Ha Hp. pose proof (ts_up _ _ _ _ H) as U. assert (Ap : A p) by exact (proj2 (U a Ha) p Hp).
  assert (Kin : forall q x e, A q -> (In (x, e) (upd (kid T) p (unstable_erase a (kid T p)) q) <-> In (x, e) (kid T q) /\ x <> a)).
  { intros q x e Hq. unfold upd. destruct (Nat.eqb_spec q p) as [->|Hne].
    - rewrite unstable_erase_In by (apply (ts_kidnd _ _ _ _ H); assumption). reflexivity.
    - split; [|tauto]. intros Hin. split; [assumption|]. intros ->. destruct (ts_kid _ _ _ _ H q a e Hq Hin) as (_ & E & _). congruence. }
  destruct H. unfold cut_tree. split; cbn [inn out i2o par ped kid vis].
  - intros b Hb. cbv beta. rewrite (up_eq _ _ c U b Hb). cbn [upto]. unfold upd. destruct (Nat.eqb_spec b a) as [->|Hne]; [split; [reflexivity|discriminate]|].
    destruct (par T b) as [q|] eqn:E; (split; [reflexivity|]); [|discriminate]. intros q' E'. injection E' as <-. exact (proj2 (U b Hb) q E).
  - intros b q Hb E. unfold upd in E. destruct (Nat.eqb_spec b a) as [|Hne]; [discriminate|]. destruct (ts_par b q Hb E) as (H1 & H2).
    split; [apply Kin; auto; exact (proj2 (U b Hb) q E)|]. rewrite upd_other by assumption. exact H2.
  - intros b Hb E. unfold upd in *. destruct (b =? a)%nat; auto.
  - auto.
  - intros q b e Hq Hin. apply Kin in Hin as [Hin Hne]; [|assumption]. rewrite upd_other by assumption. apply (ts_kid q); assumption.
  - intros q Hq. unfold upd. destruct (Nat.eqb_spec q p) as [->|]; [apply unstable_erase_NoDup|]; auto.
  - intros b b' i Hb Hb' E1 E2. unfold upd in *. destruct (Nat.eqb_spec b a); [discriminate|]. destruct (Nat.eqb_spec b' a); [discriminate|]. eapply ts_inj; eauto.
Qed.

Definition graft_tree (T : treesM) (a q i : nat) (ce : cedge) : treesM :=
  mkT (upd (inn T) a (Some i)) (out T) (i2o T) (upd (par T) a (Some q)) (upd (ped T) a (rev_e ce)) (upd (kid T) q (kid T q ++ [(a, ce)])) (vis T).
Lemma tstr_graft : forall (A : nat -> Prop) T c (tg : nat -> nat -> cedge -> Prop) a q i o oq ce, tstr A T c tg -> A a -> A q -> par T a = None -> ~ In a (c q) ->
  out T a = Some o -> out T q = Some oq -> tg i o (i2o T a) -> tg i oq (rev_e ce) -> (forall b, A b -> inn T b <> Some i) ->
  tstr A (graft_tree T a q i ce) (fun y => if memb a (c y) then c y ++ c q else c y) tg.
Proof.
  intros A T c tg a q i o oq ce H Ha Hq Hp Hn Ho Hoq T1 T2 Hi. pose proof (ts_up _ _ _ _ H) as U.
  assert (Naq : a <> q) by (intros ->; apply Hn; apply (up_self _ _ c U q Hq)).
  assert (Ca : c a = [a]) by (rewrite (up_eq _ _ c U a Ha), Hp; reflexivity).
  assert (Kna : forall z, A z -> ~ In a (map fst (kid T z))).
  { intros z Hz Hin. apply in_map_iff in Hin as ((a' & e) & Ea & Hin). cbn in Ea. subst a'. destruct (ts_kid _ _ _ _ H z a e Hz Hin) as (_ & E & _). congruence. }
  destruct H. unfold graft_tree. split; cbn [inn out i2o par ped kid vis].
  - intros b Hb. cbv beta. unfold upd. destruct (Nat.eqb_spec b a) as [->|Hne].
    + rewrite Ca. cbn [memb existsb]. rewrite Nat.eqb_refl. cbn [orb app]. rewrite (proj2 (memb_nIn a (c q)) Hn). split; [reflexivity|]. intros q' E. injection E as <-. assumption.
    + destruct (U b Hb) as [U1 U2]. rewrite U1. destruct (par T b) as [z|] eqn:E; (split; [|intros q' E'; try discriminate; injection E' as <-; apply U2; reflexivity]).
      * assert (Em : memb a (b :: c z) = memb a (c z)) by (apply memb_eq; cbn [In]; split; [intros [|]; [congruence|assumption]|auto]). rewrite Em. now destruct (memb a (c z)).
      * assert (Em : memb a [b] = false) by (apply memb_nIn; cbn [In]; intros [|[]]; congruence). rewrite Em. reflexivity.
  - intros b z Hb E. unfold upd in E. destruct (Nat.eqb_spec b a) as [->|Hne].
    + injection E as <-. rewrite !upd_same. split; [apply in_or_app; right; left; now rewrite rev_rev_e|]. exists i, o, oq. auto.
    + rewrite !(upd_other _ _ a) by assumption. destruct (ts_par b z Hb E) as (H1 & H2). split; [|assumption]. unfold upd. destruct (Nat.eqb_spec z q) as [->|]; [apply in_or_app; now left|assumption].
  - intros b Hb E. unfold upd in *. destruct (b =? a)%nat; [discriminate|auto].
  - auto.
  - intros z b e Hz Hin. assert (Hin' : In (b, e) (kid T z) \/ (z = q /\ (b, e) = (a, ce))).
    { unfold upd in Hin. destruct (Nat.eqb_spec z q) as [->|]; [|auto]. apply in_app_or in Hin as [|[<-|[]]]; auto. }
    destruct Hin' as [Hin'|(-> & E)].
    + destruct (ts_kid z b e Hz Hin') as (H1 & H2 & H3). assert (b <> a) by congruence. rewrite !upd_other by assumption. auto.
    + injection E as -> ->. rewrite !upd_same. auto.
  - intros z Hz. unfold upd. destruct (Nat.eqb_spec z q) as [->|]; [|auto]. rewrite map_app. cbn [map fst]. apply NoDup_join; [auto|repeat constructor; auto|].
    intros x Hx [<-|[]]. now apply (Kna q).
  - intros b b' j Hb Hb' E1 E2. unfold upd in *. destruct (Nat.eqb_spec b a) as [->|]; destruct (Nat.eqb_spec b' a) as [->|]; auto.
    + injection E1 as <-. exfalso. apply (Hi b' Hb' E2).
    + injection E2 as <-. exfalso. apply (Hi b Hb E1).
    + eapply ts_inj; eauto.
Qed.

(** The tree [T] stands for that of the state, except for the node [a], which is its own root there. *)
Record agree (a : nat) (T T' : treesM) : Prop := {
  ag_inn : forall y, y <> a -> inn T' y = inn T y; ag_par : forall y, y <> a -> par T' y = par T y; ag_ped : forall y, y <> a -> ped T' y = ped T y;
  ag_out : forall y, out T' y = out T y; ag_i2o : forall y, i2o T' y = i2o T y; ag_kid : forall y, kid T' y = kid T y; ag_vis : forall y, vis T' y = vis T y }.
Lemma agree_child : forall a T T' p x i o e ce, agree a T T' -> x <> a -> agree a (child_tree T p x i o e ce) (child_tree T' p x i o e ce).
Proof.
  intros a T T' p x i o e ce H Hx. destruct H. split; unfold child_tree; cbn [inn out i2o par ped kid vis]; intros y; unfold upd; intros; destruct (y =? x)%nat; auto.
  - destruct (y =? p)%nat; [|auto]. destruct (p =? x)%nat; [auto|]. now rewrite ag_kid0.
  - destruct (y =? p)%nat; [|auto]. destruct (p =? x)%nat; [auto|]. now rewrite ag_kid0.
Qed.

Lemma grow_path_cons : forall G fuel A s cur ce i o e ce' seg, grow_path G fuel A s cur ce ((i, o, e, ce') :: seg) =
  bindO (set_region_shrinking fuel A (snd (make_child s cur i o e ce)) i) (fun s2 => bindO (set_region_growing G fuel A s2 o) (fun s3 =>
    grow_path G fuel A s3 (fst (make_child s cur i o e ce)) ce' seg)).
Proof.
  intros G fuel A s cur ce i o e ce' seg. unfold grow_path at 1. etransitivity; [apply fold_cons|]. cbv beta iota. destruct (make_child s cur i o e ce) as [x s1]. cbn [fst snd].
  destruct (set_region_shrinking _ _ _ _) as [s2| | |]; try reflexivity. cbn [bindO]. destruct (set_region_growing _ _ _ _ _) as [s3| | |]; reflexivity.
Qed.

Section Break.
Variable G : graph.
Hypothesis WF : wf_graph G.
Variables (ev : list nat) (ls : list nat) (ch : nat -> list nat) (s1 : state) (cycle : list (nat * cedge)) (ba ob : nat) (eb : cedge) (RT : nat -> Prop).
Context {NI : ints} {FI : fine NI G ev}.
Hypothesis Hlink : forall x y e, cyc_link cycle x y e -> tgt G ev s1 ch x y e.
Hypothesis Hls : forall q, In q (map fst cycle) -> In q ls /\ bpar (rg s1) q = None /\ par_ok ev s1 ch q.

(** Halfway: the regions [rest] of the broken blossom still have no place. *)
Record mid (rest : list nat) (s : state) (T : treesM) (al : list nat) (c : nat -> list nat) : Prop := {
  m_calm : calm s1 s;
  m_geo : Geo G ev s ls ch;
  m_sched : sched G ls (fun v => exists q, In q rest /\ top (nd s1) v = Some q) nobody s;
  m_roles : RolesT G ev ls ch s T al c nobody (fun R => In R rest);
  m_agree : agree ba T (tr s);
  m_rest : forall q, In q rest -> sof s q = 0 /\ alt (ma s) q = None /\ unusedT T al q;
  m_mate : forall R Q, In R ls -> bpar (rg s1) R = None -> ~ In R rest -> sof s R = 0 -> mreg (ma s) R = Some Q -> ~ In Q rest;
  m_ba : In ba al; m_bp : par T ba = None; m_bo : out T ba = Some ob; m_be : i2o T ba = eb;
  m_rt : forall z, In z al -> par T z = None -> z = ba \/ RT z; m_sl : forall R, ~ In R (map fst cycle) -> sof s R = sof s1 R }.

Lemma link_regions : forall x y e, cyc_link cycle x y e -> In x (map fst cycle) /\ In y (map fst cycle).
Proof.
  intros x y e (i & Hi & H). assert (K : forall j, In (region_at cycle j) (map fst cycle)).
  { intros j. unfold region_at. apply in_map. apply nth_In. apply Nat.mod_upper_bound. lia. }
  destruct H as [(-> & -> & _)|(-> & -> & _)]; auto.
Qed.

Lemma grow_path_spec : forall seg tail s T al c cur oc ce start stop, mid (seg_regions seg ++ tail) s T al c -> NoDup (seg_regions seg ++ tail) ->
  In cur al -> out T cur = Some oc -> ~ In ba (c cur) -> seg_path cycle start seg stop -> tgt G ev s1 ch start oc (rev_e ce) ->
  ends (fun fuel => grow_path G fuel NI s cur ce seg) (fun r => exists T' al' c' oc', mid tail (fst r) T' al' c' /\ In (fst (snd r)) al' /\ out T' (fst (snd r)) = Some oc' /\
    ~ In ba (c' (fst (snd r))) /\ tgt G ev s1 ch stop oc' (rev_e (snd (snd r)))).
Proof.
  induction seg as [|(((i & o) & e) & e') seg IH]; intros tail s T al c cur oc ce start stop M ND Hcur Hoc Hnb SP Ht.
  - cbn in SP. subst stop. unfold grow_path. cbn [fold_left]. apply ends_ok. exists T, al, c, oc. cbn [fst snd]. auto.
  - cbn [seg_path] in SP. destruct SP as (-> & L1 & next & L2 & SP). cbn [seg_regions flat_map fst snd app] in M, ND. fold (seg_regions seg) in M, ND.
    destruct (link_regions _ _ _ L1) as [Ri Ro]. destruct (Hls _ Ri) as (Hi & Hbi & Pi). destruct (Hls _ Ro) as (Ho & Hbo & Po).
    inversion ND as [|? ? N1 ND1]; subst. inversion ND1 as [|? ? N2 ND2]; subst.
    destruct M. destruct (m_rest0 start (or_introl eq_refl)) as (Si & Ai & Ui). destruct (m_rest0 o (or_intror (or_introl eq_refl))) as (So & Ao & Uo).
    destruct (make_child s cur start o e ce) as [x s'] eqn:Emc.
    assert (Nio : start <> o) by (intros ->; apply N1; now left).
    pose proof (grow_stepT G WF ev ls ch s T al c nobody (fun R => In R (start :: o :: seg_regions seg ++ tail)) _ nobody cur oc start o e ce x s'
      m_geo0 m_sched0 m_roles0 Hcur Hoc Hi Ho) as GS.
    rewrite (a_bpar _ _ m_calm0) in GS. specialize (GS Hbi Hbo Nio Ui Uo (or_introl eq_refl) (or_intror (or_introl eq_refl))).
    assert (Mt : forall R Q, In R ls -> bpar (rg s1) R = None -> ~ In R (start :: o :: seg_regions seg ++ tail) -> mated (tgt G ev s ch) (tbt G ev s ch) ls (bpar (rg s1)) (sof s) (ma s) R -> mreg (ma s) R = Some Q -> Q <> start /\ Q <> o).
    { intros R Q HR HbR HnR HM Eq. assert (S0 : sof s R = 0) by apply HM. pose proof (m_mate0 R Q HR HbR HnR S0 Eq) as NQ. split; intros ->; apply NQ; [now left|right; now left]. }
    specialize (GS Mt (calm_tgt _ _ _ _ _ _ _ _ m_calm0 (Hlink _ _ _ L1)) (calm_tgt _ _ _ _ _ _ _ _ m_calm0 Ht) (calm_par_ok _ _ _ _ _ m_calm0 Pi) (calm_par_ok _ _ _ _ _ m_calm0 Po) Emc).
    eapply ends_ext; [intros fuel; rewrite grow_path_cons, Emc; cbn [fst snd]; reflexivity|].
    eapply ends_bind; [exact GS|]. cbv beta. intros s2 GS2. eapply ends_bind; [exact GS2|]. cbv beta. clear GS GS2.
      intros s3 (C3 & G3 & Q3 & Nx & R3 & Et & Emr & Eme & Si3 & So3 & Oth).
    assert (M3 : mid (seg_regions seg ++ tail) s3 (child_tree T cur x start o e ce) (x :: al) (upd c x (x :: c cur))).
    {
      assert (Nba : x <> ba) by (intros ->; contradiction).
      assert (Sub : forall q, In q (seg_regions seg ++ tail) -> q <> start /\ q <> o) by (intros q Hq; split; intros ->; [apply N1; now right|contradiction]).
      split.
      * eapply calm_trans; eassumption.
      * assumption.
      * eapply sched_D; [exact Q3| | |exact WF]; [|intros r _ [[] _]]. rewrite (a_nd _ _ m_calm0). intros v Hv ((q & Q1 & Q2) & D1 & D2). exists q. split; [|assumption].
        destruct Q1 as [<-|[<-|Q1]]; [congruence|congruence|assumption].
      * eapply roles_mono; [exact R3| |]; [intros y _ [[] _]|]. intros R _ ([<-|[<-|HR]] & A1 & A2); [congruence|congruence|assumption].
      * rewrite Et. now apply agree_child.
      * intros q Hq. destruct (Sub q Hq) as [S1 S2]. destruct (Oth q S1 S2) as [-> ->]. destruct (m_rest0 q) as (A1 & A2 & A3); [right; right; assumption|]. split; [assumption|]. split; [assumption|].
        intros z [<-|Hz]; unfold child_tree; cbn [inn out].
        -- rewrite !upd_same. split; congruence.
        -- assert (z <> x) by (intros ->; contradiction). rewrite !upd_other by assumption. now apply A3.
      * intros R Q HR HbR HnR S0 Eq. rewrite Emr in Eq. destruct (Nat.eq_dec R start) as [->|A1]; [lia|]. destruct (Nat.eq_dec R o) as [->|A2]; [lia|].
        destruct (Oth R A1 A2) as [_ E0]. rewrite E0 in S0. intros HQ. apply (m_mate0 R Q HR HbR) with (3 := Eq); auto; [|right; right; assumption].
        intros [E|[E|E]]; [congruence|congruence|contradiction].
      * now right.
      * unfold child_tree; cbn [par]. rewrite !upd_other by auto. assumption.
      * unfold child_tree; cbn [out]. rewrite !upd_other by auto. assumption.
      * unfold child_tree; cbn [i2o]. rewrite !upd_other by auto. assumption.
      * unfold child_tree; cbn [par]. intros z [<-|Hz]; unfold upd; [rewrite Nat.eqb_refl; discriminate|]. destruct (z =? x)%nat; [discriminate|auto].
      * intros R HR. destruct (Oth R) as [_ ->]; [intros ->; contradiction|intros ->; contradiction|auto]. }
    apply (IH tail s3 _ _ _ x o e' next stop M3 ND2).
      * now left.
      * unfold child_tree; cbn [out]. now rewrite upd_same.
      * rewrite upd_same. intros [E|E]; [subst; contradiction|contradiction].
      * assumption.
      * apply tightx_rev; [assumption|]. now apply Hlink.
Qed.

Lemma match_pair_spec : forall i o e tail s T al c, mid (i :: o :: tail) s T al c -> NoDup (i :: o :: tail) -> cyc_link cycle i o e ->
  ends (fun fuel => match_pair G fuel NI s (i, o, e)) (fun s' => mid tail s' T al c).
Proof.
  intros i o e tail s T al c M ND L. destruct (link_regions _ _ _ L) as [Ri Ro]. destruct (Hls _ Ri) as (Hi & Hbi & Pi). destruct (Hls _ Ro) as (Ho & Hbo & Po).
  inversion ND as [|? ? N1 ND1]; subst. inversion ND1 as [|? ? N2 ND2]; subst. assert (Nio : i <> o) by (intros ->; apply N1; now left).
  destruct M. destruct (m_rest0 i (or_introl eq_refl)) as (Si & Ai & Ui). destruct (m_rest0 o (or_intror (or_introl eq_refl))) as (So & Ao & Uo).
  unfold match_pair. set (s2 := add_match s i o e). assert (C2 : calm s s2) by now split.
  assert (G2 : Geo G ev s2 ls ch) by exact m_geo0.
  assert (Q2 : sched G ls (fun v => exists q, In q (i :: o :: tail) /\ top (nd s1) v = Some q) nobody s2) by (eapply sched_only; [| | |exact m_sched0]; reflexivity).
  pose proof (a_nd _ _ m_calm0) as En. pose proof (a_bpar _ _ m_calm0) as Eb.
  eapply ends_bind; [apply (total_area_ends G ev (nd s2) (rg s2) ls _ _ (proj1 G2) s2 i Hi eq_refl eq_refl)|]. intros l1 Hl1.
  assert (Lx : forall s' r l, Geo G ev s' ls ch -> nd s' = nd s -> rg s' = rg s -> In r ls -> bpar (rg s1) r = None -> sof s r = 0 -> (forall v, In v l <-> (v < length G)%nat /\ In r (chn (nd s') ch v)) ->
     forall v, In v l -> (v < length G)%nat /\ nsl s' v <> -1).
  { intros s' r l G' E1 E2 Hr Hbr Sr Hl v Hv. apply Hl in Hv as [Hv Hin]. split; [assumption|]. apply (area_top G ev s' ls ch G' r v Hr) in Hin; [|rewrite E2, Eb; assumption|assumption].
    rewrite (nsl_top_slope G ev s' ls ch G' v r Hv Hin), E2. fold (sof s r). lia. }
  destruct (sched_reschedule_all G WF ls _ l1 s2 _ Q2 (Geo_lrok G ev s2 _ _ G2) (Geo_ontime G WF ev s2 _ _ G2)) as [O3 Q3]; [eapply (Lx s2 i); eauto; reflexivity|].
  set (s3 := reschedule_all G NI s2 l1) in *. clearbody s3.
  assert (G3 : Geo G ev s3 ls ch) by (eapply only_sc_Geo; eauto).
  assert (E3 : nd s3 = nd s /\ rg s3 = rg s /\ ma s3 = ma s2 /\ tr s3 = tr s /\ ra s3 = ra s /\ ta s3 = ta s /\ now (sc s3) = now (sc s)).
  { destruct O3 as (q & -> & _ & Eq & _). repeat split. exact Eq. }
  destruct E3 as (E3n & E3g & E3m & E3t & E3r & E3a & E3w).
  eapply ends_bind; [apply (total_area_ends G ev (nd s3) (rg s3) ls _ _ (proj1 G3) s3 o Ho eq_refl eq_refl)|]. intros l2 Hl2.
  destruct (sched_reschedule_all G WF ls _ l2 s3 _ Q3 (Geo_lrok G ev s3 _ _ G3) (Geo_ontime G WF ev s3 _ _ G3)) as [O4 Q4]; [eapply (Lx s3 o); eauto|].
  set (s4 := reschedule_all G NI s3 l2) in *. clearbody s4.
  assert (G4 : Geo G ev s4 ls ch) by (eapply only_sc_Geo; eauto). apply ends_ok.
  assert (E4 : nd s4 = nd s /\ rg s4 = rg s /\ ma s4 = ma s2 /\ tr s4 = tr s /\ ra s4 = ra s /\ ta s4 = ta s /\ now (sc s4) = now (sc s)).
  { destruct O4 as (q & -> & _ & Eq & _). cbn [nd rg ma tr ra ta sc set_sc]. rewrite Eq. auto 10. }
  clear O3 O4. destruct E4 as (E4n & E4g & E4m & E4t & E4r & E4a & E4w).
  assert (C4 : calm s s4) by (split; congruence).
  assert (C14 : calm s1 s4) by (eapply calm_trans; eauto).
  assert (S4 : forall R, sof s4 R = sof s R) by (intros R; unfold sof; now rewrite E4g).
  assert (Mr : forall R, mreg (ma s4) R = if (R =? o)%nat then Some i else if (R =? i)%nat then Some o else mreg (ma s) R) by (intros R; rewrite E4m; reflexivity).
  assert (Me : forall R, medge (ma s4) R = if (R =? o)%nat then rev_e e else if (R =? i)%nat then e else medge (ma s) R) by (intros R; rewrite E4m; reflexivity).
  assert (Al : alt (ma s4) = alt (ma s)) by (rewrite E4m; reflexivity).
  assert (Mi : mreg (ma s4) i = Some o) by (rewrite Mr, (proj2 (Nat.eqb_neq i o) Nio), Nat.eqb_refl; reflexivity).
  assert (Mo : mreg (ma s4) o = Some i) by (rewrite Mr, Nat.eqb_refl; reflexivity).
  assert (Mei : medge (ma s4) i = e) by (rewrite Me, (proj2 (Nat.eqb_neq i o) Nio), Nat.eqb_refl; reflexivity).
  assert (Meo : medge (ma s4) o = rev_e e) by (rewrite Me, Nat.eqb_refl; reflexivity).
  assert (Tio : tgt G ev s4 ch i o e) by (eapply calm_tgt; [exact C14|]; now apply Hlink).
  split; auto.
  - eapply sched_D; [exact Q4| |auto|exact WF]. intros v Hv (((q & Q & Et) & D1) & D2). exists q. split; [|assumption]. destruct Q as [<-|[<-|Q]]; [| |assumption]; exfalso.
    + apply D1. apply Hl1. split; [assumption|]. assert (B2 : bpar (rg s2) i = None) by (change (rg s2) with (rg s); rewrite Eb; assumption). apply (area_top G ev s2 ls ch G2 i v Hi B2 Hv). change (nd s2) with (nd s). rewrite En. assumption.
    + apply D2. apply Hl2. split; [assumption|]. assert (B3 : bpar (rg s3) o = None) by (rewrite E3g, Eb; assumption). apply (area_top G ev s3 ls ch G3 o v Ho B3 Hv). rewrite E3n, En. assumption.
  - unfold RolesT in *. eapply (roles_frameT G ev ls ch s s4 T al c nobody _ _ (fun R => R = i \/ R = o) m_roles0 C4); auto.
    + intros R Hn. rewrite Mr, Me, S4. destruct (Nat.eqb_spec R o) as [->|]; [tauto|]. destruct (Nat.eqb_spec R i) as [->|]; [tauto|]. auto.
    + intros R. destruct (Nat.eq_dec R i); [auto|]. destruct (Nat.eq_dec R o); [auto|]. right. tauto.
    + intros R HR. rewrite S4. destruct HR as [->| ->]; lia.
    + intros z w Hz Hw HL. exfalso. destruct (m_rest0 w) as (_ & _ & Un); [destruct HL as [HL|[->| ->]]; [assumption|now left|right; now left]|]. now apply (Un z Hz).
    + rewrite Eb. intros R HR HbR HnR. destruct (Nat.eq_dec R i) as [->|NRi]; [|destruct (Nat.eq_dec R o) as [->|NRo]].
      * right. unfold mated. rewrite Mi, Mo, Mei, Meo, Al, !S4. auto 12.
      * right. unfold mated. rewrite Mo, Mi, Mei, Meo, Al, !S4, rev_rev_e. split; [assumption|]. split; [assumption|]. repeat split; auto. apply tightx_rev; assumption.
      * left. assert (NR : ~ In R (i :: o :: tail)) by (intros [|[|]]; auto). split; [assumption|]. split; [tauto|]. intros Q HM Eq [->| ->];
          (eapply (m_mate0 R); [exact HR|exact HbR|exact NR|apply HM|exact Eq|]); [now left|right; now left].
  - rewrite E4t. assumption.
  - intros q Hq. rewrite S4, Al. apply m_rest0. right; now right.
  - intros R Q HR HbR HnR S0 Eq. rewrite S4 in S0. rewrite Mr in Eq. destruct (Nat.eqb_spec R o) as [->|NRo]; [injection Eq as <-; intros H; apply N1; now right|].
    destruct (Nat.eqb_spec R i) as [->|NRi]; [injection Eq as <-; assumption|]. intros HQ. apply (m_mate0 R Q HR HbR) with (3 := Eq); auto; [|right; now right].
    intros [|[|]]; auto.
  - intros R HR. rewrite S4. auto.
Qed.

Lemma match_pairs_spec : forall pairs tail s T al c, mid (pair_regions pairs ++ tail) s T al c -> NoDup (pair_regions pairs ++ tail) ->
  Forall (fun x => cyc_link cycle (fst (fst x)) (snd (fst x)) (snd x)) pairs -> ends (fun fuel => foldS (match_pair G fuel NI) pairs s) (fun s' => mid tail s' T al c).
Proof.
  induction pairs as [|((i & o) & e) pairs IH]; intros tail s T al c M ND F; [apply ends_ok; exact M|]. cbn [pair_regions flat_map fst snd app] in M, ND. fold (pair_regions pairs) in M, ND.
  inversion F; subst. eapply ends_ext; [intros fuel; apply foldS_cons|]. eapply ends_bind; [eapply match_pair_spec; eauto|]. cbv beta. intros s' M'. apply IH; auto. inversion ND; subst. inversion H4; assumption.
Qed.
End Break.

Lemma last_index_absent : forall r l i f, ~ In r (map fst l) -> last_index r i l f = f.
Proof.
  intros r l. induction l as [|x l IH]; intros i f H; [reflexivity|]. cbn [last_index map In] in *. rewrite IH by tauto. destruct (Nat.eqb_spec (fst x) r); tauto.
Qed.
Lemma last_index_spec : forall r l i f, In r (map fst l) -> exists j, (j < length l)%nat /\ last_index r i l f = (i + j)%nat /\ fst (nth j l dflt) = r.
Proof.
  intros r l. induction l as [|x l IH]; intros i f H; [destruct H|]. cbn [last_index]. destruct (in_dec Nat.eq_dec r (map fst l)) as [Hi|Hi].
  - destruct (IH (S i) (if (fst x =? r)%nat then i else f) Hi) as (j & J1 & J2 & J3). exists (S j). split; [cbn; lia|]. split; [lia|]. exact J3.
  - destruct H as [E|H]; [|contradiction]. exists O. split; [cbn; lia|]. rewrite last_index_absent by assumption. rewrite E, Nat.eqb_refl. split; [lia|assumption].
Qed.

Section Shatter.
Variable G : graph.
Hypothesis WF : wf_graph G.
Variables (ev : list nat).
Context {NI : ints} {FI : fine NI G ev}.

Lemma shatter_blossom_spec : forall s ls0 ch al c b x y, Geo G ev s ls0 ch -> arena_ok (ra s) ls0 -> Roles G ev s ls0 ch al c nobody nobody -> event_ok G ev s ls0 ch al (BlossomShatter b x y) ->
  ends (fun fuel => shatter_blossom G fuel NI s b x y) (fun s' => now (sc s') = now (sc s) /\ prog ev s s' /\ Inv G ev s').
Proof.
  intros s ls0 ch al c b x y HGeo0 AO0 H0 (Hb & Hbb & Sb & Yb & Shb & Hdb & HQ0 & ba & u & v & Hba & Eib & Eab & Efu & Efv & (Lx1 & Lx2) & (Ly1 & Ly2)).
  destruct (arena_remove _ _ _ AO0 Hb) as (ls & AO & PL & HL).
  pose proof (Geo_perm _ _ _ _ _ _ PL HGeo0) as HGeo. pose proof (sched_perm _ _ _ _ _ _ PL HQ0) as HQ. pose proof (proj1 HGeo) as HG.
  assert (Ty : forall R, In R ls0 <-> R = b \/ In R ls) by (intros R; split; [intros H; apply (Permutation_in _ PL) in H as [|]; auto|intros [->|H]; [assumption|now apply HL]]).
  unfold shatter_blossom. set (cyc := map fst (chl (rg s) b)).
  assert (Hroom : room G ev (nd s) ch b).
  { pose proof (b_str _ _ _ _ _ _ _ _ _ _ _ _ H0) as ST. cbv beta in ST. destruct (ts_innpar _ _ _ _ ba b ST Hba Eib) as [p Ep].
    destruct (ts_par _ _ _ _ ST ba p Hba Ep) as (_ & ib & ob & op & Eib' & Eob & _ & Tio & _). assert (ib = b) by congruence. subst ib.
    destruct (b_out _ _ _ _ _ _ _ _ _ _ _ _ H0 ba ob Hba Eob) as (_ & Bo & _ & Bn & _).
    apply (tight_room G ev s ls0 ch HGeo0 _ _ b ob _) with (4 := Tio); auto. congruence. }
  eapply ends_bind; [apply (release_all G ev s b ls ch HGeo Hbb Yb Shb Hroom)|]. intros s1 A.
  pose proof (released_wrapped G ev s b ls ch HGeo Hbb Yb Shb s1 A) as W. pose proof (released_geo G WF ev s b ls ch HGeo Hbb Yb Shb s1 A) as G1.
  pose proof (released_sched G WF ev s b ls ch HGeo Hbb Yb Shb HQ Hdb s1 A) as Q1. set (ch1 := chr b ch) in *.
  pose proof (released_y G s b ls ch s1 A) as Ey. pose proof (rel_cyc G ev s b ls ch HGeo Hbb) as RC. pose proof (rel_ne G ev s b ls ch HGeo) as NB.
  fold cyc in W, Q1, RC, A.
  rewrite (re_ma _ _ _ _ _ _ _ A), (re_tr _ _ _ _ _ _ _ A), (re_chl _ _ _ _ _ _ _ A), Eab. cbn [deref bindO].
  pose proof (ev_lt G _ _ _ _ _ _ HG) as EL.
  assert (AR : forall v R, (v < length G)%nat -> arr (nd s1) v = Some R -> In R ls) by exact (g_arr _ _ _ _ _ _ _ (proj1 G1)).
  (* the tight connections *)
  assert (Tg : forall R Q e, R <> b -> Q <> b -> tgt G ev s ch R Q e -> tgt G ev s1 ch1 R Q e).
  { intros R Q e NR NQ Ht. unfold tgt. rewrite Ey. apply (wr_tightx G ev b cyc ls _ _ _ _ ch1 ch _ W AR EL); auto. }
  assert (Tb : forall R e, R <> b -> tbt G ev s ch R e -> tbt G ev s1 ch1 R e).
  { intros R e NR Ht. unfold tbt. rewrite Ey. apply (wr_tightB G ev b cyc ls _ _ _ _ ch1 ch _ W AR EL); auto. }
  assert (Tc : forall R Q e z, R <> b -> In Q cyc -> efrom e = Some z -> In Q (chn (nd s) ch z) -> tgt G ev s ch b R e -> tgt G ev s1 ch1 Q R e).
  { intros R Q e z NR HQc Ez Hin Ht. assert (NQ : Q <> b) by (apply NB; apply RC; assumption). assert (Hz : In z ev) by (destruct Ht as (z0 & z1 & E1 & _ & H1 & _); congruence).
    rewrite <- (rev_rev_e e). apply tightx_rev; [assumption|]. unfold tgt. rewrite Ey. eapply (wr_b_tight G ev b cyc ls _ _ _ _ ch1 ch _ W AR EL 0 R (rev_e e) NR).
    - apply tightx_rev; [assumption|]. exact Ht.
    - cbn [rev_e eto]. exact Ez.
    - assumption.
    - apply (wr_In G b cyc ls _ _ _ _ ch1 ch _ W AR z Q (EL z Hz) NQ). assumption. }
  assert (Hlink : forall R Q e, cyc_link (chl (rg s) b) R Q e -> tgt G ev s1 ch1 R Q e).
  { assert (K : forall i, (i < length (chl (rg s) b))%nat -> tgt G ev s1 ch1 (region_at (chl (rg s) b) i) (region_at (chl (rg s) b) (S i)) (edge_at (chl (rg s) b) i)).
    { intros i Hi. assert (Kc : forall j, region_at (chl (rg s) b) j <> b).
      { intros j. apply NB. apply RC. unfold region_at, cyc. apply in_map, nth_In, Nat.mod_upper_bound. lia. }
      apply Tg; auto. pose proof (g_cyc _ _ _ _ _ _ _ HG b i (or_introl eq_refl) Hi) as Hc. rewrite (rel_chb G ev s b ls ch HGeo Hbb) in Hc. cbn [zsum] in Hc. rewrite Yb in Hc. exact Hc. }
    intros R Q e (i & Hi & [(-> & -> & ->)|(-> & -> & ->)]); [now apply K|]. apply tightx_rev; [assumption|]. now apply K. }
  (* the tree without [ba] *)
  pose proof (b_str _ _ _ _ _ _ _ _ _ _ _ _ H0) as ST. cbv beta in ST. pose proof (ts_up _ _ _ _ ST) as U.
  destruct (ts_innpar _ _ _ _ ba b ST Hba Eib) as [p Ep]. rewrite Ep. cbn [deref bindO].
  assert (Hp : In p al) by exact (proj2 (U ba Hba) p Ep).
  destruct (ts_par _ _ _ _ ST ba p Hba Ep) as (_ & ib & ob & op & Eib' & Eob & Eop & Tio & Tip). assert (ib = b) by congruence. subst ib. clear Eib'.
  assert (No : forall z o, In z al -> out (tr s) z = Some o -> o <> b).
  { intros z o Hz Ez ->. destruct (b_out _ _ _ _ _ _ _ _ _ _ _ _ H0 z b Hz Ez) as (_ & _ & _ & B & _). contradiction. }
  pose proof (No ba ob Hba Eob) as Nob. pose proof (No p op Hp Eop) as Nop.
  assert (Sq : forall q, In q cyc -> sof s q = 0 /\ alt (ma s) q = None).
  { intros q Hq. apply RC in Hq as [Hq1 Hq2]. assert (Hq0 : In q ls0) by (apply Ty; now right). split.
    - apply (s_frz _ _ _ _ _ _ (proj2 HGeo) q (or_intror Hq1)). congruence.
    - apply (b_sub _ _ _ _ _ _ _ _ _ _ _ _ H0 q Hq0). congruence. }
  assert (Sof1 : forall R, sof s1 R = sof s R) by (intros R; unfold sof; now rewrite (re_rad _ _ _ _ _ _ _ A)).
  set (T0 := cut_tree (tr s) ba p).
  set (s2 := set_tr s1 (set_kid (tr s) p (unstable_erase ba (kid (tr s) p)))).
  assert (C2 : calm s1 s2) by now split.
  assert (Bp1 : forall R, bpar (rg s) R = None -> bpar (rg s1) R = None) by (intros R HR; rewrite (re_bpar _ _ _ _ _ _ _ A), HR; now destruct (memb _ _)).
  assert (Bp0 : forall R, ~ In R cyc -> bpar (rg s1) R = bpar (rg s) R) by (intros R HR; rewrite (re_bpar _ _ _ _ _ _ _ A), (proj2 (memb_nIn _ _) HR); reflexivity).
  assert (Bpc : forall R, In R cyc -> bpar (rg s1) R = None) by (intros R HR; rewrite (re_bpar _ _ _ _ _ _ _ A), (proj2 (memb_In _ _) HR); reflexivity).
  assert (Mtd : forall R Q, In R ls -> bpar (rg s) R = None -> sof s R = 0 -> mreg (ma s) R = Some Q -> ~ In Q cyc).
  { intros R Q HR HbR SR Eq Hc. assert (HR0 : In R ls0) by (apply Ty; now right).
    assert (HM : mated (tgt G ev s ch) (tbt G ev s ch) ls0 (bpar (rg s)) (sof s) (ma s) R).
    { destruct (b_reg _ _ _ _ _ _ _ _ _ _ _ _ H0 R HR0 HbR (fun x => x)) as [(z & Hz & Ez)|[(z & Hz & Ez)|HM]]; [| |assumption]; exfalso.
      - destruct (b_inn _ _ _ _ _ _ _ _ _ _ _ _ H0 z R Hz Ez) as (_ & _ & E & _). lia.
      - destruct (b_out _ _ _ _ _ _ _ _ _ _ _ _ H0 z R Hz Ez) as (_ & _ & E & _). specialize (E (fun x => x)). lia. }
    destruct HM as (_ & _ & HM). rewrite Eq in HM. destruct HM as (_ & _ & HbQ & _). apply RC in Hc. destruct Hc. congruence. }
  destruct (last_index_spec x (chl (rg s) b) 0 0) as (pi & Pi1 & Pi2 & Pi3); [apply RC; split; [|assumption]|].
  { assert (Hx0 : In x ls0). { pose proof (g_up _ _ _ _ _ _ _ (proj1 HGeo0)) as U0. unfold chn in Lx1. destruct (arr (nd s) u) as [R|] eqn:Ea; [|destruct Lx1].
      assert (Hu : In u ev) by (destruct Tip as (z0 & z1 & E1 & _ & H1 & _); congruence). eapply (up_all_L _ _ ch U0 R); [|exact Lx1]. apply (g_arr _ _ _ _ _ _ _ (proj1 HGeo0) u R (EL u Hu) Ea). }
    apply Ty in Hx0 as [->|]; [congruence|assumption]. }
  destruct (last_index_spec y (chl (rg s) b) 0 0) as (ci & Ci1 & Ci2 & Ci3); [apply RC; split; [|assumption]|].
  { assert (Hx0 : In y ls0). { pose proof (g_up _ _ _ _ _ _ _ (proj1 HGeo0)) as U0. unfold chn in Ly1. destruct (arr (nd s) v) as [R|] eqn:Ea; [|destruct Ly1].
      assert (Hu : In v ev) by (destruct Tio as (z0 & z1 & E1 & _ & H1 & _); congruence). eapply (up_all_L _ _ ch U0 R); [|exact Ly1]. apply (g_arr _ _ _ _ _ _ _ (proj1 HGeo0) v R (EL v Hu) Ea). }
    apply Ty in Hx0 as [->|]; [congruence|assumption]. }
  rewrite Pi2, Ci2, !Nat.add_0_l. rewrite Ci3.
  pose proof (split_cycle_spec (chl (rg s) b) pi ci) as SC.
  assert (Hodd : Nat.odd (length (chl (rg s) b)) = true).
  { assert (Hl : length (chl (rg s) b) <> O) by lia. destruct (g_odd _ _ _ _ _ _ _ HG b (or_introl eq_refl)) as [E|E]; [|exact E]. rewrite E in Hl. exfalso. now apply Hl. }
  specialize (SC Hodd Pi1 Ci1). assert (Rpi : region_at (chl (rg s) b) pi = x) by (unfold region_at; rewrite Nat.mod_small by assumption; assumption).
  assert (Rci : region_at (chl (rg s) b) ci = y) by (unfold region_at; rewrite Nat.mod_small by assumption; assumption). rewrite Rpi, Rci in SC.
  destruct (split_cycle (chl (rg s) b) pi ci) as [pairs seg]. destruct SC as (Pm & Fp & Sp). fold cyc in Pm.
  set (tail := pair_regions pairs ++ [y]).
  assert (Pm' : Permutation (seg_regions seg ++ tail) cyc).
  { rewrite <- Pm. unfold tail. rewrite !app_assoc. apply Permutation_app_tail. apply Permutation_app_comm. }
  assert (NDc : NoDup cyc) by (apply (g_chnd _ _ _ _ _ _ _ HG b (or_introl eq_refl))).
  assert (NDr : NoDup (seg_regions seg ++ tail)) by (eapply Permutation_NoDup; [apply Permutation_sym; exact Pm'|assumption]).
  assert (InR : forall q, In q (seg_regions seg ++ tail) <-> In q cyc) by (intros q; split; apply Permutation_in; auto using Permutation_sym).
  assert (Hls : forall q, In q (map fst (chl (rg s) b)) -> In q ls /\ bpar (rg s1) q = None /\ par_ok ev s1 ch1 q).
  { intros q Hq. split; [apply RC; assumption|]. split; [now apply Bpc|]. intros z Hz Hin. rewrite Ey, (re_sc _ _ _ _ _ _ _ A).
    rewrite <- (wr_Y G b cyc ls _ _ _ _ ch1 ch _ W AR z (EL z Hz)). apply (par_moving G ev s (b :: ls) ch HGeo b (or_introl eq_refl) Hbb); [fold (sof s b); lia|assumption|].
    assert (Ub := up_self _ _ ch (g_up _ _ _ _ _ _ _ HG)). assert (NQ : q <> b) by (apply NB; apply RC; assumption).
    apply (wr_In G b cyc ls _ _ _ _ ch1 ch _ W AR z q (EL z Hz) NQ) in Hin. unfold chn in *. destruct (arr (nd s) z) as [R|] eqn:Ea; [|destruct Hin].
    pose proof (g_arr _ _ _ _ _ _ _ HG z R (EL z Hz) Ea) as HR. eapply (up_trans _ _ ch (g_up _ _ _ _ _ _ _ HG) R q); [assumption|assumption|].
    apply RC in Hq as [Hq1 Hq2]. rewrite (up_eq _ _ ch (g_up _ _ _ _ _ _ _ HG) q (or_intror Hq1)), Hq2. right. apply Ub. now left. }
  assert (M0 : mid G ev ls ch1 s1 (chl (rg s) b) ba ob (i2o (tr s) ba) (fun z => In z al /\ par (tr s) z = None) (seg_regions seg ++ tail) s2 T0 al (fun z => upto ba (c z))).
  { split.
    - exact C2.
    - exact G1.
    - eapply sched_only with (s := s1); try reflexivity. eapply sched_D; [exact Q1| |auto|exact WF]. intros z _ (q & Q & E). exists q. split; [now apply InR|assumption].
    - unfold RolesT. change (ma s2) with (ma s1). change (rg s2) with (rg s1). change (ta s2) with (ta s1). change (sof s2) with (sof s1). change (tgt G ev s2) with (tgt G ev s1). change (tbt G ev s2) with (tbt G ev s1).
      rewrite (re_ma _ _ _ _ _ _ _ A), (re_ta _ _ _ _ _ _ _ A).
      pose proof (tstr_cut _ _ _ _ ba p ST Hba Ep) as ST0. destruct H0. split.
      + assumption.
      + eapply tstr_weaken; [exact ST0|]. cbn [cut_tree inn out par T0]. intros z i o e Hz Ei Ho Ht. apply Tg; [| |exact Ht].
        * unfold upd in Ei. destruct (Nat.eqb_spec z ba) as [|Hne]; [discriminate|]. intros ->. apply Hne. apply (ts_inj _ _ _ _ ST z ba b); assumption.
        * destruct Ho as [Ho|(q & Hq & Ho)]; [eapply No; eauto|]. unfold upd in Hq. destruct (z =? ba)%nat; [discriminate|]. eapply (No q); [exact (proj2 (U z Hz) q Hq)|assumption].
      + exact b_vis.
      + cbn [cut_tree inn T0]. intros z i Hz Ei. unfold upd in Ei. destruct (Nat.eqb_spec z ba) as [|Hne]; [discriminate|]. destruct (b_inn z i Hz Ei) as (I1 & I2 & I3 & I4).
        assert (Nib : i <> b) by (intros ->; apply Hne; apply (ts_inj _ _ _ _ ST z ba b); assumption). apply Ty in I1 as [|I1]; [contradiction|]. rewrite Sof1. auto.
      + cbn [cut_tree out T0]. intros z o Hz Eo. destruct (b_out z o Hz Eo) as (I1 & I2 & I3 & I4 & I5). pose proof (No z o Hz Eo) as Nb. apply Ty in I1 as [|I1]; [contradiction|]. rewrite Sof1. split; [assumption|]. split; [auto|]. split; [|auto]. intros _. apply I3. intros [].
      + intros R HR HbR HnR. rewrite InR in HnR. rewrite (Bp0 R HnR) in HbR. pose proof (NB R HR) as Nb. destruct (b_reg R) as [(z & Hz & Ez)|[Bo|Bm]]; [apply Ty; now right|assumption|intros []| | |].
        * left. exists z. split; [assumption|]. cbn [cut_tree inn T0]. rewrite upd_other; [assumption|]. intros ->. congruence.
        * right; left. exact Bo.
        * right; right. destruct Bm as (B1 & B2 & B3). split; [rewrite Sof1; assumption|]. split; [assumption|]. destruct (mreg (ma s) R) as [Q|].
          -- destruct B3 as (D0 & D1 & D2 & D3 & D4 & D5 & D6). assert (NQ : Q <> b) by (intros ->; lia). apply Ty in D1 as [|D1]; [contradiction|]. rewrite Sof1. auto 12.
          -- now apply Tb.
      + intros R HR HbR. apply b_sub; [apply Ty; now right|]. intros E. apply HbR. auto.
    - unfold T0, s2. split; cbn [tr set_tr set_kid cut_tree inn out i2o par ped kid vis]; intros; rewrite ?upd_other by assumption; reflexivity.
    - intros q Hq. apply InR in Hq. destruct (Sq q Hq) as [E1 E2]. change (sof s2 q) with (sof s1 q). change (ma s2) with (ma s1). rewrite Sof1, (re_ma _ _ _ _ _ _ _ A). split; [assumption|]. split; [assumption|].
      intros z Hz. cbn [cut_tree inn out T0]. split.
      + unfold upd. destruct (z =? ba)%nat; [discriminate|]. intros E. destruct (b_inn _ _ _ _ _ _ _ _ _ _ _ _ H0 z q Hz E) as (_ & _ & B & _). lia.
      + intros E. destruct (b_out _ _ _ _ _ _ _ _ _ _ _ _ H0 z q Hz E) as (_ & _ & B & _). specialize (B (fun x => x)). lia.
    - intros R Q HR HbR HnR SR Eq. rewrite InR in *. rewrite (Bp0 R HnR) in HbR. change (sof s2 R) with (sof s1 R) in SR. rewrite Sof1 in SR. change (ma s2) with (ma s1) in Eq. rewrite (re_ma _ _ _ _ _ _ _ A) in Eq. eapply Mtd; eauto.
    - assumption.
    - cbn [cut_tree par T0]. apply upd_same.
    - exact Eob.
    - reflexivity.
    - intros z Hz. cbn [cut_tree par T0]. unfold upd. destruct (Nat.eqb_spec z ba) as [->|]; auto.
    - reflexivity. }
  assert (Nbp : ~ In ba (upto ba (c p))).
  { assert (N : ~ In ba (c p)). { intros Hi. pose proof (up_strict _ _ c U ba p ba Hba Ep Hi). lia. }
    intros Hi. apply N. clear -Hi. induction (c p) as [|z l IH]; [assumption|]. cbn [upto] in Hi. destruct Hi as [->|Hi]; [now left|]. destruct (z =? ba)%nat; [destruct Hi|]. right. auto. }
  assert (Txp : tgt G ev s1 ch1 x op (rev_e (rev_e (ped (tr s) ba)))).
  { rewrite rev_rev_e. apply (Tc op x (ped (tr s) ba) u Nop); auto. apply RC. split; [|assumption]. rewrite <- Pi3. apply RC. apply in_map. now apply nth_In. }
  change (ped (tr s2) ba) with (ped (tr s) ba).
  eapply ends_bind; [apply (grow_path_spec G WF ev ls ch1 s1 (chl (rg s) b) ba ob _ _ Hlink Hls seg tail s2 T0 al _ p op _ x y M0 NDr Hp Eop Nbp Sp Txp)|].
  intros (s3 & (cur & ce')) (T3 & al3 & c3 & oc & M3 & Hcur & Hoc & Hnb & Tyo). cbn [fst snd] in *.
  assert (NDt : NoDup tail).
  { clear -NDr. induction (seg_regions seg) as [|z l IH]; [exact NDr|]. apply IH. inversion NDr. assumption. }
  eapply ends_bind; [apply (match_pairs_spec G WF ev ls ch1 s1 (chl (rg s) b) ba ob _ _ Hlink Hls pairs [y] s3 T3 al3 c3 M3 NDt Fp)|]. cbv beta. intros s4 M4.
  assert (Hyc : In y cyc) by (apply InR; unfold tail; apply in_or_app; right; apply in_or_app; right; now left).
  destruct (Hls y Hyc) as (Hyl & Hyb & Pyy). destruct M4. destruct (m_rest0 y (or_introl eq_refl)) as (Sy4 & Ay4 & Uy4).
  set (s5 := set_tr s4 (set_inn (tr s4) ba (Some y))). assert (C5 : calm s4 s5) by now split.
  assert (Q5 : sched G ls (fun v => exists q, In q [y] /\ top (nd s1) v = Some q) nobody s5) by (eapply sched_only; [| | |exact m_sched0]; reflexivity).
  eapply ends_bind; [apply (set_region_shrinking_ends G WF ev s5 ls ch1 _ _ y m_geo0 Q5 Hyl)|].
  { change (rg s5) with (rg s4). rewrite (a_bpar _ _ m_calm0). assumption. } { eapply calm_par_ok; [exact C5|]. eapply calm_par_ok; eassumption. }
  { change (nd s5) with (nd s4). rewrite (a_nd _ _ m_calm0).
    assert (Tyb : tgt G ev s1 ch1 y ob (i2o (tr s) ba)) by (apply (Tc ob y (i2o (tr s) ba) v Nob); auto).
    destruct (b_out _ _ _ _ _ _ _ _ _ _ _ _ H0 ba ob Hba Eob) as (Bl & Bo & _).
    assert (Noy : y <> ob) by (intros <-; apply RC in Hyc as [_ Hyc]; congruence).
    assert (Bo1 : bpar (rg s1) ob = None) by (now apply Bp1).
    exact (tight_room G ev s1 ls ch1 G1 _ _ y ob _ Noy Hyb Bo1 Tyb). }
  cbv beta. intros s6 (Rd6 & G6 & Q6). destruct (radded_keep _ _ _ _ Rd6) as (K1 & K2 & K3 & K4 & K5 & K6). apply ends_ok.
  assert (C6 : calm s1 s6) by (eapply calm_trans; [exact m_calm0|]; eapply calm_trans; [exact C5|apply (radded_calm _ _ _ _ Rd6)]).
  set (s8 := del_region _ b).
  assert (E8 : nd s8 = nd s6 /\ rg s8 = rg s6 /\ sc s8 = sc s6) by (unfold s8; repeat split).
  destruct E8 as (E8n & E8g & E8s).
  assert (Tr8 : tr s8 = set_parent (set_kid (set_inn (tr s4) ba (Some y)) cur (kid (tr s4) cur ++ [(ba, ce')])) ba (Some cur) (rev_e ce')).
  { unfold s8, add_child, del_region. cbn [tr set_ra set_tr set_ma]. rewrite K2. reflexivity. }
  assert (Ma8 : ma s8 = set_alt (ma s4) y (Some ba)) by (unfold s8, add_child, del_region; cbn [ma set_ra set_tr set_ma]; rewrite K1; reflexivity).
  assert (Ta8 : ta s8 = ta s4) by (unfold s8, add_child, del_region; cbn [ta set_ra set_tr set_ma]; rewrite K3; reflexivity).
  assert (Ra8 : ra s8 = del (ra s) b) by (unfold s8, add_child, del_region; cbn [ra set_ra set_tr set_ma]; rewrite (a_ra _ _ C6), (re_ra _ _ _ _ _ _ _ A); reflexivity).
  clearbody s8.
  split. { rewrite E8s, (a_now _ _ C6), (re_sc _ _ _ _ _ _ _ A). reflexivity. }
  assert (S8y : sof s8 y = -1) by (unfold sof in *; rewrite E8g; exact K5).
  assert (S8 : forall R, R <> y -> sof s8 R = sof s4 R) by (intros R HR; unfold sof in *; rewrite E8g; exact (K6 R HR)).
  assert (G8 : Geo G ev s8 ls ch1) by (unfold Geo; rewrite E8n, E8g, E8s; exact G6).
  split.
  { right. split; [|right; split].
    - apply (nroots_incl s s8 al al3 (b_arena _ _ _ _ _ _ _ _ _ _ _ _ H0)); [rewrite Ta8; apply (b_arena _ _ _ _ _ _ _ _ _ _ _ _ m_roles0)|].
      intros z Hz. rewrite Tr8. cbn [set_parent set_kid set_inn par]. unfold upd. destruct (Nat.eqb_spec z ba) as [->|Hne]; [discriminate|].
      rewrite (ag_par _ _ _ m_agree0 z Hne). intros E. destruct (m_rt0 z Hz E) as [|]; [contradiction|assumption].
    - apply nout_mono; [exact (g_evnd _ _ _ _ _ _ _ HG)|]. intros z Hz E1. destruct (nsl_event G ev s (b :: ls) ch HGeo z Hz) as (R & Ez & _ & En). rewrite En in E1.
      destruct (nsl_event G ev s8 ls ch1 G8 z Hz) as (R' & Ez' & HR & ->). assert (EA : arr (nd s8) z = arr (nd s) z) by (rewrite E8n, (a_nd _ _ C6), (re_arr _ _ _ _ _ _ _ A); reflexivity).
      assert (R' = R) by congruence. subst R'. rewrite (wr_root b cyc ls _ _ _ _ ch1 ch _ W R HR) in E1. destruct (memb (root ch1 R) cyc) eqn:Em; [lia|]. apply memb_nIn in Em.
      rewrite S8 by (intros E; apply Em; now rewrite E). rewrite (m_sl0 _ Em), Sof1. assumption.
    - rewrite (nregs_ls s ls0 AO0), (nregs_ls s8 ls) by (rewrite Ra8; assumption). apply Permutation_length in PL. cbn [length] in PL. lia. }
  exists ls, ch1, al3, (fun z => if memb ba (c3 z) then c3 z ++ c3 cur else c3 z).
  split; [rewrite Ra8; assumption|]. split; [|split].
  - unfold Geo. rewrite E8n, E8g, E8s. exact G6.
  - eapply sched_only with (s := s6); auto. eapply sched_D; [exact Q6| |intros r _ [[] _]|exact WF]. intros z _ ((q & [<-|[]] & E) & Hn). apply Hn. change (nd s5) with (nd s4). rewrite (a_nd _ _ m_calm0). assumption.
  - unfold Roles. rewrite E8g, Ma8, Ta8, Tr8, (a_bpar _ _ C6).
    assert (CT : forall R Q e, tgt G ev s1 ch1 R Q e -> tgt G ev s8 ch1 R Q e) by (intros R Q e Ht; unfold tgt; rewrite E8n, E8g, E8s; exact (calm_tgt G ev s1 s6 ch1 R Q e C6 Ht)).
    assert (C46 : calm s4 s6) by (eapply calm_trans; [exact C5|apply (radded_calm _ _ _ _ Rd6)]).
    assert (CT4 : forall R Q e, tgt G ev s4 ch1 R Q e -> tgt G ev s8 ch1 R Q e) by (intros R Q e Ht; unfold tgt; rewrite E8n, E8g, E8s; exact (calm_tgt G ev s4 s6 ch1 R Q e C46 Ht)).
    assert (CB4 : forall R e, tbt G ev s4 ch1 R e -> tbt G ev s8 ch1 R e) by (intros R e Ht; unfold tbt; rewrite E8n, E8g, E8s; exact (calm_tbt G ev s4 s6 ch1 R e C46 Ht)).
    assert (Tyb : tgt G ev s1 ch1 y ob (i2o (tr s) ba)) by (apply (Tc ob y (i2o (tr s) ba) v Nob); auto).
    unfold RolesT in m_roles0. rewrite (a_bpar _ _ m_calm0) in m_roles0. pose proof (b_str _ _ _ _ _ _ _ _ _ _ _ _ m_roles0) as ST3. cbv beta in ST3.
    assert (ST4 : tstr (fun z => In z al3) T3 c3 (tgt G ev s8 ch1)) by (eapply tstr_weaken; [exact ST3|]; auto).
    pose proof (tstr_graft _ T3 c3 _ ba cur y ob oc ce' ST4 m_ba0 Hcur m_bp0 Hnb m_bo0 Hoc) as STG. rewrite m_be0 in STG. specialize (STG (CT _ _ _ Tyb) (CT _ _ _ Tyo) (fun z Hz => proj1 (Uy4 z Hz))).
    destruct m_agree0. destruct m_roles0. split.
    + assumption.
    + eapply tstr_ext; [exact STG|]. intros z Hz. cbn [graft_tree set_parent set_kid set_inn inn out i2o par ped kid]. unfold upd.
      rewrite ag_out0, ag_i2o0, !ag_kid0. destruct (Nat.eqb_spec z ba) as [->|Hne]; [auto 10|]. rewrite ag_inn0, ag_par0, ag_ped0 by assumption. auto 10.
    + intros z Hz Hn. cbn [set_parent set_kid set_inn vis]. rewrite ag_vis0. auto.
    + intros z i Hz Ei. cbn [set_parent set_kid set_inn inn set_alt alt] in *. unfold upd in Ei. destruct (Nat.eqb_spec z ba) as [->|Hne].
      * injection Ei as <-. rewrite upd_same. auto.
      * rewrite ag_inn0 in Ei by assumption. destruct (b_inn z i Hz Ei) as (I1 & I2 & I3 & I4). assert (Ny : i <> y) by (intros ->; exact (proj1 (Uy4 z Hz) Ei)).
        rewrite (S8 i Ny), upd_other by assumption. auto.
    + intros z o Hz Eo. cbn [set_parent set_kid set_inn out set_alt alt] in *. rewrite ag_out0 in Eo. destruct (b_out z o Hz Eo) as (I1 & I2 & I3 & I4 & I5).
      assert (Ny : o <> y) by (intros ->; exact (proj2 (Uy4 z Hz) Eo)). rewrite (S8 o Ny), upd_other by assumption. split; [assumption|]. split; [assumption|]. split; [|auto]. intros _. apply I3. intros [|[]]. congruence.
    + intros R HR HbR _. destruct (Nat.eq_dec R y) as [->|Ny].
      * left. exists ba. split; [assumption|]. cbn [set_parent set_kid set_inn inn]. apply upd_same.
      * destruct (b_reg R HR HbR) as [(z & Hz & Ez)|[(z & Hz & Ez)|Bm]]; [intros [|[]]; congruence| | |].
        -- left. exists z. split; [assumption|]. cbn [set_parent set_kid set_inn inn]. assert (z <> ba) by (intros ->; rewrite (ts_root _ _ _ _ ST3 ba) in Ez; [discriminate|assumption|assumption]).
           rewrite upd_other by assumption. rewrite ag_inn0 by assumption. assumption.
        -- right; left. exists z. split; [assumption|]. cbn [set_parent set_kid set_inn out]. rewrite ag_out0. assumption.
        -- right; right. assert (Sr : sof s4 R = 0) by apply Bm. pose proof (fun Q E => m_mate0 R Q HR HbR (fun H => match H with or_introl E' => Ny (eq_sym E') | or_intror F => match F with end end) Sr E) as NQ.
           destruct Bm as (B1 & B2 & B3). unfold mated. cbn [set_alt mreg medge alt]. rewrite (S8 R Ny), upd_other by assumption. split; [assumption|]. split; [assumption|].
           destruct (mreg (ma s4) R) as [Q|] eqn:EQ; [|now apply CB4]. destruct B3 as (D0 & D1 & D2 & D3 & D4 & D5 & D6). assert (Nq : Q <> y) by (intros ->; apply (NQ y eq_refl); now left).
           rewrite (S8 Q Nq). auto 12.
    + intros R HR HbR. cbn [set_alt alt]. rewrite upd_other by congruence. auto.
Qed.
End Shatter.
