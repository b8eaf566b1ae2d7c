(** Invariants of the decoder's core, part 10: trees that hit the boundary, matched regions and other trees. *)
From Coq Require Import ZArith NArith List Bool Arith Lia Permutation.
From Verif Require Import M_Base M_Varying M_Tracker M_Core S_Core S_Tree P_Sum P_Up P_Tree P_Tree2 P_CoreGeo P_CoreSched P_CoreArea P_CoreRad P_CoreQueue P_CoreFlood P_CoreStep P_CoreRoles P_CoreShat P_Ends P_CoreHalt P_CoreCount.
Import ListNotations.
Local Open Scope Z_scope.

Lemma roles_mono : forall tg tb ls bp sl m T a al c (M M' Lo Lo' : nat -> Prop), roles tg tb ls bp sl m T a al c M Lo ->
  (forall x, In x al -> M x -> M' x) -> (forall R, In R ls -> Lo R -> Lo' R) -> roles tg tb ls bp sl m T a al c M' Lo'.
Proof.
  intros tg tb ls bp sl m T a al c M M' Lo Lo' H H1 H2. destruct H. split; auto.
  - intros x i Hx Hi. destruct (b_inn x i Hx Hi) as (I1 & I2 & I3 & I4). repeat split; auto.
  - intros x o Hx Ho. destruct (b_out x o Hx Ho) as (I1 & I2 & I3 & I4 & I5). repeat split; auto.
Qed.

Lemma mated_mate0 : forall tg tb ls bp sl m R Q, mated tg tb ls bp sl m R -> mreg m R = Some Q -> sl Q = 0 /\ mreg m Q = Some R.
Proof. intros tg tb ls bp sl m R Q (_ & _ & H) E. rewrite E in H. tauto. Qed.

Section Hit.
Variable G : graph.
Hypothesis WF : wf_graph G.
Variables (ev : list nat) (ls : list nat) (ch : nat -> list nat).
Context {NI : ints} {FI : fine NI G ev}.
Notation Rl := (fun s al c M Lo => Roles G ev s ls ch al c M Lo).

Notation RlT := (fun s T al c M Lo => roles (tgt G ev s ch) (tbt G ev s ch) ls (bpar (rg s)) (sof s) (ma s) T (ta s) al c M Lo).

(** Some regions change speed and match; [W]: those that may change. *)
Lemma roles_frameT : forall s s' T al c M (Lo Lo' W : nat -> Prop), RlT s T al c M Lo -> calm s s' -> ta s' = ta s -> alt (ma s') = alt (ma s) ->
  (forall R, ~ W R -> mreg (ma s') R = mreg (ma s) R /\ medge (ma s') R = medge (ma s) R /\ sof s' R = sof s R) ->
  (forall R, W R \/ ~ W R) ->
  (forall R, W R -> sof s R <> -1 /\ sof s' R <> -1) ->
  (forall x o, In x al -> out T x = Some o -> Lo o \/ W o -> Lo' o) ->
  (forall R, In R ls -> bpar (rg s) R = None -> ~ Lo' R ->
     (~ Lo R /\ ~ W R /\ (forall Q, mated (tgt G ev s ch) (tbt G ev s ch) ls (bpar (rg s)) (sof s) (ma s) R -> mreg (ma s) R = Some Q -> ~ W Q)) \/
     mated (tgt G ev s' ch) (tbt G ev s' ch) ls (bpar (rg s)) (sof s') (ma s') R) ->
  RlT s' T al c M Lo'.
Proof.
  intros s s' T al c M Lo Lo' W H Cm E2 E3 Hrest Hdec Hw Ho HR. cbv beta in *. rewrite E2, (a_bpar _ _ Cm).
  pose proof (fun R Q e => calm_tgt G ev s s' ch R Q e Cm) as CT. pose proof (fun R e => calm_tbt G ev s s' ch R e Cm) as CB.
  destruct H. split; auto.
  - eapply tstr_weaken; [exact b_str|]. intros b i o e _ _ _. apply CT.
  - intros x i Hx Hi. destruct (b_inn x i Hx Hi) as (I1 & I2 & I3 & I4). rewrite E3. split; [assumption|]. split; [assumption|]. split; [|assumption].
    destruct (Hdec i) as [Wi|Wi]; [destruct (Hw i Wi); lia|]. destruct (Hrest i Wi) as (_ & _ & ->). assumption.
  - intros x o Hx Hox. destruct (b_out x o Hx Hox) as (I1 & I2 & I3 & I4 & I5). rewrite E3. split; [assumption|]. split; [assumption|].
    split; [|split; [|assumption]].
    + intros Hn. assert (~ Lo o /\ ~ W o) as [N1 N2] by (split; intros H; apply Hn; eapply Ho; eauto). destruct (Hrest o N2) as (_ & _ & ->). auto.
    + destruct (Hdec o) as [Wi|Wi]; [apply (Hw o Wi)|]. destruct (Hrest o Wi) as (_ & _ & ->). assumption.
  - intros R HR1 HR2 HR3. destruct (HR R HR1 HR2 HR3) as [(N1 & N2 & N3)|N]; [|auto].
    destruct (b_reg R HR1 HR2 N1) as [B|[B|B]]; auto. right; right. specialize (fun Q => N3 Q B).
    destruct B as (B1 & B2 & B3). destruct (Hrest R N2) as (F1 & F2 & F3). unfold mated. rewrite E3, F1, F2, F3. split; [assumption|]. split; [assumption|].
    destruct (mreg (ma s) R) as [Q|].
    + destruct B3 as (C0 & C1 & C2 & C3 & C4 & C5 & C6). destruct (Hrest Q (N3 Q eq_refl)) as (-> & -> & ->). repeat split; auto.
    + auto.
  - intros R HR1 HR2. rewrite E3. auto.
Qed.

Lemma roles_frame : forall s s' al c M (Lo Lo' W : nat -> Prop), Rl s al c M Lo -> calm s s' -> tr s' = tr s -> ta s' = ta s -> alt (ma s') = alt (ma s) ->
  (forall R, ~ W R -> mreg (ma s') R = mreg (ma s) R /\ medge (ma s') R = medge (ma s) R /\ sof s' R = sof s R) ->
  (forall R, W R \/ ~ W R) ->
  (forall R, W R -> sof s R <> -1 /\ sof s' R <> -1) ->
  (forall x o, In x al -> out (tr s) x = Some o -> Lo o \/ W o -> Lo' o) ->
  (forall R, In R ls -> bpar (rg s) R = None -> ~ Lo' R ->
     (~ Lo R /\ ~ W R /\ (forall Q, mated (tgt G ev s ch) (tbt G ev s ch) ls (bpar (rg s)) (sof s) (ma s) R -> mreg (ma s) R = Some Q -> ~ W Q)) \/
     mated (tgt G ev s' ch) (tbt G ev s' ch) ls (bpar (rg s)) (sof s') (ma s') R) ->
  Rl s' al c M Lo'.
Proof.
  intros s s' al c M Lo Lo' W H Cm E1 E2 E3 Hrest Hdec Hw Ho HR. unfold Roles. rewrite E1. apply (roles_frameT s s' (tr s) al c M Lo Lo' W); assumption.
Qed.

Lemma reroot_roles : forall s al c M Lo a, Rl s al c M Lo -> In a al ->
  ends (fun f => become_root f s a) (fun s' => s' = set_tr s (tr s') /\ (nroots s' <= nroots s)%nat /\ exists c', Rl s' al c' (fun b => M b \/ root c b = root c a) Lo /\
    par (tr s') a = None /\ out (tr s') = out (tr s) /\ forall b, In b al -> root c' b = if Nat.eqb (root c b) (root c a) then a else root c b).
Proof.
  intros s al c M Lo a H Ha. eapply ends_impl; [apply (become_root_ends s a _ c _ (b_str _ _ _ _ _ _ _ _ _ _ _ _ H) Ha)|].
  intros s' (E & c' & ST & RR). split; [assumption|]. pose proof (b_str _ _ _ _ _ _ _ _ _ _ _ _ H) as ST0. pose proof (ts_up _ _ _ _ ST0) as U.
  split.
  { pose proof (b_arena _ _ _ _ _ _ _ _ _ _ _ _ H) as A1. cbv beta in A1. assert (A2 : arena_ok (ta s') al) by (rewrite E; exact A1).
    destruct (root_spec _ _ c U a Ha) as (S1 & S2 & S3). pose proof (up_all_L _ _ c U a Ha _ S1) as L1.
    apply (nroots_swap s s' al al A1 A2 (root c a) a); auto.
    intros b Hb Pb. pose proof (up_root_only _ _ c' (ts_up _ _ _ _ ST) b b Hb (up_self _ _ c' (ts_up _ _ _ _ ST) b Hb) Pb) as Eb.
    destruct (root_spec _ _ c U b Hb) as (B1 & B2 & B3). pose proof (up_all_L _ _ c U b Hb _ B1) as L2.
    rewrite (rr_root _ _ _ _ _ _ RR b Hb) in Eb. destruct (Nat.eqb_spec (root c b) (root c a)) as [|Hne]; [auto|]. right. rewrite <- Eb in B2, B3, Hne. auto. }
  exists c'.
  destruct RR. split; [|auto]. unfold Roles in *.
  assert (Hroot : forall b, In b (c a) -> root c b = root c a) by (intros b Hb; exact (root_up _ _ c U a b Ha Hb)).
  set (T' := tr s') in *. rewrite E. cbn [rg ma tr ta set_tr]. change (sof (set_tr s T')) with (sof s). change (tgt G ev (set_tr s T')) with (tgt G ev s). change (tbt G ev (set_tr s T')) with (tbt G ev s).
  destruct H. split; auto.
  - intros x Hx Hn. rewrite rr_vis. apply b_vis; auto.
  - intros x i Hx Hi. destruct (in_dec Nat.eq_dec x (c a)) as [Hxa|Hxa].
    + assert (Hx0 : exists b, In b al /\ root c b = root c a /\ inn (tr s) b = Some i).
      { apply rr_inn. exists x. auto. }
      destruct Hx0 as (b & B1 & B2 & B3). destruct (b_inn b i B1 B3) as (I1 & I2 & I3 & _). repeat split; auto. intros Hn. exfalso. apply Hn. right. auto.
    + destruct (rr_other x Hx Hxa) as (_ & _ & R3 & _). rewrite R3 in Hi. destruct (b_inn x i Hx Hi) as (I1 & I2 & I3 & I4). repeat split; auto.
  - intros x o Hx Ho. rewrite rr_out in Ho. auto.
  - intros R HR1 HR2 HR3. destruct (b_reg R HR1 HR2 HR3) as [(x & X1 & X2)|[B|B]]; auto.
    + left. destruct (Nat.eq_dec (root c x) (root c a)) as [E1|E1].
      * destruct (proj1 (rr_inn R)) as (b & B1 & B2 & B3); [exists x; auto|]. exists b. auto.
      * exists x. split; [assumption|]. destruct (rr_other x X1) as (_ & _ & R3 & _); [intros Hi; apply E1; auto|]. rewrite R3. assumption.
    + right; left. destruct B as (x & X1 & X2). exists x. rewrite rr_out. auto.
Qed.

Lemma shatter_roles : forall s al c M Lo X a r, Geo G ev s ls ch -> sched G ls nobody X s -> Rl s al c M Lo ->
  In a al -> par (tr s) a = None -> out (tr s) a = Some r ->
  (forall b o, In b al -> out (tr s) b = Some o -> Lo o -> o = r) ->
  ends (fun f => shatter_descendants G f NI f s a) (fun s' => calm s s' /\ (nroots s' < nroots s)%nat /\ Geo G ev s' ls ch /\ sched G ls nobody X s' /\
    (exists al', Rl s' al' c (fun b => M b /\ ~ In a (c b)) (fun R => Lo R \/ R = r) /\ (forall b, In b al' <-> In b al /\ ~ In a (c b))) /\
    (forall b, In b al -> ~ In a (c b) -> par (tr s') b = par (tr s) b) /\ out (tr s') = out (tr s) /\
    alt (ma s') r = None /\ mreg (ma s') r = mreg (ma s) r /\ medge (ma s') r = medge (ma s) r /\ sof s' r = sof s r /\
    (forall R, (forall b, In b al -> In a (c b) -> inn (tr s) b <> Some R /\ out (tr s) b <> Some R) ->
      alt (ma s') R = alt (ma s) R /\ mreg (ma s') R = mreg (ma s) R /\ medge (ma s') R = medge (ma s) R /\ sof s' R = sof s R)).
Proof.
  intros s al c M Lo X a r HGeo HQ H Ha Hpa Hoa HLo. pose proof (b_str _ _ _ _ _ _ _ _ _ _ _ _ H) as ST. pose proof (ts_up _ _ _ _ ST) as U.
  assert (Hin : forall x i, In x al -> inn (tr s) x = Some i -> In i ls /\ bpar (rg s) i = None).
  { intros x i Hx Hi. destruct (b_inn _ _ _ _ _ _ _ _ _ _ _ _ H x i Hx Hi) as (I1 & I2 & _). auto. }
  assert (Hout : forall x o, In x al -> out (tr s) x = Some o -> In o ls /\ bpar (rg s) o = None).
  { intros x i Hx Hi. destruct (b_out _ _ _ _ _ _ _ _ _ _ _ _ H x i Hx Hi) as (I1 & I2 & _). auto. }
  assert (Hoinj : forall x y o, In x al -> In y al -> out (tr s) x = Some o -> out (tr s) y = Some o -> x = y).
  { intros x y o Hx Hy E1 E2. destruct (b_out _ _ _ _ _ _ _ _ _ _ _ _ H x o Hx E1) as (_ & _ & _ & _ & A1). destruct (b_out _ _ _ _ _ _ _ _ _ _ _ _ H y o Hy E2) as (_ & _ & _ & _ & A2). congruence. }
  assert (Hdis : forall x y R, In x al -> In y al -> inn (tr s) x = Some R -> out (tr s) y = Some R -> False).
  { intros x y R Hx Hy E1 E2. destruct (b_inn _ _ _ _ _ _ _ _ _ _ _ _ H x R Hx E1) as (_ & _ & A1 & _). destruct (b_out _ _ _ _ _ _ _ _ _ _ _ _ H y R Hy E2) as (_ & _ & _ & A2 & _). contradiction. }
  assert (J0 : J G ev s ls ch al X nobody s).
  { split; auto.
    - apply calm_refl.
    - exists al. split; [apply (b_arena _ _ _ _ _ _ _ _ _ _ _ _ H)|]. intros b. unfold nobody. tauto.
    - intros b i o _ H1; destruct H1.
    - intros b o _ H1; destruct H1. }
  pose proof (shatter_descendants_ends G WF ev s ls ch al c X _ ST Hin Hout Hoinj Hdis 0 s nobody a J0 Ha (fun b _ _ x => x)) as SD.
  apply (ends_ext _ (fun f => shatter_descendants G f NI f s a)) in SD; [|intros f; now rewrite Nat.sub_0_r].
  eapply ends_impl; [exact SD|]. clear SD J0. intros s' HJ. destruct HJ as [Cm HGeo' HQ' (al' & A1 & A2) (T1 & T2 & T3 & T4 & T5) Pr Mt Rt At Rs].
  assert (A3 : forall b, In b al' <-> In b al /\ ~ In a (c b)) by (intros b; rewrite A2; unfold nobody; tauto).
  assert (Rroot : forall b, In b al -> In a (c b) -> inn (tr s) b = None -> b = a).
  { intros b Hb Hab Hi. destruct (par (tr s) b) as [q|] eqn:Eq.
    - destruct (ts_par _ _ _ _ ST b q Hb Eq) as (_ & i & _ & _ & E & _). congruence.
    - pose proof (up_root_only _ _ c U b b Hb (up_self _ _ c U b Hb) Eq) as E1. pose proof (up_root_only _ _ c U b a Hb Hab Hpa) as E2. congruence. }
  assert (Rn : inn (tr s) a = None) by exact (ts_root _ _ _ _ ST a Ha Hpa).
  assert (Hz : forall b, In b al -> nobody b \/ In a (c b) -> In a (c b)) by (intros b _ [[]|]; assumption).
  assert (KeepR : forall R, (forall b, In b al -> In a (c b) -> inn (tr s) b <> Some R /\ (out (tr s) b = Some R -> b = a)) ->
     mreg (ma s') R = mreg (ma s) R /\ medge (ma s') R = medge (ma s) R /\ sof s' R = sof s R).
  { intros R HR. apply Rs. intros b Hb Hzb Hi. apply Hz in Hzb; auto. destruct (HR b Hb Hzb) as [N1 N2]. split; [assumption|]. intros E. specialize (N2 E). subst. contradiction. }
  split; [assumption|]. split.
  { apply (nroots_less s s' al al' (b_arena _ _ _ _ _ _ _ _ _ _ _ _ H) A1).
    - intros b Hb Pb. apply A3 in Hb as [B1 B2]. destruct (Pr b B1) as [P1 _]; [intros Hb; apply B2; auto|]. rewrite P1 in Pb. auto.
    - exists a. split; [assumption|]. split; [assumption|]. intros Hb. apply A3 in Hb as [_ Hb]. destruct Hb. apply (up_self _ _ c U a Ha). }
  split; [assumption|]. split; [assumption|].
  assert (Er : forall b, In b al -> In a (c b) -> inn (tr s) b <> Some r /\ (out (tr s) b = Some r -> b = a)).
  { intros b Hb _. split; [intros E; exact (Hdis b a r Hb Ha E Hoa)|]. intros E. exact (Hoinj b a r Hb Ha E Hoa). }
  split; [|split; [|split; [|split; [|split; [|split; [|split]]]]]].
  - exists al'. split; [|assumption]. unfold Roles in *. rewrite (a_bpar _ _ Cm).
    assert (SlN : forall R, In R ls -> sof s R = 0 -> ~ Lo R -> forall b, In b al -> In a (c b) -> inn (tr s) b <> Some R /\ out (tr s) b <> Some R).
    { intros R HR H0 HnL b Hb Hab. split; intros E.
      - destruct (b_inn _ _ _ _ _ _ _ _ _ _ _ _ H b R Hb E) as (_ & _ & E' & _). lia.
      - destruct (b_out _ _ _ _ _ _ _ _ _ _ _ _ H b R Hb E) as (_ & _ & E' & _). specialize (E' HnL). lia. }
    pose proof (fun R Q e => calm_tgt G ev s s' ch R Q e Cm) as CT. pose proof (fun R e => calm_tbt G ev s s' ch R e Cm) as CB.
    assert (Live : forall x, In x al' -> In x al /\ ~ In a (c x) /\ par (tr s') x = par (tr s) x /\ ped (tr s') x = ped (tr s) x).
    { intros x Hx. apply A3 in Hx as [H1 H2]. destruct (Pr x H1) as [P1 P2]; [intros Hb; apply H2; auto|]. auto. }
    assert (LiveR : forall x R, In x al' -> inn (tr s) x = Some R \/ out (tr s) x = Some R ->
       alt (ma s') R = alt (ma s) R /\ sof s' R = sof s R).
    { intros x R Hx HR. destruct (Live x Hx) as (L1 & L2 & _).
      assert (N : forall b, In b al -> In a (c b) -> inn (tr s) b <> Some R /\ out (tr s) b <> Some R).
      { intros b Hb Hab. split; intros E; destruct HR as [HR|HR].
        - apply L2. rewrite (ts_inj _ _ _ _ ST x b R); auto.
        - exact (Hdis b x R Hb L1 E HR).
        - exact (Hdis x b R L1 Hb HR E).
        - apply L2. rewrite (Hoinj x b R); auto. }
      split; [apply At; intros b Hb Hzb; apply N; auto|]. apply KeepR. intros b Hb Hab. destruct (N b Hb Hab) as [N1 N2]. split; [assumption|]. intros E. contradiction. }
    destruct H. split.
    + exact A1.
    + split.
      * intros b Hb. destruct (Live b Hb) as (L1 & L2 & L3 & _). rewrite L3. destruct (U b L1) as [U1 U2]. split; [assumption|]. intros q Eq. apply A3. split; [auto|].
        intros Hq. apply L2. rewrite U1, Eq. now right.
      * intros b q Hb Eq. destruct (Live b Hb) as (L1 & L2 & L3 & L4). rewrite L3 in Eq. rewrite L4, T1, T2, T3, T4.
        destruct (ts_par _ _ _ _ ST b q L1 Eq) as (P1 & i & o & oq & E1 & E2 & E3 & G1 & G2). split; [assumption|]. exists i, o, oq. repeat split; auto.
      * intros b Hb Eq. destruct (Live b Hb) as (L1 & L2 & L3 & _). rewrite L3 in Eq. rewrite T2. now apply (ts_root _ _ _ _ ST).
      * intros b Hb. destruct (Live b Hb) as (L1 & _). rewrite T3. now apply (ts_out _ _ _ _ ST).
      * intros x b e Hx Hk. destruct (Live x Hx) as (L1 & L2 & _). rewrite T1 in Hk. destruct (ts_kid _ _ _ _ ST x b e L1 Hk) as (K1 & K2 & K3).
        assert (Hb : In b al').
        { apply A3. split; [assumption|]. rewrite (up_eq _ _ c U b K1), K2. intros [E|Hq]; [congruence|contradiction]. }
        destruct (Live b Hb) as (_ & _ & -> & ->). auto.
      * intros x Hx. destruct (Live x Hx) as (L1 & _). rewrite T1. now apply (ts_kidnd _ _ _ _ ST).
      * intros b b' i Hb Hb'. rewrite T2. apply (ts_inj _ _ _ _ ST); [now apply Live|now apply Live].
    + intros x Hx Hn. rewrite T5. destruct (Live x Hx) as (L1 & L2 & _). apply b_vis; auto.
    + intros x i Hx Hi. rewrite T2 in Hi. destruct (Live x Hx) as (L1 & L2 & _). destruct (b_inn x i L1 Hi) as (I1 & I2 & I3 & I4).
      destruct (LiveR x i Hx (or_introl Hi)) as [-> ->]. repeat split; auto.
    + intros x o Hx Ho. rewrite T3 in Ho. destruct (Live x Hx) as (L1 & L2 & _). destruct (b_out x o L1 Ho) as (I1 & I2 & I3 & I4 & I5).
      destruct (LiveR x o Hx (or_intror Ho)) as [-> ->]. repeat split; auto.
    + intros R HR1 HR2 HR3. destruct (b_reg R HR1 HR2 (fun x => HR3 (or_introl x))) as [(x & X1 & X2)|[(x & X1 & X2)|B]].
      * destruct (in_dec Nat.eq_dec a (c x)) as [Hax|Hax].
        -- destruct (ts_out _ _ _ _ ST x X1) as (o & Ho). destruct (Mt x R o X1 (or_intror Hax) X2 Ho) as (M1 & M2 & M3 & M4 & M5 & M6 & M7 & M8).
           right; right. split; [assumption|]. split; [assumption|]. rewrite M5, M6. destruct (Hout x o X1 Ho) as [O1 O2]. repeat split; auto.
           ++ intros ->. exact (Hdis x x R X1 X1 X2 Ho).
           ++ destruct (ts_innpar _ _ _ _ x R ST X1 X2) as (q & Eq). destruct (ts_par _ _ _ _ ST x q X1 Eq) as (_ & i & o' & _ & E1 & E2 & _ & G1 & _).
              apply CT. congruence.
        -- left. exists x. rewrite T2. split; [|assumption]. apply A3. auto.
      * destruct (in_dec Nat.eq_dec a (c x)) as [Hax|Hax].
        -- destruct (inn (tr s) x) as [i|] eqn:Ei.
           2:{ exfalso. apply HR3. right. rewrite (Rroot x X1 Hax Ei) in X2. congruence. }
           destruct (Mt x i R X1 (or_intror Hax) Ei X2) as (M1 & M2 & M3 & M4 & M5 & M6 & M7 & M8).
           right; right. split; [assumption|]. split; [assumption|]. rewrite M7, M8. destruct (Hin x i X1 Ei) as [O1 O2]. repeat split; auto.
           ++ intros ->. exact (Hdis x x R X1 X1 Ei X2).
           ++ rewrite M6. symmetry. apply rev_rev_e.
           ++ destruct (ts_innpar _ _ _ _ x i ST X1 Ei) as (q & Eq). destruct (ts_par _ _ _ _ ST x q X1 Eq) as (_ & i' & o' & _ & E1 & E2 & _ & G1 & _).
              apply CT. apply tightx_rev; [assumption|]. unfold tgt, tight in G1. congruence.
        -- right; left. exists x. rewrite T3. split; [|assumption]. apply A3. auto.
      * right; right. destruct B as (B1 & B2 & B3). pose proof (SlN R HR1 B1 (fun x => HR3 (or_introl x))) as N.
        assert (EaR : alt (ma s') R = alt (ma s) R) by (apply At; intros b Hb Hzb; apply N; auto).
        destruct (KeepR R) as (K1 & K2 & K3). { intros b Hb Hab. destruct (N b Hb Hab) as [N1 N2]. split; [assumption|]. intros E; contradiction. }
        unfold mated. rewrite EaR, K1, K2, K3. split; [assumption|]. split; [assumption|]. destruct (mreg (ma s) R) as [Q|]; [|auto].
        destruct B3 as (C0 & C1 & C2 & C3 & C4 & C5 & C6).
        destruct (KeepR Q) as (Q1 & Q2 & Q3).
        { intros b Hb Hab. split.
          - intros E. destruct (b_inn b Q Hb E) as (_ & _ & E' & _). lia.
          - intros E. destruct (b_out b Q Hb E) as (_ & _ & E' & _). destruct (Nat.eq_dec Q r) as [->|Hne]; [now apply (proj2 (Er b Hb Hab))|].
            exfalso. assert (N0 : ~ Lo Q) by (intros L; apply Hne; exact (HLo b Q Hb E L)). specialize (E' N0). lia. }
        rewrite Q1, Q2, Q3. repeat split; auto.
    + intros R HR1 HR2. rewrite <- (b_sub R HR1 HR2). apply At. intros b Hb _. split; intros E.
      * destruct (b_inn b R Hb E) as (_ & E' & _). contradiction.
      * destruct (b_out b R Hb E) as (_ & E' & _). contradiction.
  - intros b Hb Hn. apply Pr; [assumption|]. intros [[]|E]; contradiction.
  - assumption.
  - apply (Rt a r Ha); auto. right. apply (up_self _ _ c U a Ha).
  - apply KeepR. exact Er.
  - apply KeepR. exact Er.
  - apply KeepR. exact Er.
  - intros R N. split; [apply At; intros b Hb Hzb; apply N; auto|]. apply KeepR. intros b Hb Hab. destruct (N b Hb Hab) as [N1 N2]. split; [assumption|]. intros E. contradiction.
Qed.


(** One tree is turned around and broken up completely. *)
Lemma dissolve_roles : forall s al c M Lo X a r, Geo G ev s ls ch -> sched G ls nobody X s -> Rl s al c M Lo ->
  In a al -> out (tr s) a = Some r -> (forall b o, In b al -> out (tr s) b = Some o -> Lo o -> o = r) -> (forall b, In b al -> M b -> root c b = root c a) ->
  ends (fun f => bindO (become_root f s a) (fun s1 => shatter_descendants G f NI f s1 a)) (fun s' => calm s s' /\ (nroots s' < nroots s)%nat /\ Geo G ev s' ls ch /\ sched G ls nobody X s' /\
    (exists al' c', Rl s' al' c' nobody (fun R => Lo R \/ R = r)) /\
    alt (ma s') r = None /\ mreg (ma s') r = mreg (ma s) r /\ medge (ma s') r = medge (ma s) r /\ sof s' r = sof s r /\
    (forall R, In R ls -> sof s R <> -1 -> (forall b, In b al -> out (tr s) b <> Some R) ->
      alt (ma s') R = alt (ma s) R /\ mreg (ma s') R = mreg (ma s) R /\ medge (ma s') R = medge (ma s) R /\ sof s' R = sof s R)).
Proof.
  intros s al c M Lo X a r HGeo HQ H Ha Ho HLo HM. eapply ends_bind; [apply (reroot_roles s al c M Lo a H Ha)|].
  intros s1 (E & Nr1 & c1 & H1 & P1 & O1 & R1).
  assert (G1 : Geo G ev s1 ls ch) by (rewrite E; exact HGeo).
  assert (Q1 : sched G ls nobody X s1) by (eapply sched_only; [| | |exact HQ]; rewrite E; reflexivity).
  assert (C1 : calm s s1) by (rewrite E; now split).
  pose proof (ts_up _ _ _ _ (b_str _ _ _ _ _ _ _ _ _ _ _ _ H1)) as U1.
  assert (Em : ma s1 = ma s) by (rewrite E; reflexivity). assert (Es : sof s1 = sof s) by (rewrite E; reflexivity).
  eapply ends_impl; [apply (shatter_roles s1 al c1 _ Lo X a r G1 Q1 H1 Ha P1)|].
  - rewrite O1. assumption.
  - rewrite O1. assumption.
  - cbv beta. intros s' (Cm & Nr2 & G2 & Q2 & (al' & H2 & A2) & _ & _ & F1 & F2 & F3 & F4 & F5). rewrite Em in *. rewrite Es in *.
    split; [eapply calm_trans; eassumption|]. split; [lia|]. split; [assumption|]. split; [assumption|]. split; [|split; [|split; [|split; [|split]]]]; auto.
    + exists al', c1. eapply roles_mono; [exact H2| |auto]. intros x Hx [Mx Nx]. exfalso. apply A2 in Hx as [Hx _]. apply Nx.
      assert (Er : root c1 x = a).
      { rewrite (R1 x Hx). destruct Mx as [Mx|Mx]; [rewrite (HM x Hx Mx)|rewrite Mx]; now rewrite Nat.eqb_refl. }
      rewrite <- Er. apply (root_spec _ _ c1 U1 x Hx).
    + intros R HR Hs HnO. apply F5. intros b Hb _. split.
      * intros Ei. destruct (b_inn _ _ _ _ _ _ _ _ _ _ _ _ H1 b R Hb Ei) as (_ & _ & Ex & _). rewrite Es in Ex. contradiction.
      * rewrite O1. auto.
Qed.

Lemma none_is : forall P : nat -> Prop, (forall x, ~ P x) -> forall x, P x -> nobody x.
Proof. intros P H x Hx. exact (H x Hx). Qed.

(** What holds between two events. *)
Definition Core (s : state) (al : list nat) (c : nat -> list nat) : Prop := Geo G ev s ls ch /\ sched G ls nobody nobody s /\ Rl s al c nobody nobody.
Definition settled (s s' : state) : Prop := calm s s' /\ prog ev s s' /\ exists al c, Core s' al c.

Lemma tree_hits_boundary_spec : forall s al c r e, Core s al c -> hit_ok G ev s ls ch (HitBoundary r e) ->
  ends (fun fuel => tree_hits_boundary G fuel NI s r e) (settled s).
Proof.
  intros s al c r e (HGeo & HQ & H) (R & -> & HR & HbR & Hs & Ht). unfold tree_hits_boundary. cbn [deref bindO].
  destruct (growing_outer _ _ _ _ _ _ _ _ _ _ _ _ H R HR HbR Hs (fun x => x)) as (a & Ha & Ho & Ea). rewrite Ea. cbn [deref bindO].
  set (f := fun fuel s2 => set_region_frozen G fuel NI (set_ma s2 (set_match (ma s2) R None e)) R).
  assert (D : ends (fun fuel => bindO (bindO (become_root fuel s a) (fun s1 => shatter_descendants G fuel NI fuel s1 a)) (f fuel)) (settled s)).
  { eapply ends_bind; [apply (dissolve_roles s al c nobody nobody nobody a R HGeo HQ H Ha Ho)|].
    - intros b o _ _ [].
    - intros b _ [].
    - cbv beta. intros s2 (Cm & Nr & G2 & Q2 & (al' & c' & H2) & F1 & F2 & F3 & F4 & _). unfold f. set (s3 := set_ma s2 _).
      assert (C3 : calm s2 s3) by now split.
      eapply ends_impl; [apply (set_region_frozen_ends G WF ev s3 ls ch nobody nobody R G2)|].
      + eapply sched_only; [| | |exact Q2]; reflexivity.
      + assumption.
      + change (bpar (rg s2) R = None). rewrite (a_bpar _ _ Cm). assumption.
      + cbv beta. intros s' (Rd & G' & Q'). destruct (radded_keep _ _ _ _ Rd) as (K1 & K2 & K3 & K4 & K5 & K6).
        assert (C4 : calm s2 s') by (eapply calm_trans; [exact C3|apply (radded_calm _ _ _ _ Rd)]).
        assert (C5 : calm s s') by (eapply calm_trans; [exact Cm|exact C4]).
        split; [assumption|]. split; [left; rewrite (nroots_same s3 s' K2 K3); exact Nr|]. exists al', c'. split; [assumption|]. split.
        { eapply sched_D; [exact Q'| | |exact WF]; [auto|]. intros x _ [[] _]. }
        assert (Fr : sof s2 R = 1) by (rewrite F4; exact Hs).
        apply (roles_frame s2 s' al' c' nobody (fun x => nobody x \/ x = R) nobody (fun x => x = R) H2 C4); auto.
        * rewrite K1. reflexivity.
        * intros Q HQR. rewrite K1, (K6 Q HQR). unfold s3. cbn [ma set_ma set_match mreg medge]. rewrite !upd_other by assumption. auto.
        * intros Q. destruct (Nat.eq_dec Q R); auto.
        * intros Q ->. rewrite Fr, K5. lia.
        * intros x o Hx Hox HL. assert (o = R) by (destruct HL as [[[]|]|]; assumption). subst o.
          destruct (b_out _ _ _ _ _ _ _ _ _ _ _ _ H2 x R Hx Hox) as (_ & _ & _ & _ & E). congruence.
        * intros Q HQ1 HQ2 _. destruct (Nat.eq_dec Q R) as [->|Hne].
          -- right. split; [assumption|]. rewrite K1. unfold s3. cbn [ma set_ma set_match mreg medge alt]. split; [assumption|].
             rewrite !upd_same. apply (calm_tbt G ev s s' ch R e C5). exact Ht.
          -- left. split; [intros [[]|]; contradiction|]. split; [assumption|]. intros P HP Em ->. destruct (mated_mate0 _ _ _ _ _ _ _ _ HP Em) as [E _]. lia. }
  eapply ends_ext; [|exact D]. intros fuel. cbv beta. destruct (become_root fuel s a); reflexivity.
Qed.

Lemma tree_hits_boundary_match_spec : forall s al c r1 r2 e, Core s al c -> In r1 ls -> In r2 ls -> bpar (rg s) r1 = None -> bpar (rg s) r2 = None ->
  sof s r1 = 1 -> sof s r2 = 0 -> mreg (ma s) r2 = None -> tgt G ev s ch r1 r2 e ->
  ends (fun fuel => tree_hits_boundary_match G fuel NI s r1 r2 e) (settled s).
Proof.
  intros s al c r1 r2 e (HGeo & HQ & H) HR1 HR2 Hb1 Hb2 Hs1 Hs2 Hm Ht. unfold tree_hits_boundary_match.
  assert (Hne : r1 <> r2) by (intros ->; lia).
  destruct (growing_outer _ _ _ _ _ _ _ _ _ _ _ _ H r1 HR1 Hb1 Hs1 (fun x => x)) as (a & Ha & Ho & Ea). rewrite Ea. cbn [deref bindO].
  assert (Ea2 : alt (ma s) r2 = None) by apply (frozen_mated _ _ _ _ _ _ _ _ _ _ _ _ H r2 HR2 Hb2 Hs2 (fun x => x)).
  set (s0 := add_match s r1 r2 e). assert (C0 : calm s s0) by now split.
  eapply ends_bind; [apply (set_region_frozen_ends G WF ev s0 ls ch nobody nobody r1 HGeo)|].
  - eapply sched_only; [| | |exact HQ]; reflexivity.
  - assumption.
  - assumption.
  - cbv beta. intros s1 (Rd & G1 & Q1). destruct (radded_keep _ _ _ _ Rd) as (K1 & K2 & K3 & K4 & K5 & K6).
    assert (C1 : calm s s1) by (eapply calm_trans; [exact C0|apply (radded_calm _ _ _ _ Rd)]).
    assert (Q1' : sched G ls nobody nobody s1). { eapply sched_D; [exact Q1| | |exact WF]; [auto|]. intros x _ [[] _]. }
    assert (N1 : sof s1 r2 = 0) by (rewrite (K6 r2) by congruence; exact Hs2).
    assert (H1 : Rl s1 al c nobody (fun x => x = r1 \/ x = r2)).
    { apply (roles_frame s s1 al c nobody nobody (fun x => x = r1 \/ x = r2) (fun x => x = r1 \/ x = r2) H C1); auto.
      - rewrite K1. reflexivity.
      - intros R HR. assert (R <> r1 /\ R <> r2) as [A1 A2] by (split; intros ->; apply HR; auto).
        rewrite K1, (K6 R A1). unfold s0, add_match. cbn [ma set_ma set_match mreg medge]. rewrite !upd_other by assumption. auto.
      - intros R. destruct (Nat.eq_dec R r1), (Nat.eq_dec R r2); auto. right. intros [|]; contradiction.
      - intros R [-> | ->]; [rewrite Hs1, K5|rewrite Hs2, N1]; lia.
      - intros x o _ _ [[]|]; assumption.
      - intros R HR HbR Hn. left. split; [intros []|]. split; [assumption|]. intros Q HQ' Em [-> | ->].
        + destruct (mated_mate0 _ _ _ _ _ _ _ _ HQ' Em) as [E _]. lia.
        + destruct (mated_mate0 _ _ _ _ _ _ _ _ HQ' Em) as [_ E]. congruence. }
    eapply ends_impl; [apply (dissolve_roles s1 al c nobody (fun x => x = r1 \/ x = r2) nobody a r1 G1 Q1' H1 Ha)|].
    + rewrite K2. assumption.
    + intros b o Hb Eo [Eq|Eq]; [assumption|]. subst o. destruct (b_out _ _ _ _ _ _ _ _ _ _ _ _ H1 b r2 Hb Eo) as (_ & _ & _ & _ & E).
      rewrite K1 in E. cbn in E. congruence.
    + intros b _ [].
    + cbv beta. intros s' (Cm & Nr & G' & Q' & (al' & c' & H') & F1 & F2 & F3 & F4 & F5). split; [eapply calm_trans; eassumption|].
      split; [left; rewrite (nroots_same s0 s1 K2 K3) in Nr; exact Nr|].
      destruct (F5 r2 HR2) as (E1 & E2 & E3 & E4).
      { rewrite N1. lia. } { intros b Hb Eo. destruct (b_out _ _ _ _ _ _ _ _ _ _ _ _ H1 b r2 Hb Eo) as (_ & _ & _ & _ & E).
      rewrite K1 in E. cbn in E. congruence. }
      exists al', c'. split; [assumption|]. split; [assumption|].
      assert (B1 : mreg (ma s') r1 = Some r2) by (rewrite F2, K1; unfold s0, add_match; cbn [ma set_ma set_match mreg]; rewrite upd_other, upd_same; auto).
      assert (B2 : medge (ma s') r1 = e) by (rewrite F3, K1; unfold s0, add_match; cbn [ma set_ma set_match medge]; rewrite upd_other, upd_same; auto).
      assert (B3 : mreg (ma s') r2 = Some r1) by (rewrite E2, K1; unfold s0, add_match; cbn [ma set_ma set_match mreg]; rewrite upd_same; auto).
      assert (B4 : medge (ma s') r2 = rev_e e) by (rewrite E3, K1; unfold s0, add_match; cbn [ma set_ma set_match medge]; rewrite upd_same; auto).
      assert (B5 : sof s' r1 = 0) by congruence. assert (B6 : sof s' r2 = 0) by congruence.
      assert (B7 : alt (ma s') r2 = None) by (rewrite E1, K1; exact Ea2).
      assert (C2 : calm s s') by (eapply calm_trans; eassumption). pose proof (a_bpar _ _ C2) as Ebp.
      apply (roles_frame s' s' al' c' nobody _ nobody nobody H' (calm_refl s')); auto.
      * intros x o Hx Hox HL. destruct (b_out _ _ _ _ _ _ _ _ _ _ _ _ H' x o Hx Hox) as (_ & _ & _ & _ & E).
        destruct HL as [[[-> | ->]| ->]|[]]; congruence.
      * intros R HR HbR _. destruct (Nat.eq_dec R r1) as [->|A1]; [|destruct (Nat.eq_dec R r2) as [->|A2]].
        -- right. split; [assumption|]. split; [assumption|]. rewrite B1, B2, B4, Ebp. repeat split; auto. apply (calm_tgt G ev s s' ch _ _ _ C2 Ht).
        -- right. split; [assumption|]. split; [assumption|]. rewrite B3, B4, B2, Ebp. repeat split; auto; [symmetry; apply rev_rev_e|].
           apply tightx_rev; [assumption|]. apply (calm_tgt G ev s s' ch _ _ _ C2 Ht).
        -- left. split; [intros [[|]|]; contradiction|]. split; [intros []|]. intros Q _ _ [].
Qed.

Lemma tree_hits_other_tree_spec : forall s al c r1 r2 e a1 a2 (M : nat -> Prop), Geo G ev s ls ch -> sched G ls nobody nobody s -> Rl s al c M nobody ->
  In r1 ls -> In r2 ls -> bpar (rg s) r1 = None -> bpar (rg s) r2 = None -> r1 <> r2 ->
  sof s r1 = 1 -> sof s r2 = 1 -> alt (ma s) r1 = Some a1 -> alt (ma s) r2 = Some a2 -> root c a1 <> root c a2 ->
  (forall b, In b al -> M b -> root c b = root c a1 \/ root c b = root c a2) -> tgt G ev s ch r1 r2 e ->
  ends (fun fuel => tree_hits_other_tree G fuel NI s r1 r2 e) (settled s).
Proof.
  intros s al c r1 r2 e a1 a2 M HGeo HQ H HR1 HR2 Hb1 Hb2 Hne Hs1 Hs2 Ea1 Ea2 Hroot HM Ht. unfold tree_hits_other_tree. rewrite Ea1, Ea2. cbn [deref bindO].
  destruct (growing_outer _ _ _ _ _ _ _ _ _ _ _ _ H r1 HR1 Hb1 Hs1 (fun x => x)) as (x1 & Ha1 & Ho1 & Ex1). assert (x1 = a1) by congruence. subst x1.
  destruct (growing_outer _ _ _ _ _ _ _ _ _ _ _ _ H r2 HR2 Hb2 Hs2 (fun x => x)) as (x2 & Ha2 & Ho2 & Ex2). assert (x2 = a2) by congruence. subst x2.
  clear Ex1 Ex2.
  eapply ends_bind; [apply (reroot_roles s al c M nobody a1 H Ha1)|]. intros s1 (E1 & Nr1 & c1 & H1 & P1 & O1 & R1).
  eapply ends_bind; [apply (reroot_roles s1 al c1 _ nobody a2 H1 Ha2)|]. intros s2 (E2 & Nr2 & c2 & H2 & P2 & O2 & R2). cbv beta in H2.
  assert (E3 : s2 = set_tr s (tr s2)) by (rewrite E2, E1; reflexivity).
  assert (G2 : Geo G ev s2 ls ch) by (rewrite E3; exact HGeo).
  assert (Q2 : sched G ls nobody nobody s2) by (eapply sched_only; [| | |exact HQ]; rewrite E3; reflexivity).
  assert (C2 : calm s s2) by (rewrite E3; now split).
  assert (Em : ma s2 = ma s) by (rewrite E3; reflexivity). assert (Es : sof s2 = sof s) by (rewrite E3; reflexivity).
  pose proof (ts_up _ _ _ _ (b_str _ _ _ _ _ _ _ _ _ _ _ _ H)) as U. pose proof (ts_up _ _ _ _ (b_str _ _ _ _ _ _ _ _ _ _ _ _ H2)) as U2.
  assert (T1 : root c1 a1 = a1) by (rewrite (R1 a1 Ha1), Nat.eqb_refl; reflexivity).
  assert (T2 : root c1 a2 = root c a2). { rewrite (R1 a2 Ha2). destruct (Nat.eqb_spec (root c a2) (root c a1)); congruence. }
  assert (X1 : root c a2 <> a1).
  { intros E. apply Hroot. assert (Hin : In a1 (c a2)) by (rewrite <- E; apply (root_spec _ _ c U a2 Ha2)). apply (root_up _ _ c U a2 a1 Ha2 Hin). }
  assert (T3 : root c2 a1 = a1). { rewrite (R2 a1 Ha1), T1, T2. destruct (Nat.eqb_spec a1 (root c a2)); congruence. }
  assert (T4 : root c2 a2 = a2) by (rewrite (R2 a2 Ha2), Nat.eqb_refl; reflexivity).
  assert (P1' : par (tr s2) a1 = None).
  { destruct (root_spec _ _ c2 U2 a1 Ha1) as (S1 & S2 & S3). rewrite T3 in *. assumption. }
  assert (Ho1' : out (tr s2) a1 = Some r1) by (rewrite O2, O1; assumption). assert (Ho2' : out (tr s2) a2 = Some r2) by (rewrite O2, O1; assumption).
  assert (Hroots : forall b, In b al -> (M b \/ root c b = root c a1) \/ root c1 b = root c1 a2 -> root c2 b = a1 \/ root c2 b = a2).
  { intros b Hb HMb. rewrite (R2 b Hb), T2. destruct (Nat.eqb_spec (root c1 b) (root c a2)) as [|N1]; [now right|]. left. rewrite (R1 b Hb) in *.
    destruct (Nat.eqb_spec (root c b) (root c a1)) as [|N2]; [reflexivity|]. exfalso.
    destruct HMb as [[HMb|HMb]|HMb]; [destruct (HM b Hb HMb); contradiction|contradiction|congruence]. }
  eapply ends_bind; [apply (shatter_roles s2 al c2 _ nobody nobody a1 r1 G2 Q2 H2 Ha1 P1' Ho1')|].
  { intros b o _ _ []. }
  cbv beta. intros s3 (C3 & Nr3 & G3 & Q3 & (al3 & H3 & A3) & Pr3 & O3 & F1 & F2 & F3 & F4 & F5). rewrite Em, Es in *.
  assert (N12 : ~ In a1 (c2 a2)). { intros Hin. pose proof (up_root_only _ _ c2 U2 a2 a1 Ha2 Hin P1') as E. rewrite T4 in E. subst. congruence. }
  assert (Ha2' : In a2 al3) by (apply A3; auto).
  assert (P2' : par (tr s3) a2 = None) by (rewrite (Pr3 a2 Ha2 N12); assumption).
  assert (Ho2'' : out (tr s3) a2 = Some r2) by (rewrite O3; assumption).
  pose proof (ts_up _ _ _ _ (b_str _ _ _ _ _ _ _ _ _ _ _ _ H3)) as U3.
  assert (D1 : forall b, In b al3 -> out (tr s3) b <> Some r1).
  { intros b Hb E. destruct (b_out _ _ _ _ _ _ _ _ _ _ _ _ H3 b r1 Hb E) as (_ & _ & _ & _ & Eq). congruence. }
  eapply ends_bind; [apply (shatter_roles s3 al3 c2 _ _ nobody a2 r2 G3 Q3 H3 Ha2' P2' Ho2'')|].
  { intros b o Hb Eo [[]|Eq]. subst o. destruct (D1 b Hb Eo). }
  cbv beta. intros s4 (C4 & Nr4 & G4 & Q4 & (al4 & H4 & A4) & Pr4 & O4 & L1 & L2 & L3 & L4 & L5).
  destruct (F5 r2) as (I1 & I2 & I3 & I4).
  { intros b Hb Hin. split; intros E.
    - destruct (b_inn _ _ _ _ _ _ _ _ _ _ _ _ H2 b r2 Hb E) as (_ & _ & Ex & _). rewrite Es in Ex. lia.
    - destruct (b_out _ _ _ _ _ _ _ _ _ _ _ _ H2 b r2 Hb E) as (_ & _ & _ & _ & Ex). rewrite Em in Ex. assert (b = a2) by congruence. subst. contradiction. }
  destruct (L5 r1) as (J1 & J2 & J3 & J4).
  { intros b Hb Hin. split; intros E.
    - destruct (b_inn _ _ _ _ _ _ _ _ _ _ _ _ H3 b r1 Hb E) as (_ & _ & Ex & _). lia.
    - destruct (D1 b Hb E). }
  assert (H4' : Rl s4 al4 c2 nobody (fun x => x = r1 \/ x = r2)).
  { eapply roles_mono; [exact H4| |].
    - intros b Hb [[HMb N1] N2]. exfalso. apply A4 in Hb as [Hb _]. apply A3 in Hb as [Hb _].
      destruct (Hroots b Hb HMb) as [E|E]; [apply N1|apply N2]; rewrite <- E; apply (root_spec _ _ c2 U2 b Hb).
    - intros R _ [[[]|]|]; auto. }
  clear H4. assert (C5 : calm s s4) by (eapply calm_trans; [exact C2|]; eapply calm_trans; eassumption).
  set (s5 := add_match s4 r1 r2 e). assert (C6 : calm s4 s5) by now split.
  eapply ends_bind; [apply (set_region_frozen_ends G WF ev s5 ls ch nobody nobody r1 G4)|].
  - eapply sched_only; [| | |exact Q4]; reflexivity.
  - assumption.
  - change (bpar (rg s4) r1 = None). rewrite (a_bpar _ _ C5). assumption.
  - cbv beta. intros s6 (Rd6 & G6 & Q6). destruct (radded_keep _ _ _ _ Rd6) as (K1 & K2 & K3 & K4 & K5 & K6).
    assert (C7 : calm s4 s6) by (eapply calm_trans; [exact C6|apply (radded_calm _ _ _ _ Rd6)]).
    eapply ends_impl; [apply (set_region_frozen_ends G WF ev s6 ls ch nobody _ r2 G6 Q6)|].
    + assumption.
    + rewrite (a_bpar _ _ C7), (a_bpar _ _ C5). assumption.
    + cbv beta. intros s7 (Rd7 & G7 & Q7). destruct (radded_keep _ _ _ _ Rd7) as (V1 & V2 & V3 & V4 & V5 & V6).
      assert (C8 : calm s4 s7) by (eapply calm_trans; [exact C7|apply (radded_calm _ _ _ _ Rd7)]).
      assert (C9 : calm s s7) by (eapply calm_trans; eassumption). pose proof (a_bpar _ _ C8) as Ebp. pose proof (a_bpar _ _ C5) as Ebp5.
      split; [assumption|]. split; [left; rewrite (nroots_same s5 s7); [change (nroots s5) with (nroots s4); lia|congruence|congruence]|]. exists al4, c2. split; [assumption|]. split.
      { eapply sched_D; [exact Q7| | |exact WF]; [auto|]. intros x _ [[[] _] _]. }
      assert (Em7 : ma s7 = ma s5) by congruence.
      assert (B1 : mreg (ma s7) r1 = Some r2) by (rewrite Em7; unfold s5, add_match; cbn [ma set_ma set_match mreg]; rewrite upd_other, upd_same; auto).
      assert (B2 : medge (ma s7) r1 = e) by (rewrite Em7; unfold s5, add_match; cbn [ma set_ma set_match medge]; rewrite upd_other, upd_same; auto).
      assert (B3 : mreg (ma s7) r2 = Some r1) by (rewrite Em7; unfold s5, add_match; cbn [ma set_ma set_match mreg]; rewrite upd_same; auto).
      assert (B4 : medge (ma s7) r2 = rev_e e) by (rewrite Em7; unfold s5, add_match; cbn [ma set_ma set_match medge]; rewrite upd_same; auto).
      assert (B5 : sof s7 r1 = 0) by (rewrite (V6 r1) by assumption; assumption).
      assert (B8 : alt (ma s7) r1 = None) by (rewrite Em7; change (alt (ma s4) r1 = None); congruence).
      assert (B9 : alt (ma s7) r2 = None) by (rewrite Em7; change (alt (ma s4) r2 = None); congruence).
      assert (Z1 : sof s4 r1 = 1) by congruence. assert (Z2 : sof s4 r2 = 1) by congruence.
      apply (roles_frame s4 s7 al4 c2 nobody (fun x => x = r1 \/ x = r2) nobody (fun x => x = r1 \/ x = r2) H4' C8).
      * rewrite V2, K2. reflexivity.
      * rewrite V3, K3. reflexivity.
      * rewrite Em7. reflexivity.
      * intros R HR. assert (R <> r1 /\ R <> r2) as [A1 A2] by (split; intros ->; apply HR; auto).
        rewrite Em7, (V6 R A2), (K6 R A1). unfold s5, add_match. cbn [ma set_ma set_match mreg medge]. rewrite !upd_other by assumption. auto.
      * intros R. destruct (Nat.eq_dec R r1), (Nat.eq_dec R r2); auto. right. intros [|]; contradiction.
      * intros R [-> | ->]; lia.
      * intros x o Hx Hox HL. destruct (b_out _ _ _ _ _ _ _ _ _ _ _ _ H4' x o Hx Hox) as (_ & _ & _ & _ & E).
        assert (Hcase : o = r1 \/ o = r2) by (destruct HL; assumption). destruct Hcase as [-> | ->]; congruence.
      * intros R HR HbR _. destruct (Nat.eq_dec R r1) as [->|A1]; [|destruct (Nat.eq_dec R r2) as [->|A2]].
        -- right. split; [assumption|]. split; [assumption|]. rewrite B1, B2, B4, Ebp5. repeat split; auto. apply (calm_tgt G ev s s7 ch _ _ _ C9 Ht).
        -- right. split; [assumption|]. split; [assumption|]. rewrite B3, B4, B2, Ebp5. repeat split; auto; [symmetry; apply rev_rev_e|].
           apply tightx_rev; [assumption|]. apply (calm_tgt G ev s s7 ch _ _ _ C9 Ht).
        -- left. split; [intros [|]; contradiction|]. split; [intros [|]; contradiction|]. intros Q HQ' Emm HW.
           destruct (mated_mate0 _ _ _ _ _ _ _ _ HQ' Emm) as [E _]. destruct HW as [-> | ->]; lia.
Qed.
End Hit.
