(** Invariants of the decoder's core, part 19: every event is handled, and the main loop. *)
From Coq Require Import ZArith NArith List Bool Arith Lia Permutation.
From Verif Require Import M_Base M_Varying M_Tracker M_Core S_Core S_Tree P_Sum P_Up P_Tree P_Tree2 P_CoreGeo P_CoreSched P_CoreArea P_CoreRad P_CoreQueue P_CoreFlood P_CoreStep P_CoreRoles P_CoreShat P_CoreHit P_CoreHit2 P_CoreSelf2 P_CoreBreak P_Ends P_CoreHalt P_CoreCount P_CoreRun.
Import ListNotations.
Local Open Scope Z_scope.

Section Event.
Variable G : graph.
Hypothesis WF : wf_graph G.
Variable ev : list nat.
Context {NI : ints} {FI : fine NI G ev}.

Lemma settled_Inv : forall ls ch s s', arena_ok (ra s) ls -> settled G ev ls ch s s' -> now (sc s') = now (sc s) /\ prog ev s s' /\ Inv G ev s'.
Proof.
  intros ls ch s s' A (Cm & P & al & c & H). split; [apply (a_now _ _ Cm)|]. split; [assumption|]. exists ls, ch, al, c. split; [|assumption]. now rewrite (a_ra _ _ Cm).
Qed.

(** Marks. *)
Lemma Roles_vis : forall s ls ch al c T, Roles G ev s ls ch al c nobody nobody -> same_but_vis (tr s) T ->
  Roles G ev (set_tr s T) ls ch al c (fun y => vis T y = true) nobody.
Proof.
  intros s ls ch al c T H (E1 & E2 & E3 & E4 & E5 & E6). unfold Roles in *. destruct H. split; cbn [tr set_tr ta ma rg nd sc].
  - assumption.
  - eapply tstr_ext; [exact b_str|]. intros b _. rewrite E1, E2, E3, E4, E5, E6. auto 10.
  - intros x _ Hn. destruct (vis T x); congruence.
  - intros x i Hx Hi. rewrite E1 in Hi. destruct (b_inn x i Hx Hi) as (A1 & A2 & A3 & A4). repeat split; auto. 
  - intros x o Hx Ho. rewrite E2 in Ho. apply (b_out x o Hx Ho).
  - intros R HR Hb Hl. destruct (b_reg R HR Hb Hl) as [(x & X1 & X2)|[(x & X1 & X2)|X]].
    + left. exists x. now rewrite E1.
    + right; left. exists x. now rewrite E2.
    + right; right. exact X.
  - exact b_sub.
Qed.

Lemma region_hits_region_spec : forall s ls ch al c r1 r2 e, Geo G ev s ls ch -> arena_ok (ra s) ls -> Roles G ev s ls ch al c nobody nobody -> event_ok G ev s ls ch al (HitRegion r1 r2 e) ->
  ends (fun fuel => region_hits_region G fuel NI s r1 r2 e) (fun s' => now (sc s') = now (sc s) /\ prog ev s s' /\ Inv G ev s').
Proof.
  intros s ls ch al c q1 q2 e HGeo AO H ((r1 & r2 & E1 & E2 & Hne & HR1 & HR2 & Hb1 & Hb2 & Ht & Sl) & HQ). unfold region_hits_region. rewrite E1, E2. cbn [deref bindO].
  fold (sof s r1) (sof s r2) in Sl. pose proof (proj1 HGeo) as HG.
  assert (HQn : (sof s r1 <> 1 \/ sof s r2 <> 1) -> sched G ls nobody nobody s).
  { intros Hs. destruct HQ as [HQ|(a & p & i & Ha & Hp & Hi & O1 & O2 & _)]; [assumption|]. exfalso.
    pose proof (b_str _ _ _ _ _ _ _ _ _ _ _ _ H) as ST. assert (Ap : In p al) by exact (proj2 (ts_up _ _ _ _ ST a Ha) p Hp).
    destruct (b_out _ _ _ _ _ _ _ _ _ _ _ _ H a r2 Ha ltac:(congruence)) as (_ & _ & S2 & _). destruct (b_out _ _ _ _ _ _ _ _ _ _ _ _ H p r1 Ap ltac:(congruence)) as (_ & _ & S1 & _).
    specialize (S1 (fun x => x)). specialize (S2 (fun x => x)). lia. }
  destruct Sl as [[S1 S2]|[[S1 S2]|[S1 S2]]].
  - (* both in trees *)
    destruct (growing_outer _ _ _ _ _ _ _ _ _ _ _ _ H r1 HR1 Hb1 S1 (fun x => x)) as (a1 & Ha1 & Ho1 & Ea1).
    destruct (growing_outer _ _ _ _ _ _ _ _ _ _ _ _ H r2 HR2 Hb2 S2 (fun x => x)) as (a2 & Ha2 & Ho2 & Ea2). rewrite Ea1, Ea2.
    pose proof (b_str _ _ _ _ _ _ _ _ _ _ _ _ H) as ST. pose proof (ts_up _ _ _ _ ST) as U.
    assert (Hna : a1 <> a2) by (intros ->; congruence).
    assert (Par : forall a p i, In a al -> par (tr s) a = Some p -> q1 = out (tr s) p -> q2 = out (tr s) a -> inn (tr s) a = Some i -> a = a2 /\ p = a1).
    { intros a p i Ha Hp O1 O2 _. assert (Ap : In p al) by exact (proj2 (U a Ha) p Hp).
      destruct (b_out _ _ _ _ _ _ _ _ _ _ _ _ H a r2 Ha ltac:(congruence)) as (_ & _ & _ & _ & X2). destruct (b_out _ _ _ _ _ _ _ _ _ _ _ _ H p r1 Ap ltac:(congruence)) as (_ & _ & _ & _ & X1). split; congruence. }
    eapply ends_bind.
    { apply (mrca_ends s a1 a2 (fun y => In y al) c _ ST Ha1 Ha2 Hna). intros y Hy. apply (b_vis _ _ _ _ _ _ _ _ _ _ _ _ H y Hy). intros []. }
    cbv beta. intros [s1 oc]. cbn [fst snd]. intros (Es & SB & Hc). set (T := tr s1) in *. clearbody T. subst s1.
    pose proof (Roles_vis s ls ch al c T H SB) as H1. set (s1 := set_tr s T) in *.
    assert (Pg : forall s', prog ev s1 s' -> prog ev s s').
    { intros s' Hs'. unfold prog in *. assert (En : nroots s1 = nroots s) by (unfold nroots, is_root; cbn [s1 tr ta set_tr]; destruct SB as (_ & _ & _ & -> & _); reflexivity).
      rewrite En in Hs'. exact Hs'. }
    assert (G1 : Geo G ev s1 ls ch) by exact HGeo.
    assert (Q1 : forall X, sched G ls nobody X s -> sched G ls nobody X s1) by (intros X HX; eapply sched_only; [| | |exact HX]; reflexivity).
    destruct oc as [x|].
    + destruct Hc as (la & lb & L & Hv).
      assert (HX : exists X, sched G ls nobody X s /\ (forall i, X i -> exists y, (In y la \/ In y lb) /\ inn (tr s) y = Some i)).
      { destruct HQ as [HQ|(a & p & i & Ha & Hp & Hi & O1 & O2 & HQ)].
        - exists nobody. split; [assumption|]. intros i [].
        - exists (one i). split; [assumption|]. intros j Hj. unfold one in Hj. subst j. destruct (Par a p i Ha Hp O1 O2 Hi) as [-> ->]. exists a2. split; [|assumption].
          destruct L as (Hx & C1 & C2 & _). right. pose proof (up_eq _ _ c U a2 Ha2) as Ea. rewrite Hp in Ea. destruct lb as [|z lb].
          + exfalso. simpl in C2. assert (length (c a2) <= length (c a1))%nat by (rewrite C1, C2, app_length; lia). rewrite Ea in H0. simpl in H0. lia.
          + rewrite C2 in Ea. injection Ea as -> _. now left. }
      destruct HX as (X & HQX & HX).
      eapply ends_impl; [apply (tree_hits_self_spec G WF ev ls ch s1 al c (fun y => vis T y = true) X r1 r2 e a1 a2 x la lb G1 (Q1 X HQX) AO H1 HR1 HR2 Hb1 Hb2 Hne S1 S2 Ea1 Ea2 Ht L)|].
      * intros y Hy Hm. now apply Hv.
      * intros i Hi. destruct (HX i Hi) as (y & Y1 & Y2). exists y. split; [assumption|]. destruct SB as (SB1 & _). cbn [s1 tr set_tr]. now rewrite SB1.
      * intros s' (N1 & N2 & N3). auto.
    + destruct Hc as (Hroot & Hv).
      assert (HQ' : sched G ls nobody nobody s).
      { destruct HQ as [HQ|(a & p & i & Ha & Hp & Hi & O1 & O2 & HQ)]; [assumption|]. exfalso. destruct (Par a p i Ha Hp O1 O2 Hi) as [-> ->].
        apply Hroot. symmetry. apply (root_step _ _ c U a2 a1 Ha2 Hp). }
      eapply ends_impl; [apply (tree_hits_other_tree_spec G WF ev ls ch s1 al c r1 r2 e a1 a2 (fun y => vis T y = true) G1 (Q1 _ HQ') H1 HR1 HR2 Hb1 Hb2 Hne S1 S2 Ea1 Ea2 Hroot)|].
      * intros b Hb Hm. apply Hv in Hm; [|assumption]. destruct Hm as [Hm|Hm]; [left|right]; apply (root_up _ _ c U); assumption.
      * exact Ht.
      * intros s' Hs'. destruct (settled_Inv ls ch s1 s' AO Hs') as (N1 & N2 & N3). auto.
  - specialize (HQn ltac:(lia)). assert (K : Core G ev ls ch s al c) by (split; [assumption|]; split; assumption).
    destruct (growing_outer _ _ _ _ _ _ _ _ _ _ _ _ H r1 HR1 Hb1 S1 (fun x => x)) as (a1 & Ha1 & Ho1 & Ea1).
    destruct (frozen_mated _ _ _ _ _ _ _ _ _ _ _ _ H r2 HR2 Hb2 S2 (fun x => x)) as (_ & Ea2 & _). rewrite Ea1, Ea2.
    destruct (mreg (ma s) r2) as [q|] eqn:Em.
    + eapply ends_impl; [apply (tree_hits_match_spec G WF ev ls ch s al c r1 r2 e K); auto; congruence|]. intros s' Hs'. apply (settled_Inv ls ch s s' AO Hs').
    + eapply ends_impl; [apply (tree_hits_boundary_match_spec G WF ev ls ch s al c r1 r2 e K); auto|]. intros s' Hs'. apply (settled_Inv ls ch s s' AO Hs').
  - specialize (HQn ltac:(lia)). assert (K : Core G ev ls ch s al c) by (split; [assumption|]; split; assumption).
    destruct (frozen_mated _ _ _ _ _ _ _ _ _ _ _ _ H r1 HR1 Hb1 S1 (fun x => x)) as (_ & Ea1 & _). rewrite Ea1.
    assert (Ht' : tgt G ev s ch r2 r1 (rev_e e)) by (apply tightx_rev; [assumption|exact Ht]).
    destruct (mreg (ma s) r1) as [q|] eqn:Em.
    + eapply ends_impl; [apply (tree_hits_match_spec G WF ev ls ch s al c r2 r1 (rev_e e) K); auto; congruence|]. intros s' Hs'. apply (settled_Inv ls ch s s' AO Hs').
    + eapply ends_impl; [apply (tree_hits_boundary_match_spec G WF ev ls ch s al c r2 r1 (rev_e e) K); auto|]. intros s' Hs'. apply (settled_Inv ls ch s s' AO Hs').
Qed.

Lemma process_event_spec : forall s ls ch al c e, Geo G ev s ls ch -> arena_ok (ra s) ls -> Roles G ev s ls ch al c nobody nobody -> event_ok G ev s ls ch al e -> e <> NoEvent ->
  ends (fun fuel => process_event G fuel NI s e) (fun s' => now (sc s') = now (sc s) /\ prog ev s s' /\ Inv G ev s').
Proof.
  intros s ls ch al c e HGeo AO H HE Hne. destruct e as [|r1 r2 e|r e|b x y].
  - congruence.
  - eapply region_hits_region_spec; eassumption.
  - destruct HE as [HE HQ]. eapply ends_impl; [apply (tree_hits_boundary_spec G WF ev ls ch s al c r e); [split; [assumption|]; now split|assumption]|].
    intros s' Hs'. apply (settled_Inv ls ch s s' AO Hs').
  - eapply shatter_blossom_spec; eassumption.
Qed.

(** The main loop stops only when nothing is queued. *)
Lemma main_loop_spec : forall fuel orc k s, Inv G ev s -> safe (main_loop G fuel orc NI k s) (fun s' => que (sc s') = [] /\ Inv G ev s').
Proof.
  intros fuel orc. induction k as [|k IH]; intros s (ls & ch & al & c & AO & HGeo & HQ & H); [exact I|]. cbn [main_loop].
  eapply safe_bind; [apply (run_until_event_spec G WF ev ls ch al c fuel orc fuel s HGeo H HQ)|]. cbv beta. intros [s1 e]. cbn [fst snd]. intros (K & G1 & H1 & HE).
  assert (AO1 : arena_ok (ra s1) ls) by now rewrite (k_ra _ _ _ K).
  pose proof (fun Hne => proj2 (process_event_spec s1 ls ch al c e G1 AO1 H1 HE Hne) fuel) as PE. destruct e as [|r1 r2 e|r e|b x y].
  - cbn [safe]. destruct HE as [HE1 HE2]. split; [assumption|]. exists ls, ch, al, c. split; [assumption|]. split; [assumption|]. now split.
  - eapply safe_bind; [apply PE; discriminate|]. intros s2 (_ & _ & I2). now apply IH.
  - eapply safe_bind; [apply PE; discriminate|]. intros s2 (_ & _ & I2). now apply IH.
  - eapply safe_bind; [apply PE; discriminate|]. intros s2 (_ & _ & I2). now apply IH.
Qed.

(** And it does stop. *)
Lemma main_loop_stops : forall orc s, Inv G ev s -> forall d, stops (fun f => main_loop G f orc NI (f - d) s).
Proof.
  intros orc s. induction (prog_wf ev s) as [s _ IH]. intros (ls & ch & al & c & AO & HGeo & HQ & H) d.
  apply (stops_fix _ (fun f k => main_loop G f orc NI k s) (fun f k => bindO (run_until_event G f orc NI f s) (fun r => match snd r with
    | NoEvent => Ok (fst r) | e => bindO (process_event G f NI (fst r) e) (fun s2 => main_loop G f orc NI k s2) end))); [reflexivity|]. cbv beta.
  eapply stops_bind.
  - apply (stops_ext _ _ (fun f => run_until_event G f orc NI (f - 0) s) 0); [intros f _; now rewrite Nat.sub_0_r|]. apply (run_until_event_stops G WF ev ls ch al c orc s HGeo H HQ).
  - intros f. apply (run_until_event_spec G WF ev ls ch al c f orc f s HGeo H HQ).
  - cbv beta. intros [s1 e]. cbn [fst snd]. intros (K & G1 & H1 & HE). assert (AO1 : arena_ok (ra s1) ls) by now rewrite (k_ra _ _ _ K).
    destruct (kept_count G ev s s1 ls ch HGeo G1 K) as (N1 & N2 & N3).
    pose proof (process_event_spec s1 ls ch al c e G1 AO1 H1 HE) as PE.
    assert (Go : e <> NoEvent -> stops (fun f => bindO (process_event G f NI s1 e) (fun s2 => main_loop G f orc NI (f - S d) s2))).
    { intros Hne. destruct (PE Hne) as [P1 P2]. eapply stops_bind; [exact P1|exact P2|]. cbv beta. intros s2 (_ & Pg & I2). apply IH; [|assumption].
      unfold prog in *. rewrite N1, N2, N3 in Pg. exact Pg. }
    destruct e; [apply stops_ok|apply Go; discriminate..].
Qed.
End Event.
