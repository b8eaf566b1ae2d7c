(** Invariants of the decoder's core, part 21: the detection events that are placed; the end of the main loop. *)
From Coq Require Import ZArith NArith List Bool Arith Lia Permutation Sorting.Sorted.
From Verif Require Import M_Base M_Varying M_Tracker M_Core S_Core S_Session S_Tree P_Sum P_Dual P_Up P_Tree P_Tree2 P_CoreGeo P_CoreSched P_CoreArea P_CoreRad P_CoreQueue P_CoreFlood P_CoreStep P_CoreRoles P_CoreShat P_CoreHit P_CoreSelf2 P_CoreEvent P_CoreStart.
Import ListNotations.
Local Open Scope Z_scope.

Section Add.
Variable G : graph.
Context {NI : ints} {WNI : wfine NI G}.
Hypothesis WF : wf_graph G.

Lemma idle_start : forall s, idle G s -> start G [] (fun _ => false) [] [] (set_sc s (mkQ (ntr (sc s)) (rtr (sc s)) [] 0 (tick (sc s)))).
Proof.
  intros s [I1 I2 I3 I4]. split; cbn [sc set_sc now ra ta nd rg tr ma]; auto; try (intros ? []; fail).
  - split; cbn [umn arr top wrp src crs rar]; try (intros ? []; fail); try (intros ? ? []; fail).
    + constructor.
    + intros v R Hv. destruct (I2 v Hv) as (-> & _). discriminate.
    + intros v R Hv. destruct (I2 v Hv) as (-> & _). discriminate.
    + intros v R Hv. destruct (I2 v Hv) as (-> & _). discriminate.
    + intros v Hv _. destruct (I2 v Hv) as (A1 & A2 & A3 & A4 & A5 & A6 & _). auto 10.
    + constructor.
    + intros v R Hv. destruct (I2 v Hv) as (-> & _). discriminate.
    + intros v R Hv. destruct (I2 v Hv) as (-> & _). discriminate.
    + intros u x w o Hin. cbn [zsum]. apply (wf_weight G WF _ _ _ _ Hin).
    + intros a b R [].
  - split; cbn [sc set_sc ntr rtr que now tick nd rg]; try (intros ? []; fail); try (intros ? ? []; fail).
    + intros v Hv E. destruct (I2 v Hv) as (_ & _ & _ & _ & _ & _ & _ & Q). congruence.
    + intros v Hv E. destruct (I2 v Hv) as (_ & _ & _ & _ & _ & _ & Q & _). congruence.
    + intros v Hv _ E. destruct (I2 v Hv) as (_ & _ & _ & _ & _ & _ & Q & _). congruence.
    + intros u x w o T Hin Ha _ _. exfalso. destruct (nbr_bound G WF _ _ _ _ Hin) as [Hu Hx].
      assert (N : forall v, (v < length G)%nat -> nsl (set_sc s (mkQ (ntr (sc s)) (rtr (sc s)) [] 0 (tick (sc s)))) v = 0).
      { intros v Hv. unfold nsl, local_radius. cbn [nd set_sc]. destruct (I2 v Hv) as (_ & E1 & E2 & _). rewrite E1. reflexivity. }
      unfold appr in Ha. rewrite (N u Hu) in Ha. destruct x as [v|]; [|discriminate]. rewrite (N v (Hx v eq_refl)) in Ha.
      destruct (same_opt _ _); discriminate.
  - intros v Hv E. destruct (I2 v Hv) as (E1 & _). congruence.
  - intros v Hv. destruct (I2 v Hv) as (A1 & A2 & A3 & A4 & A5 & A6 & _). exact A6.
Qed.

Lemma mark_start : forall ev K ls al s v b, start G ev K ls al s -> start G ev (upd K v b) ls al (set_mark s v (if b then 1 else 0)).
Proof.
  intros ev K ls al s v b H. destruct H. split; auto.
  - clear - st_sch. destruct st_sch. split; auto.
  - intros x Hx. cbn [set_mark nd set_nd set_rar rar]. unfold upd. destruct (x =? v)%nat; auto.
Qed.
Definition notin (l : list nat) (v : nat) : bool := negb (existsb (Nat.eqb v) l).
Lemma notin_spec : forall l v, notin l v = false <-> In v l.
Proof.
  intros l v. unfold notin. rewrite negb_false_iff, existsb_exists. split.
  - intros (x & Hx & E). apply Nat.eqb_eq in E. now subst.
  - intros H. exists v. split; [assumption|apply Nat.eqb_refl].
Qed.
Lemma notin_spec' : forall l v, notin l v = true <-> ~ In v l.
Proof. intros l v. rewrite <- notin_spec. destruct (notin l v); split; congruence. Qed.

Lemma start_ext : forall ev K K' ls al s, start G ev K ls al s -> (forall v, (v < length G)%nat -> K' v = K v) -> start G ev K' ls al s.
Proof. intros ev K K' ls al s H E. destruct H. split; auto. intros v Hv. rewrite E by assumption. auto. Qed.

Lemma marks_start : forall ev ls al l s K, start G ev K ls al s ->
  start G ev (fun v => K v || negb (notin l v)) ls al (fold_left (fun s v => set_mark s v 1) l s).
Proof.
  intros ev ls al l. induction l as [|x l IH]; intros s K H; cbn [fold_left].
  - eapply start_ext; [exact H|]. intros v _. cbn. now rewrite orb_false_r.
  - eapply start_ext; [apply (IH _ _ (mark_start ev K ls al s x true H))|]. intros v _. unfold upd, notin. cbn [existsb].
    rewrite !negb_involutive, (Nat.eqb_sym v x). rewrite Nat.eqb_sym. destruct (v =? x)%nat; simpl; [now rewrite orb_true_r|reflexivity].
Qed.

Section Bnd.
Variable I : neg_info.
Notation bnd v := (nth v (is_bnd I) false).

Lemma plain_spec : forall l s ev ls al, start G ev (fun _ => false) ls al s -> NoDup l -> (forall v, In v l -> (v < length G)%nat /\ ~ In v ev) ->
  exists s' ev' ls' al', foldS (add_plain G NI I) l s = Ok s' /\ start G ev' (fun _ => false) ls' al' s' /\ (forall v, In v ev' <-> In v ev \/ (In v l /\ bnd v = false)).
Proof.
  induction l as [|x l IH]; intros s ev ls al H ND Hl.
  - exists s, ev, ls, al. split; [reflexivity|]. split; [assumption|]. simpl. intuition.
  - rewrite foldS_cons. destruct (Hl x (or_introl eq_refl)) as [Hx Hxe]. inversion ND as [|? ? Nx ND']; subst.
    unfold add_plain at 1. destruct (Nat.leb_spec (length G) x) as [Hle|_]; [lia|]. cbn [bindO]. unfold maybe_create.
    destruct (bnd x) eqn:Eb.
    + destruct (IH s ev ls al H ND') as (s' & ev' & ls' & al' & E1 & E2 & E3).
      { intros v Hv. apply Hl. now right. }
      exists s', ev', ls', al'. split; [assumption|]. split; [assumption|]. intros v. rewrite E3. simpl. split; [tauto|]. intros [?|[[<-|?] ?]]; auto. congruence.
    + destruct (create_spec G WF ev _ ls al s x H Hx Hxe eq_refl) as (ls1 & al1 & H1).
      destruct (IH _ _ _ _ H1 ND') as (s' & ev' & ls' & al' & E1 & E2 & E3).
      { intros v Hv. split; [apply Hl; now right|]. intros [->|Hi]; [contradiction|]. apply (Hl v); [now right|assumption]. }
      exists s', ev', ls', al'. split; [assumption|]. split; [assumption|]. intros v. rewrite E3. simpl. split.
      * intros [[<-|?]|[? ?]]; auto.
      * intros [?|[[<-|?] ?]]; auto.
Qed.

Lemma marked_spec : forall l s ev K ls al, start G ev K ls al s -> NoDup l -> (forall v, In v l -> (v < length G)%nat /\ ~ In v ev) -> (forall v, In v ev -> K v = false) ->
  exists s' ev' ls' al', foldS (add_marked G NI I) l s = Ok s' /\ start G ev' (fun v => K v && notin l v) ls' al' s' /\
    (forall v, In v ev' <-> In v ev \/ (In v l /\ bnd v = false /\ K v = false)).
Proof.
  induction l as [|x l IH]; intros s ev K ls al H ND Hl HK.
  - exists s, ev, ls, al. split; [reflexivity|]. split; [|simpl; intuition]. eapply start_ext; [exact H|]. intros v _. cbn. apply andb_true_r.
  - rewrite foldS_cons. destruct (Hl x (or_introl eq_refl)) as [Hx Hxe]. inversion ND as [|? ? Nx ND']; subst.
    assert (Nin : forall v, notin (x :: l) v = negb (v =? x)%nat && notin l v) by (intros v; unfold notin; cbn [existsb]; apply negb_orb).
    unfold add_marked at 1. destruct (Nat.leb_spec (length G) x) as [Hle|_]; [lia|]. rewrite (st_mark _ _ _ _ _ _ H x Hx).
    destruct (K x) eqn:EK; cbn [Z.eqb bindO].
    + destruct (IH _ ev (upd K x false) ls al (mark_start ev K ls al s x false H) ND') as (s' & ev' & ls' & al' & E1 & E2 & E3).
      { intros v Hv. apply Hl. now right. }
      { intros v Hv. unfold upd. destruct (v =? x)%nat; auto. }
      exists s', ev', ls', al'. split; [assumption|]. split.
      * eapply start_ext; [exact E2|]. intros v _. cbv beta. rewrite Nin. unfold upd. destruct (v =? x)%nat; simpl; [now rewrite andb_false_r|reflexivity].
      * intros v. rewrite E3. unfold upd. simpl. destruct (Nat.eqb_spec v x) as [->|]; split; try tauto.
        -- intros [?|(? & ? & ?)]; auto. exfalso. congruence.
        -- intros [?|([<-|?] & ? & ?)]; auto; congruence.
    + unfold maybe_create. destruct (bnd x) eqn:Eb.
      * destruct (IH s ev K ls al H ND') as (s' & ev' & ls' & al' & E1 & E2 & E3).
        { intros v Hv. apply Hl. now right. }
        { assumption. }
        exists s', ev', ls', al'. split; [assumption|]. split.
        -- eapply start_ext; [exact E2|]. intros v _. cbv beta. rewrite Nin. destruct (Nat.eqb_spec v x) as [->|]; simpl; [now rewrite EK|reflexivity].
        -- intros v. rewrite E3. simpl. split; [tauto|]. intros [?|[[<-|?] ?]]; auto. destruct H0. congruence.
      * destruct (create_spec G WF ev K ls al s x H Hx Hxe EK) as (ls1 & al1 & H1).
        destruct (IH _ _ K _ _ H1 ND') as (s' & ev' & ls' & al' & E1 & E2 & E3).
        { intros v Hv. split; [apply Hl; now right|]. intros [->|Hi]; [contradiction|]. apply (Hl v); [now right|assumption]. }
        { intros v [<-|Hv]; auto. }
        exists s', ev', ls', al'. split; [assumption|]. split.
        -- eapply start_ext; [exact E2|]. intros v _. cbv beta. rewrite Nin. destruct (Nat.eqb_spec v x) as [->|]; simpl; [now rewrite EK|reflexivity].
        -- intros v. rewrite E3. simpl. split.
           ++ intros [[<-|?]|(? & ? & ?)]; auto.
           ++ intros [?|([<-|?] & ? & ?)]; auto.
Qed.

Lemma left_spec : forall l s ev K ls al, start G ev K ls al s -> NoDup l -> (forall v, In v l -> (v < length G)%nat) -> (forall v, In v ev -> K v = false) ->
  exists ev' ls' al', start G ev' (fun v => K v && notin l v) ls' al' (fold_left (add_left G NI) l s) /\
    (forall v, In v ev' <-> In v ev \/ (In v l /\ K v = true)).
Proof.
  induction l as [|x l IH]; intros s ev K ls al H ND Hl HK; cbn [fold_left].
  - exists ev, ls, al. split; [|simpl; intuition]. eapply start_ext; [exact H|]. intros v _. cbn. apply andb_true_r.
  - pose proof (Hl x (or_introl eq_refl)) as Hx. inversion ND as [|? ? Nx ND']; subst.
    assert (Nin : forall v, notin (x :: l) v = negb (v =? x)%nat && notin l v) by (intros v; unfold notin; cbn [existsb]; apply negb_orb).
    unfold add_left at 2. rewrite (st_mark _ _ _ _ _ _ H x Hx). destruct (K x) eqn:EK; cbn [Z.eqb].
    + assert (Hxe : ~ In x ev) by (intros Hi; rewrite (HK x Hi) in EK; discriminate).
      destruct (create_spec G WF ev (upd K x false) ls al _ x (mark_start ev K ls al s x false H) Hx Hxe) as (ls1 & al1 & H1).
      { unfold upd. now rewrite Nat.eqb_refl. }
      destruct (IH _ _ _ _ _ H1 ND') as (ev' & ls' & al' & E2 & E3).
      { intros v Hv. apply Hl. now right. }
      { intros v [<-|Hv]; unfold upd; [now rewrite Nat.eqb_refl|]. destruct (v =? x)%nat; auto. }
      exists ev', ls', al'. split.
      * eapply start_ext; [exact E2|]. intros v _. cbv beta. rewrite Nin. unfold upd. destruct (v =? x)%nat; simpl; [now rewrite andb_false_r|reflexivity].
      * intros v. rewrite E3. unfold upd. simpl. destruct (Nat.eqb_spec v x) as [->|]; split; try tauto.
        intros [[?|?]|(? & ?)]; auto; congruence.
    + destruct (IH s ev K ls al H ND') as (ev' & ls' & al' & E2 & E3).
      { intros v Hv. apply Hl. now right. }
      { assumption. }
      exists ev', ls', al'. split.
      * eapply start_ext; [exact E2|]. intros v _. cbv beta. rewrite Nin. destruct (Nat.eqb_spec v x) as [->|]; simpl; [now rewrite EK|reflexivity].
      * intros v. rewrite E3. simpl. split; [tauto|]. intros [?|[[<-|?] ?]]; auto. congruence.
Qed.

Lemma add_events_spec : forall s evs, idle G s -> NoDup evs -> (forall v, In v evs -> (v < length G)%nat) ->
  NoDup (neg_events I) -> (forall v, In v (neg_events I) -> (v < length G)%nat) ->
  let s0 := set_sc s (mkQ (ntr (sc s)) (rtr (sc s)) [] 0 (tick (sc s))) in
  exists s' ev, add_events G NI I s0 evs = Ok s' /\ Inv G ev s' /\
    (forall v, In v ev <-> (In v evs /\ bnd v = false /\ ~ In v (neg_events I)) \/ (In v (neg_events I) /\ ~ In v evs)).
Proof.
  intros s evs HI N1 B1 N2 B2 s0. pose proof (idle_start s HI) as H0. fold s0 in H0. unfold add_events.
  destruct (neg_events I) as [|z nl] eqn:En.
  - destruct (plain_spec evs s0 [] [] [] H0 N1) as (s' & ev & ls & al & E1 & E2 & E3).
    { intros v Hv. split; auto. }
    exists s', ev. split; [assumption|]. split; [eapply start_Inv; [exact WF|exact E2|reflexivity]|]. intros v. rewrite E3. simpl. tauto.
  - rewrite <- En in *. clear z nl En. set (nl := neg_events I) in *.
    pose proof (marks_start [] [] [] nl s0 _ H0) as H1. cbn [orb] in H1. set (s1 := fold_left _ nl s0) in *.
    destruct (marked_spec evs s1 [] _ [] [] H1 N1) as (s2 & ev2 & ls2 & al2 & E1 & E2 & E3).
    { intros v Hv. split; auto. }
    { intros v []. }
    rewrite E1. cbn [bindO].
    destruct (left_spec nl s2 ev2 _ ls2 al2 E2 N2 B2) as (ev & ls & al & E4 & E5).
    { intros v Hv. apply E3 in Hv as [[]|(A1 & A2 & A3)]. rewrite A3. reflexivity. }
    eexists _, ev. split; [reflexivity|]. split.
    + eapply start_Inv; [exact WF|exact E4|]. intros v _. cbv beta. destruct (notin nl v) eqn:E; simpl; [|now rewrite andb_false_r]. reflexivity.
    + intros v. rewrite E5, E3. rewrite andb_true_iff, negb_true_iff, negb_false_iff, notin_spec, !notin_spec'. simpl. tauto.
Qed.
End Bnd.
End Add.
