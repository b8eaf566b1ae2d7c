(** The theorems about a whole decode. *)
From Coq Require Import ZArith NArith List Bool Arith Lia Permutation.
From Verif Require Import M_Base M_Varying M_Tracker M_Core M_Session S_Core S_Session S_Decode S_Tree P_Session P_Sum P_Dual P_Up P_Tree P_CoreGeo P_CoreSched P_CoreArea P_CoreRoles P_CoreHit P_CoreSelf2 P_CoreEvent P_CoreAdd P_CoreExt1 P_CoreExt2 P_CorePath P_CoreDecode.
Import ListNotations.
Local Open Scope Z_scope.

Lemma effective_plain : forall evs v, effective plain evs v <-> In v evs.
Proof. intros evs v. unfold effective. cbn [plain neg_events is_bnd]. destruct v; simpl; tauto. Qed.
Lemma explains_ext : forall G F l l', (forall v, In v l <-> In v l') -> explains G F l -> explains G F l'.
Proof. intros G F l l' E [H1 H2]. split; [assumption|]. intros v. rewrite H2. apply E. Qed.

Section Top.
Variables (G : graph) (fuel : nat) (orc : nat -> nat) (I : neg_info) (s : state) (evs : list nat).
Context {NI : ints} {AB : able NI G I evs}.
Hypothesis WF : wf_graph G.
Hypothesis HI : idle G s.
Hypothesis V : valid_events G evs.
Hypothesis VN : valid_events G (neg_events I).

Lemma decode_answer : forall s' o w l, decode G fuel orc NI I s evs = Ok (s', (o, w, l)) ->
  exists ev F, NoDup ev /\ (forall v, In v ev <-> effective I evs v) /\ NoDup F /\ explains G F ev /\ N.lxor (obs_of F) (neg_obs I) = o /\
    weight_of F + neg_sum I = w /\ forall F', explains G F' ev -> w <= weight_of F' + neg_sum I.
Proof.
  intros s' o w l E. destruct V as [V1 V2], VN as [V3 V4]. destruct (decode_spec G WF fuel orc I s evs HI V1 V2 V3 V4) as (ev & N1 & N2 & H). rewrite E in H. destruct H as (H1 & H2 & H3 & H4 & H5).
  destruct (paths_explain G WF l _ ev H3 H4 N1) as (F & F1 & F2 & F3). destruct (cancel_explains G WF F ev F1) as (F' & C1 & C2 & C3 & C4).
  exists ev, F'. split; [assumption|]. split; [assumption|]. split; [assumption|]. split; [assumption|]. pose proof (H5 F' C2). split; [congruence|]. split; [lia|]. intros F'' HF. pose proof (H5 F'' HF). lia.
Qed.
Lemma decode_throws : decode G fuel orc NI I s evs = Throw -> forall F ev, (forall v, In v ev <-> effective I evs v) -> ~ explains G F ev.
Proof.
  intros E F ev Hev HF. destruct V as [V1 V2], VN as [V3 V4]. destruct (decode_spec G WF fuel orc I s evs HI V1 V2 V3 V4) as (ev' & N1 & N2 & H). rewrite E in H. apply (H F).
  apply (explains_ext G F ev); [|assumption]. intros v. rewrite Hev, N2. reflexivity.
Qed.
Lemma decode_defined : decode G fuel orc NI I s evs <> UB.
Proof.
  destruct V as [V1 V2], VN as [V3 V4]. destruct (decode_spec G WF fuel orc I s evs HI V1 V2 V3 V4) as (ev' & N1 & N2 & H). intros E. rewrite E in H. exact H.
Qed.
Lemma decode_idle : forall s' r, decode G fuel orc NI I s evs = Ok (s', r) -> idle G s'.
Proof.
  intros s' [[o w] l] E. destruct V as [V1 V2], VN as [V3 V4]. destruct (decode_spec G WF fuel orc I s evs HI V1 V2 V3 V4) as (ev' & N1 & N2 & H). rewrite E in H. apply H.
Qed.
Lemma decode_pairs : forall s' o w l, decode G fuel orc NI I s evs = Ok (s', (o, w, l)) ->
  NoDup (flat_map pair_ends l) /\ (forall v, In v (flat_map pair_ends l) <-> effective I evs v) /\ Forall (fun e => efrom e <> None) l.
Proof.
  intros s' o w l E. destruct V as [V1 V2], VN as [V3 V4]. destruct (decode_spec G WF fuel orc I s evs HI V1 V2 V3 V4) as (ev & N1 & N2 & H). rewrite E in H. destruct H as (H1 & H2 & H3 & H4 & H5).
  assert (X : flat_map pair_ends l = tips l).
  { unfold tips. clear. induction l as [|e l IH]; [reflexivity|]. cbn [flat_map]. rewrite IH. f_equal. unfold pair_ends. destruct (efrom e), (eto e); reflexivity. }
  rewrite X. split; [apply (Permutation_NoDup (Permutation_sym H4) N1)|]. split.
  - intros v. rewrite <- N2. split; intros; [apply (Permutation_in _ H4)|apply (Permutation_in _ (Permutation_sym H4))]; assumption.
  - clear -H3. revert H3. generalize (w - neg_sum I). induction l as [|e l IH]; intros z H; constructor; cbn [paths] in H; destruct H as (a & w' & E1 & E2 & E3); [congruence|eapply IH; exact E3].
Qed.
Lemma decode_shortest : forall s' o w l, decode G fuel orc NI I s evs = Ok (s', (o, w, l)) ->
  exists ws, Forall2 (stands_for_shortest G) l ws /\ fold_right Z.add 0 ws + neg_sum I = w /\ fold_right N.lxor 0%N (map eobs l) = N.lxor o (neg_obs I).
Proof.
  intros s' o w l E. destruct V as [V1 V2], VN as [V3 V4]. destruct (decode_spec G WF fuel orc I s evs HI V1 V2 V3 V4) as (ev & N1 & N2 & H). rewrite E in H. destruct H as (H1 & H2 & H3 & H4 & H5).
  assert (X : forall l2 l1 z1 z2, paths G l1 z1 -> paths G l2 z2 -> l = l1 ++ l2 -> z1 + z2 = w - neg_sum I -> exists ws, Forall2 (stands_for_shortest G) l2 ws /\ fold_right Z.add 0 ws = z2).
  { induction l2 as [|e l2 IH]; intros l1 z1 z2 P1 P2 El Ez.
    - exists []. split; [constructor|]. cbn [paths] in P2. now subst.
    - cbn [paths] in P2. destruct P2 as (a & w' & E1 & E2 & E3). assert (P1' : paths G (l1 ++ [e]) (z1 + w')).
      { apply paths_app; [assumption|]. exists a, w'. repeat split; auto. cbn [paths]. lia. }
      destruct (IH (l1 ++ [e]) (z1 + w') (z2 - w') P1' E3) as (ws & W1 & W2); [rewrite <- app_assoc; exact El|lia|].
      exists (w' :: ws). split; [|cbn [fold_right]; lia]. constructor; [|assumption]. exists a. split; [assumption|]. split; [assumption|]. intros w2 o2 HP.
      pose (e2 := mkE (Some a) (eto e) o2).
      assert (P : paths G (l1 ++ e2 :: l2) (z1 + (w2 + (z2 - w')))).
      { apply paths_app; [assumption|]. cbn [paths]. exists a, w2. split; [reflexivity|]. split; [exact HP|]. replace (w2 + (z2 - w') - w2) with (z2 - w') by lia. exact E3. }
      assert (Pe : Permutation (tips (l1 ++ e2 :: l2)) ev).
      { etransitivity; [|exact H4]. rewrite El. unfold tips. rewrite !flat_map_app. cbn [flat_map e2 efrom eto]. rewrite E1. reflexivity. }
      destruct (paths_explain G WF _ _ ev P Pe N1) as (F & F1 & F2 & F3). pose proof (H5 F F1). lia. }
  destruct (X l [] 0 (w - neg_sum I) eq_refl H3 eq_refl eq_refl) as (ws & W1 & W2). exists ws. split; [assumption|]. split; [lia|].
  subst o. rewrite N.lxor_assoc, N.lxor_nilpotent, N.lxor_0_r. clear. unfold xorl. induction l as [|e l IH]; [reflexivity|]. cbn [map fold_right]. now rewrite IH.
Qed.
End Top.

(** ** Sessions *)
Lemma init_idle : forall G, idle G init_state.
Proof. intros G. split; [reflexivity| |constructor|constructor]. intros v _. repeat split. Qed.
Lemma history_idle : forall G I s, wf_graph G -> valid_events G (neg_events I) -> history G exact_ints I s -> idle G s.
Proof.
  intros G I s WF VN H. induction H as [|s fuel orc evs s' r H IH V E R]; [apply init_idle|]. destruct R as [[x ->]| ->].
  - apply decode_st_ok in E. apply (decode_idle G fuel orc I s evs WF IH V VN s' x E).
  - eapply failed_idle. exact E.
Qed.
Lemma same_weight : forall G I s1 s2 fuel1 fuel2 orc1 orc2 evs s1' s2' o1 o2 w1 w2 l1 l2, wf_graph G -> valid_events G (neg_events I) -> valid_events G evs ->
  idle G s1 -> idle G s2 -> decode G fuel1 orc1 exact_ints I s1 evs = Ok (s1', (o1, w1, l1)) -> decode G fuel2 orc2 exact_ints I s2 evs = Ok (s2', (o2, w2, l2)) -> w1 = w2.
Proof.
  intros G I s1 s2 fuel1 fuel2 orc1 orc2 evs s1' s2' o1 o2 w1 w2 l1 l2 WF VN V I1 I2 E1 E2.
  destruct (decode_answer _ _ _ _ _ _ WF I1 V VN _ _ _ _ E1) as (ev & F & A1 & A2 & A3 & A4 & A5 & A6 & A7).
  destruct (decode_answer _ _ _ _ _ _ WF I2 V VN _ _ _ _ E2) as (ev' & F' & B1 & B2 & B3 & B4 & B5 & B6 & B7).
  pose proof (A7 F' (explains_ext G F' ev' ev (fun v => iff_trans (B2 v) (iff_sym (A2 v))) B4)). pose proof (B7 F (explains_ext G F ev ev' (fun v => iff_trans (A2 v) (iff_sym (B2 v))) A4)). lia.
Qed.
Lemma same_outcome : forall G I s1 s2 fuel1 fuel2 orc1 orc2 evs x, wf_graph G -> valid_events G (neg_events I) -> valid_events G evs ->
  idle G s1 -> idle G s2 -> decode G fuel1 orc1 exact_ints I s1 evs = Ok x -> decode G fuel2 orc2 exact_ints I s2 evs <> Throw.
Proof.
  intros G I s1 s2 fuel1 fuel2 orc1 orc2 evs [s1' [[o1 w1] l1]] WF VN V I1 I2 E1 E2.
  destruct (decode_answer _ _ _ _ _ _ WF I1 V VN _ _ _ _ E1) as (ev & F & A1 & A2 & A3 & A4 & A5 & A6 & A7). apply (decode_throws _ _ _ _ _ _ WF I2 V VN E2 F ev A2 A4).
Qed.

(** ** Connections *)
Lemma arena_in_use : forall a l x, arena_ok a l -> in_use a x -> In x l.
Proof.
  intros a l x H [H1 H2]. assert (X : In x (l ++ free a)) by (apply (Permutation_in _ (Permutation_sym H)), in_seq; lia). apply in_app_or in X as [X|X]; [assumption|contradiction].
Qed.
Lemma Inv_connections : forall G ev s, wf_graph G -> Inv G ev s -> connections_real G (fun v => In v ev) s.
Proof.
  intros G ev s WF (ls & ch & al & c & AO & HGeo & HQ & HR). pose proof (proj1 HGeo) as HG.
  assert (Tx : forall k R Q e, tightx G ev (nd s) ch (rval (rg s) (now (sc s))) k R Q e -> connects G (fun v => In v ev) e).
  { intros k R Q e (a & b & E1 & E2 & E3 & E4 & _ & _ & W). eexists a, _. split; [assumption|]. split; [assumption|]. split; [intros b' Eb; congruence|]. rewrite E2. exact W. }
  assert (Tb : forall R e, tbt G ev s ch R e -> connects G (fun v => In v ev) e).
  { intros R e (a & E1 & E2 & E3 & _ & W). eexists a, _. split; [assumption|]. split; [assumption|]. split; [intros b' Eb; congruence|]. rewrite E2. exact W. }
  pose proof (b_str _ _ _ _ _ _ _ _ _ _ _ _ HR) as ST. pose proof (b_arena _ _ _ _ _ _ _ _ _ _ _ _ HR) as AT.
  split.
  - intros v R Hv Ea. destruct (g_walk _ _ _ _ _ _ _ HG v R Hv Ea) as (a & E1 & E2 & _ & W). eauto.
  - intros R HU Hb Ha. apply (arena_in_use _ _ _ AO) in HU. destruct (b_reg _ _ _ _ _ _ _ _ _ _ _ _ HR R HU Hb (fun h => h)) as [(x & X1 & X2)|[(x & X1 & X2)|X]].
    + destruct (b_inn _ _ _ _ _ _ _ _ _ _ _ _ HR x R X1 X2) as (_ & _ & _ & X). rewrite (X (fun h => h)) in Ha. discriminate.
    + destruct (b_out _ _ _ _ _ _ _ _ _ _ _ _ HR x R X1 X2) as (_ & _ & _ & _ & X). congruence.
    + destruct X as (_ & _ & X). destruct (mreg (ma s) R) as [Q|]; [|apply (Tb R); assumption]. destruct X as (_ & _ & _ & _ & _ & _ & X). exact (Tx _ _ _ _ X).
  - intros R x e HU Hin. apply (arena_in_use _ _ _ AO) in HU. destruct (In_nth _ _ dflt Hin) as (i & Hi & En). pose proof (g_cyc _ _ _ _ _ _ _ HG R i HU Hi) as X.
    apply Tx in X. unfold edge_at in X. rewrite Nat.mod_small in X by assumption. rewrite En in X. exact X.
  - intros a HU Hi. apply (arena_in_use _ _ _ AT) in HU. destruct (inn (tr s) a) as [i|] eqn:Ei; [|congruence]. destruct (ts_innpar _ _ _ _ a i ST HU Ei) as [p Ep].
    destruct (ts_par _ _ _ _ ST a p HU Ep) as (_ & i' & o & op & _ & _ & _ & T1 & T2). exact (Tx _ _ _ _ T1).
  - intros a HU Hp. apply (arena_in_use _ _ _ AT) in HU. destruct (par (tr s) a) as [p|] eqn:Ep; [|congruence].
    destruct (ts_par _ _ _ _ ST a p HU Ep) as (_ & i' & o & op & _ & _ & _ & T1 & T2). exact (Tx _ _ _ _ T2).
  - intros a b e HU Hin. apply (arena_in_use _ _ _ AT) in HU. destruct (ts_kid _ _ _ _ ST a b e HU Hin) as (Hb & Ep & Ee).
    destruct (ts_par _ _ _ _ ST b a Hb Ep) as (_ & i' & o & op & _ & _ & _ & T1 & T2). unfold tgt, tight in T2. apply tightx_rev in T2; [|assumption]. rewrite Ee, rev_rev_e in T2. exact (Tx _ _ _ _ T2).
Qed.
Lemma reached_connections : forall G I s evs s', wf_graph G -> idle G s -> valid_events G evs -> valid_events G (neg_events I) ->
  reached G exact_ints I s evs s' -> connections_real G (effective I evs) s'.
Proof.
  intros G I s evs s' WF HI [V1 V2] [V3 V4] H.
  destruct (add_events_spec (NI := exact_ints) G WF I s evs HI V1 V2 V3 V4) as (s1 & ev & E1 & HInv & Hev).
  assert (X : Inv G ev s').
  { induction H as [s2 E2|fuel orc s2 s3 e s4 H IH E2 E3]; [congruence|]. destruct IH as (ls & ch & al & c & AO & HGeo & HQ & HR).
    pose proof (run_until_event_spec G WF ev ls ch al c fuel orc fuel s2 HGeo HR HQ) as S. rewrite E2 in S. cbn [safe fst snd] in S. destruct S as (K & G1 & H1 & HE).
    assert (AO1 : arena_ok (ra s3) ls) by now rewrite (k_ra _ _ _ K). pose proof (process_event_spec (NI := exact_ints) G WF ev s3 ls ch al c e G1 AO1 H1 HE) as PE. destruct e as [|r1 r2 e|r e|b x y]; [cbn [process_event] in E3; injection E3 as <-; exists ls, ch, al, c; destruct HE as [_ HE]; split; [assumption|]; split; [assumption|]; now split| | |];
      specialize (proj2 (PE ltac:(discriminate)) fuel); cbv beta; rewrite E3; intros (_ & _ & PI); exact PI. }
  pose proof (Inv_connections G ev s' WF X) as C.
  assert (Cn : forall e, connects G (fun v => In v ev) e -> connects G (effective I evs) e).
  { intros e (a & w & A1 & A2 & A3 & A4). exists a, w. split; [assumption|]. split; [apply Hev; assumption|]. split; [|assumption]. intros b Eb. apply Hev. now apply A3. }
  destruct C as [C1 C2 C3 C4 C5 C6]. split; intros; try (apply Cn; eauto). destruct (C1 v R) as (a & w & X1 & X2 & X3); try assumption. exists a, w. split; [assumption|]. split; [apply Hev; assumption|assumption].
Qed.

(** ** Without negative weights *)
Lemma plain_valid : forall G, valid_events G (neg_events plain).
Proof. intros G. split; [constructor|intros v []]. Qed.
Section Plain.
Variables (G : graph) (fuel : nat) (orc : nat -> nat) (s : state) (evs : list nat).
Context {NI : ints} {AB : able NI G plain evs}.
Hypothesis WF : wf_graph G.
Hypothesis HI : idle G s.
Hypothesis V : valid_events G evs.
Lemma plain_answer : forall s' o w l, decode G fuel orc NI plain s evs = Ok (s', (o, w, l)) ->
  (exists F, NoDup F /\ explains G F evs /\ obs_of F = o /\ weight_of F = w) /\ (forall F, explains G F evs -> w <= weight_of F).
Proof.
  intros s' o w l E. destruct (decode_answer G fuel orc plain s evs WF HI V (plain_valid G) s' o w l E) as (ev & F & _ & H2 & H3 & H4 & H5 & H6 & H7).
  pose (Ee := fun v => iff_trans (H2 v) (effective_plain evs v)). split.
  - exists F. split; [exact H3|]. split; [exact (explains_ext G F ev evs Ee H4)|]. split; [rewrite <- H5; symmetry; apply N.lxor_0_r|]. rewrite <- H6. cbn [plain neg_sum]. lia.
  - intros F' HF. pose proof (H7 F' (explains_ext G F' evs ev (fun v => iff_sym (Ee v)) HF)) as X. cbn [plain neg_sum] in X. lia.
Qed.
Lemma plain_observables : forall s' o w l, decode G fuel orc NI plain s evs = Ok (s', (o, w, l)) -> exists F, NoDup F /\ explains G F evs /\ obs_of F = o.
Proof. intros s' o w l E. destruct (plain_answer s' o w l E) as ((F & H1 & H2 & H3 & _) & _). eauto. Qed.
Lemma plain_infeasible : (forall F, ~ explains G F evs) -> forall x, decode G fuel orc NI plain s evs <> Ok x.
Proof. intros H [s' [[o w] l]] E. destruct (plain_observables s' o w l E) as (F & _ & HF & _). exact (H F HF). Qed.
Lemma plain_pairs : forall s' o w l, decode G fuel orc NI plain s evs = Ok (s', (o, w, l)) ->
  Permutation (flat_map pair_ends l) evs /\ Forall (fun e => efrom e <> None) l.
Proof.
  intros s' o w l E. destruct (decode_pairs G fuel orc plain s evs WF HI V (plain_valid G) s' o w l E) as (H1 & H2 & H3).
  split; [|exact H3]. apply NoDup_Permutation; [exact H1|exact (proj1 V)|]. intros v. rewrite H2. apply effective_plain.
Qed.
End Plain.
Lemma same_as_new : forall G I s fuel1 fuel2 orc1 orc2 evs s1 o1 w1 l1,
  wf_graph G -> valid_events G (neg_events I) -> valid_events G evs -> history G exact_ints I s ->
  decode G fuel1 orc1 exact_ints I init_state evs = Ok (s1, (o1, w1, l1)) ->
  decode G fuel2 orc2 exact_ints I s evs <> Throw /\
  forall s2 o2 w2 l2, decode G fuel2 orc2 exact_ints I s evs = Ok (s2, (o2, w2, l2)) -> w2 = w1.
Proof.
  intros G I s fuel1 fuel2 orc1 orc2 evs s1 o1 w1 l1 WF VN V H E. pose proof (history_idle G I s WF VN H) as HI. split.
  - exact (same_outcome G I init_state s fuel1 fuel2 orc1 orc2 evs _ WF VN V (init_idle G) HI E).
  - intros s2 o2 w2 l2 E2. exact (same_weight G I s init_state fuel2 fuel1 orc2 orc1 evs s2 s1 o2 o1 w2 w1 l2 l1 WF VN V HI (init_idle G) E2 E).
Qed.

(** ** For the examples *)
Fixpoint after (G : graph) (fuel : nat) (orc : nat -> nat) (n : nat) (s : state) : outcome state :=
  match n with
  | O => Ok s
  | S n' => bindO (run_until_event G fuel orc exact_ints fuel s) (fun x => bindO (process_event G fuel exact_ints (fst x) (snd x)) (fun s' => after G fuel orc n' s'))
  end.
Lemma after_reached : forall G fuel orc I s evs n s1 s2, reached G exact_ints I s evs s1 -> after G fuel orc n s1 = Ok s2 -> reached G exact_ints I s evs s2.
Proof.
  intros G fuel orc I s evs. induction n as [|n IH]; intros s1 s2 H E; cbn [after] in E; [injection E as <-; exact H|].
  destruct (run_until_event G fuel orc exact_ints fuel s1) as [[s3 e]| | |] eqn:E1; cbn [bindO fst snd] in E; try discriminate.
  destruct (process_event G fuel exact_ints s3 e) as [s4| | |] eqn:E2; cbn [bindO] in E; try discriminate. apply (IH s4 s2); [|exact E]. eapply event_processed; eassumption.
Qed.
