(** Corrections of the matching graph as selections of the signed edges it was built from. *)
From Coq Require Import ZArith NArith List Bool Arith Lia Permutation.
From Verif Require Import M_Base M_Core M_Session S_Core S_Session M_Build S_Build S_Decode P_Build P_Convert P_Convert2 P_CorePath P_CoreDecode P_Decode.
Import ListNotations.
Local Open Scope nat_scope.

Definition loop (e : sedge) : bool := let '(u, x, _, _) := e in match x with Some v => u =? v | None => false end.
Definition canon (nobs : nat) (e : sedge) : edge :=
  let '(u, x, w, obs) := e in
  match x with
  | Some v => if u <? v then (u, Some v, Z.abs w, mask_of nobs obs) else (v, Some u, Z.abs w, mask_of nobs obs)
  | None => (u, None, Z.abs w, mask_of nobs obs)
  end.
Definition canons nobs (F : list sedge) : list edge := map (canon nobs) F.

Lemma s_abs_cons : forall e F, s_abs (e :: F) = (Z.abs (s_weight e) + s_abs F)%Z.
Proof. reflexivity. Qed.
Lemma canon_ends : forall nobs e v, ends_at v (canon nobs e) = s_ends v e.
Proof. intros nobs [[[u [x|]] w] obs] v; unfold canon; [destruct (u <? x)|]; cbn [ends_at s_ends]; lia. Qed.
Lemma canon_degree : forall nobs F v, degree v (canons nobs F) = s_degree v F.
Proof. induction F as [|e F IH]; intros v; [reflexivity|]. unfold canons in *. cbn [map degree]. rewrite s_degree_cons, canon_ends. now f_equal. Qed.
Lemma canon_weight : forall nobs F, weight_of (canons nobs F) = s_abs F.
Proof. induction F as [|[[[u [x|]] w] obs] F IH]; [reflexivity|..]; unfold canons in *; cbn [map canon]; rewrite s_abs_cons; [destruct (u <? x)|]; cbn [weight_of s_weight]; lia. Qed.
Lemma canon_obs : forall nobs F, obs_of (canons nobs F) = u_mask nobs F.
Proof. induction F as [|[[[u [x|]] w] obs] F IH]; [reflexivity|..]; unfold canons in *; cbn [map canon]; unfold u_mask; cbn [fold_right]; fold (u_mask nobs F); [destruct (u <? x)|]; cbn [obs_of]; now rewrite IH. Qed.

Lemma loop_ends : forall e v, loop e = true -> Nat.odd (s_ends v e) = false.
Proof. intros [[[u [x|]] w] obs] v H; [|discriminate]. cbn [loop] in H. apply Nat.eqb_eq in H. subst x. cbn [s_ends]. now destruct (u =? v). Qed.
Definition unloop (F : list sedge) : list sedge := filter (fun e => negb (loop e)) F.
Lemma unloop_degree : forall F v, Nat.odd (s_degree v (unloop F)) = Nat.odd (s_degree v F).
Proof.
  induction F as [|e F IH]; intros v; [reflexivity|]. unfold unloop in *. cbn [filter]. destruct (loop e) eqn:El; cbn [negb]; rewrite ?s_degree_cons, ?Nat.odd_add, IH; [|reflexivity].
  now rewrite (loop_ends e v El), xorb_false_l.
Qed.
Lemma unloop_weight : forall F, (s_abs (unloop F) <= s_abs F)%Z.
Proof. induction F as [|e F IH]; [reflexivity|]. unfold unloop in *. cbn [filter]. destruct (loop e); cbn [negb]; rewrite ?s_abs_cons; lia. Qed.

Lemma parallel_refl : forall e, parallel e e.
Proof. intros [[[u x] w] o]. left. auto. Qed.
Lemma parallel_sym : forall e f, parallel e f -> parallel f e.
Proof. intros [[[u x] w] o] [[[u' x'] w'] o'] [[-> ->]|[-> ->]]; [left|right]; auto. Qed.
Lemma fop_unique : forall E, ForallOrdPairs (fun e f => ~ parallel e f) E -> forall e f, In e E -> In f E -> parallel e f -> e = f.
Proof.
  intros E H. induction H as [|a E Ha H IH]; intros e f He Hf P; [destruct He|]. rewrite Forall_forall in Ha.
  destruct He as [<-|He], Hf as [<-|Hf]; auto; [elim (Ha _ Hf P)|elim (Ha _ He (parallel_sym _ _ P))].
Qed.
Lemma fop_nodup : forall E, ForallOrdPairs (fun e f => ~ parallel e f) E -> NoDup E.
Proof. intros E H. induction H as [|a E Ha H IH]; constructor; auto. intros Hin. rewrite Forall_forall in Ha. exact (Ha _ Hin (parallel_refl a)). Qed.
Lemma canon_parallel : forall nobs e f, canon nobs e = canon nobs f -> parallel e f.
Proof.
  intros nobs [[[u [x|]] w] o] [[[u' [x'|]] w'] o']; unfold canon; intros H; try (destruct (Nat.ltb_spec u x)); try (destruct (Nat.ltb_spec u' x')); try discriminate;
  injection H as E1 E2; try (injection E2 as E2); subst; unfold parallel; auto.
Qed.

Lemma select_In : forall E X e, In e (select E X) -> In e E.
Proof. induction E as [|a E IH]; intros [|b X] e H; try (destruct H). cbn [select] in H. destruct b; [destruct H as [<-|H]; [now left|]|]; right; eauto. Qed.
Lemma select_filter : forall (f : sedge -> bool) E, select E (map f E) = filter f E.
Proof. induction E as [|a E IH]; [reflexivity|]. cbn [select map filter]. destruct (f a); now rewrite IH. Qed.

Section Built.
Variables (nobs n : nat) (E : list sedge) (g : mgraph).
Hypothesis HB : built nobs n E g.
Hypothesis NP : ForallOrdPairs (fun e f => ~ parallel e f) E.

Lemma is_edge_canon : forall f, is_edge (adj g) f <-> exists e, In e E /\ loop e = false /\ f = canon nobs e.
Proof.
  intros [[[u x] w] o]. unfold is_edge. split.
  - intros [H Hlt]. destruct x as [v|].
    + apply (adj_edge nobs n E g HB) in H as (Hne & w0 & obs & [Hi|Hi] & -> & ->).
      * exists (u, Some v, w0, obs). split; [exact Hi|]. cbn [loop canon]. destruct (Nat.eqb_spec u v), (Nat.ltb_spec u v); try lia. auto.
      * exists (v, Some u, w0, obs). split; [exact Hi|]. cbn [loop canon]. destruct (Nat.eqb_spec v u), (Nat.ltb_spec v u); try lia. auto.
    + apply (adj_boundary nobs n E g HB) in H as (w0 & obs & Hi & -> & ->). exists (u, None, w0, obs). auto.
  - intros ([[[u0 x0] w0] obs] & Hi & Hl & Hf). cbn [loop canon] in *. destruct x0 as [v0|].
    + destruct (Nat.eqb_spec u0 v0); [discriminate|]. destruct (Nat.ltb_spec u0 v0); injection Hf as -> -> -> ->; (split; [|lia]); apply (adj_edge nobs n E g HB); split; try lia; exists w0, obs; auto.
    + injection Hf as -> -> -> ->. split; [|exact Logic.I]. apply (adj_boundary nobs n E g HB). exists w0, obs. auto.
Qed.

(** From a correction to a selection. *)
Definition chosen (F : list edge) (e : sedge) : bool := negb (loop e) && (if in_dec edge_dec (canon nobs e) F then true else false).
Lemma chosen_spec : forall F, NoDup F -> Forall (is_edge (adj g)) F -> Permutation (canons nobs (filter (chosen F) E)) F.
Proof.
  intros F ND HF. apply NoDup_Permutation; [|exact ND|].
  - unfold canons. assert (X : forall l, NoDup l -> (forall e, In e l -> In e E) -> NoDup (map (canon nobs) l)).
    { intros l Hl. induction Hl as [|a l Ha Hl IH]; intros Hs; cbn [map]; constructor; [|apply IH; intros; apply Hs; now right].
      intros Hin. apply in_map_iff in Hin as (b & Eb & Hb). apply Ha. replace a with b; [exact Hb|]. apply (fop_unique E NP); [apply Hs; now right|apply Hs; now left|]. now apply (canon_parallel nobs). }
    apply X; [apply NoDup_filter, fop_nodup, NP|]. intros e He. now apply filter_In in He.
  - intros f. unfold canons. rewrite in_map_iff. split.
    + intros (e & <- & He). apply filter_In in He as [_ He]. unfold chosen in He. destruct (in_dec edge_dec (canon nobs e) F); [assumption|]. now rewrite andb_false_r in He.
    + intros Hf. rewrite Forall_forall in HF. destruct (proj1 (is_edge_canon f) (HF f Hf)) as (e & He & Hl & ->). exists e. split; [reflexivity|]. apply filter_In. split; [exact He|].
      unfold chosen. rewrite Hl. destruct (in_dec edge_dec (canon nobs e) F); [reflexivity|contradiction].
Qed.
Lemma to_selection : forall F, NoDup F -> Forall (is_edge (adj g)) F -> exists X, length X = length E /\
  (forall v, s_degree v (select E X) = degree v F) /\ s_abs (select E X) = weight_of F /\ u_mask nobs (select E X) = obs_of F.
Proof.
  intros F ND HF. pose proof (chosen_spec F ND HF) as P. exists (map (chosen F) E). rewrite map_length, select_filter. split; [reflexivity|]. split; [|split].
  - intros v. rewrite <- (canon_degree nobs). now apply degree_perm.
  - rewrite <- (canon_weight nobs). now apply weight_perm.
  - rewrite <- canon_obs. now apply obs_perm.
Qed.
(** From a selection to a correction. *)
Lemma of_selection : forall Y, Forall (is_edge (adj g)) (canons nobs (unloop (select E Y))) /\
  (forall v, Nat.odd (degree v (canons nobs (unloop (select E Y)))) = Nat.odd (s_degree v (select E Y))) /\
  (weight_of (canons nobs (unloop (select E Y))) <= s_abs (select E Y))%Z.
Proof.
  intros Y. split; [|split].
  - apply Forall_forall. intros f Hf. apply in_map_iff in Hf as (e & <- & He). apply filter_In in He as [He Hl]. apply is_edge_canon. exists e. split; [eapply select_In; eauto|]. split; [now destruct (loop e)|reflexivity].
  - intros v. rewrite canon_degree. apply unloop_degree.
  - rewrite canon_weight. apply unloop_weight.
Qed.
End Built.

(** ** The decoder on a graph with signed weights *)
Section Signed.
Variables (nobs n : nat) (E : list sedge) (g : mgraph) (bnd : list bool).
Hypothesis HBu : build nobs n E = Ok g.
Hypothesis NP : ForallOrdPairs (fun e f => ~ parallel e f) E.
Hypothesis EV : forall e, In e E -> Z.even (s_weight e) = true.
Hypothesis BN : boundary_bare bnd E.
Let HB : built nobs n E g := build_built nobs n E g HBu.
Let I := neg_info_of nobs g bnd.

Lemma signed_wf : wf_graph (adj g).
Proof. exact (built_wf nobs n E g HB NP EV). Qed.
Lemma neg_valid : valid_events (adj g) (neg_events I).
Proof.
  destruct HB as ((H1 & H2 & _) & Hl & _ & Hr & _). split; [now apply incr_NoDup|]. intros v Hv. cbn [neg_events I neg_info_of] in Hv. apply memb_In in Hv. rewrite H2 in Hv. rewrite Hl.
  assert (X : s_degree v (negs E) <> 0) by (intros F; rewrite F in Hv; discriminate).
  assert (Y : exists e, In e E /\ s_ends v e <> 0).
  { clear -X. unfold negs in X. induction E as [|e E' IH]; [elim X; reflexivity|]. cbn [filter] in X. destruct (s_weight e <? 0)%Z; [rewrite s_degree_cons in X|].
    - destruct (Nat.eq_dec (s_ends v e) 0) as [H0|H0]; [|exists e; split; [now left|exact H0]]. destruct IH as (e' & H1 & H2); [lia|]. exists e'. split; [now right|exact H2].
    - destruct (IH X) as (e' & H1 & H2). exists e'. split; [now right|exact H2]. }
  destruct Y as (e & He & Hne). apply (Hr e He). rewrite s_ends_count in Hne. apply (count_occ_In Nat.eq_dec). lia.
Qed.
Lemma effective_signed : forall evs v, effective I evs v <-> xorb (wanted bnd evs v) (memb v (neg_dets g)) = true.
Proof.
  intros evs v. unfold effective, wanted. cbn [neg_events is_bnd I neg_info_of]. rewrite <- !memb_In. 
  assert (X : nth v bnd false = true -> memb v (neg_dets g) = false).
  { intros Hb. destruct HB as ((_ & H2 & _) & _). rewrite H2. unfold negs.
    assert (Z : s_degree v (filter (fun e => (s_weight e <? 0)%Z) E) = 0); [|now rewrite Z].
    unfold boundary_bare in BN. clear -BN Hb. specialize (BN v Hb). clear Hb. induction E as [|e E' IH]; [reflexivity|]. cbn [filter]. destruct (s_weight e <? 0)%Z; [rewrite s_degree_cons, BN by now left|]; apply IH; intros; apply BN; now right. }
  destruct (memb v evs), (nth v bnd false), (memb v (neg_dets g)); cbn [andb negb xorb]; try (specialize (X eq_refl)); try discriminate; intuition congruence.
Qed.

Lemma explains_of_solves : forall evs ev Y, (forall v, In v ev <-> effective I evs v) -> solves E (wanted bnd evs) Y ->
  exists F, explains (adj g) F ev /\ (weight_of F + neg_total g <= s_total (select E Y))%Z.
Proof.
  intros evs ev Y Hev [HL HY]. destruct (reduction nobs n E g Y HBu HL) as (R1 & R2 & _). destruct (of_selection nobs n E g HB (invert_negative E Y)) as (F1 & F2 & F3).
  eexists. split; [split; [exact F1|]|].
  - intros v. rewrite F2, R1, HY, Hev, effective_signed. reflexivity.
  - lia.
Qed.
Theorem signed_answer : forall {NI : ints} fuel orc s evs {AB : able NI (adj g) I evs} s' o w l, idle (adj g) s -> valid_events (adj g) evs ->
  decode (adj g) fuel orc NI I s evs = Ok (s', (o, w, l)) ->
  exists X, solves E (wanted bnd evs) X /\ s_total (select E X) = w /\
    (nobs <= 64 -> forall k, N.testbit o (N.of_nat k) = s_flips k (select E X)) /\
    forall Y, solves E (wanted bnd evs) Y -> (w <= s_total (select E Y))%Z.
Proof.
  intros NI fuel orc s evs AB s' o w l HI V D.
  destruct (decode_answer (adj g) fuel orc I s evs signed_wf HI V neg_valid s' o w l D) as (ev & F & N1 & N2 & N3 & N4 & N5 & N6 & N7).
  destruct N4 as [F1 F2]. destruct (to_selection nobs n E g HB NP F N3 F1) as (X' & L & D1 & D2 & D3).
  exists (invert_negative E X'). assert (L' : length (invert_negative E X') = length E) by now apply invert_length.
  destruct (reduction nobs n E g _ HBu L') as (R1 & R2 & R3). rewrite invert_invol in R1, R2, R3 by exact L. split; [split; [exact L'|]|split; [|split]].
  - intros v. specialize (R1 v). rewrite D1 in R1. specialize (F2 v). rewrite N2, effective_signed in F2.
    destruct (Nat.odd (degree v F)), (Nat.odd (s_degree v (select E (invert_negative E X')))), (wanted bnd evs v), (memb v (neg_dets g)); cbn [xorb] in *; try discriminate; try reflexivity; intuition discriminate.
  - cbn [neg_sum I neg_info_of] in N6. lia.
  - intros Hn k. rewrite <- N5, N.lxor_spec, <- D3, u_mask_bit by exact Hn. cbn [neg_obs I neg_info_of]. rewrite mask_bit by exact Hn. rewrite R3.
    destruct HB as ((_ & _ & I3 & _) & _). assert (C : Nat.odd (count_occ Nat.eq_dec (neg_obss g) k) = memb k (neg_obss g)).
    { apply eq_iff_eq_true. rewrite count_odd_In by now apply incr_NoDup. symmetry. apply memb_In. }
    rewrite C. destruct (s_flips k (select E (invert_negative E X'))), (memb k (neg_obss g)); reflexivity.
  - intros Y HY. destruct (explains_of_solves evs ev Y N2 HY) as (F' & H1 & H2). specialize (N7 F' H1). cbn [neg_sum I neg_info_of] in N7. lia.
Qed.
Theorem signed_throws : forall {NI : ints} fuel orc s evs {AB : able NI (adj g) I evs}, idle (adj g) s -> valid_events (adj g) evs ->
  decode (adj g) fuel orc NI I s evs = Throw -> forall Y, ~ solves E (wanted bnd evs) Y.
Proof.
  intros NI fuel orc s evs AB HI V D Y HY. destruct (decode_spec (adj g) signed_wf fuel orc I s evs HI (proj1 V) (proj2 V) (proj1 neg_valid) (proj2 neg_valid)) as (ev & N1 & N2 & _).
  destruct (explains_of_solves evs ev Y N2 HY) as (F & H1 & _). exact (decode_throws (adj g) fuel orc I s evs signed_wf HI V neg_valid D F ev N2 H1).
Qed.
End Signed.

(** ** The decoder on a user graph *)
Section User.
Variables (nobs n : nat) (B : nat -> bool) (E : list sedge) (g : mgraph).
Hypothesis RB : nodes_below n E.
Hypothesis NP : ForallOrdPairs (fun e f => ~ parallel e f) E.
Hypothesis EV : forall e, In e E -> Z.even (s_weight e) = true.
Hypothesis POS : forall e, In e E -> (0 <= s_weight e)%Z.
Hypothesis HC : to_matching_graph nobs n B E = Ok g.
Let bnd := map B (seq 0 n).
Let I := neg_info_of nobs g bnd.

Lemma bnd_nth : forall v, v < n -> nth v bnd false = B v.
Proof. intros v Hv. unfold bnd. rewrite (nth_indep _ _ (B 0)) by (now rewrite map_length, seq_length). rewrite map_nth, seq_nth by exact Hv. reflexivity. Qed.
Lemma user_nonneg : neg_dets g = [] /\ neg_obss g = [] /\ neg_total g = 0%Z.
Proof.
  destruct (build_built _ _ _ _ HC) as ((H1 & H2 & H3 & H4 & H5) & _).
  assert (Z : negs (convert_all n B E) = []).
  { unfold negs. assert (X : forall l, (forall e : sedge, In e l -> (0 <= s_weight e)%Z) -> filter (fun e => (s_weight e <? 0)%Z) l = []).
    { induction l as [|e l IH]; intros H; [reflexivity|]. cbn [filter]. destruct (Z.ltb_spec (s_weight e) 0); [specialize (H e (or_introl eq_refl)); lia|]. apply IH. intros; apply H; now right. }
    apply X. intros e He. destruct (convert_all_weights n B E e (proj1 (range_below n E) RB) He) as (e0 & He0 & <-). now apply POS. }
  rewrite Z in *. repeat split; auto.
  - destruct (neg_dets g) as [|x l]; [reflexivity|]. specialize (H2 x). cbn in H2. rewrite Nat.eqb_refl in H2. discriminate.
  - destruct (neg_obss g) as [|x l]; [reflexivity|]. specialize (H4 x). cbn in H4. rewrite Nat.eqb_refl in H4. discriminate.
Qed.
Theorem user_answer : forall {NI : ints} fuel orc s evs {AB : able NI (adj g) I evs} s' o w l, idle (adj g) s -> valid_events (adj g) evs ->
  decode (adj g) fuel orc NI I s evs = Ok (s', (o, w, l)) ->
  (exists F, u_explains E B F evs /\ s_total F = w /\ u_mask nobs F = o) /\ forall F, u_explains E B F evs -> (w <= s_total F)%Z.
Proof.
  intros NI fuel orc s evs AB s' o w l HI V D. destruct user_nonneg as (U1 & U2 & U3). destruct (conversion_wf nobs n B E RB NP EV) as (g' & Eg & WF & HL & _). rewrite HC in Eg. injection Eg as <-.
  assert (VN : valid_events (adj g) (neg_events I)) by (cbn [neg_events I neg_info_of]; rewrite U1; split; [constructor|intros v []]).
  destruct (decode_answer (adj g) fuel orc I s evs WF HI V VN s' o w l D) as (ev & F & N1 & N2 & N3 & N4 & N5 & N6 & N7).
  cbn [neg_obs neg_sum I neg_info_of] in N5, N6, N7. rewrite U2 in N5. rewrite U3 in N6, N7.
  assert (M0 : mask_of nobs [] = 0%N) by (unfold mask_of; now destruct (nobs <=? 64)). rewrite M0, N.lxor_0_r in N5.
  assert (Eff : forall v, In v ev <-> In v evs /\ B v = false).
  { intros v. rewrite N2. unfold effective. cbn [neg_events is_bnd I neg_info_of]. rewrite U1. split.
    - intros [(H1 & H2 & _)|[[] _]]. split; [exact H1|]. rewrite <- bnd_nth; [exact H2|]. rewrite <- HL. now apply V.
    - intros [H1 H2]. left. split; [exact H1|]. split; [|intros []]. rewrite bnd_nth; [exact H2|]. rewrite <- HL. now apply V. }
  assert (Uev : forall F0, u_explains E B F0 ev <-> u_explains E B F0 evs).
  { intros F0. unfold u_explains. split; intros [H1 H2]; (split; [exact H1|]); intros v Hv; rewrite H2 by exact Hv; rewrite Eff; tauto. }
  destruct (boundary_conversion' nobs n B E g RB POS HC ev) as [C1 C2]; [intros v Hv; now apply Eff|]. split.
  - destruct (C2 F N4) as (F0 & H1 & H2 & H3). exists F0. rewrite <- Uev. split; [exact H1|]. split; [lia|congruence].
  - intros F0 H0. apply Uev in H0. destruct (C1 F0 H0) as (F' & H1 & H2). specialize (N7 F' H1). lia.
Qed.
Theorem user_throws : forall {NI : ints} fuel orc s evs {AB : able NI (adj g) I evs}, idle (adj g) s -> valid_events (adj g) evs ->
  decode (adj g) fuel orc NI I s evs = Throw -> forall F, ~ u_explains E B F evs.
Proof.
  intros NI fuel orc s evs AB HI V D F0 H0. destruct user_nonneg as (U1 & U2 & U3). destruct (conversion_wf nobs n B E RB NP EV) as (g' & Eg & WF & HL & _). rewrite HC in Eg. injection Eg as <-.
  assert (VN : valid_events (adj g) (neg_events I)) by (cbn [neg_events I neg_info_of]; rewrite U1; split; [constructor|intros v []]).
  pose (ev := filter (fun v => negb (B v)) evs).
  assert (Hin : forall v, In v ev <-> In v evs /\ B v = false) by (intros v; unfold ev; rewrite filter_In; destruct (B v); intuition discriminate).
  assert (N2 : forall v, In v ev <-> effective I evs v).
  { intros v. rewrite Hin. unfold effective. cbn [neg_events is_bnd I neg_info_of]. rewrite U1. split.
    - intros [H1 H2]. left. split; [exact H1|]. split; [|intros []]. rewrite bnd_nth; [exact H2|]. rewrite <- HL. now apply V.
    - intros [(H1 & H2 & _)|[[] _]]. split; [exact H1|]. rewrite <- bnd_nth; [exact H2|]. rewrite <- HL. now apply V. }
  destruct (boundary_conversion' nobs n B E g RB POS HC ev) as [C1 _]; [intros v Hv; now apply Hin|].
  destruct (C1 F0) as (F' & H1 & _).
  - destruct H0 as [H1 H2]. split; [exact H1|]. intros v Hv. rewrite H2 by exact Hv. rewrite Hin. tauto.
  - exact (decode_throws (adj g) fuel orc I s evs WF HI V VN D F' ev N2 H1).
Qed.
End User.
