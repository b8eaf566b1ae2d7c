(** The machine's integers are wide enough when some correction weighs less than 2^31, or no two events are further apart. *)
From Coq Require Import ZArith NArith List Bool Arith Lia.
From Verif Require Import M_Base M_Core M_Session S_Core S_Session S_Decode S_Reach M_Build S_Build M_Flip S_Flip M_Search S_Search M_ToEdges S_ToEdges
  P_Sum P_Up P_Build P_Convert P_Convert2 P_CoreGeo P_Reach P_Reach2 P_CoreDecode P_Decode P_Signed P_Search P_ToEdges P_ToEdges2 P_Halt P_Halt2.
Import ListNotations.
Local Open Scope Z_scope.

Lemma machine_time : forall m t, m <= t < m + 4294967296 -> timely machine_ints m t.
Proof. intros m t H. split; [|reflexivity]. cbn [machine_ints to_time]. rewrite Z.mod_small by lia. lia. Qed.
Lemma machine_i32 : forall x, - 2147483648 <= x < 2147483648 -> to_i32 machine_ints x = x.
Proof. intros x H. cbn [machine_ints to_i32]. rewrite Z.mod_small by lia. lia. Qed.

(** Some correction is light, or the events are not far apart. *)
Definition modest (G : graph) (F : list edge) (ev : list nat) : Prop := explains G F ev /\ (weight_of F < 2147483648 \/ within G ev 2147483648).
Lemma modest_ext : forall G F ev ev', (forall v, In v ev <-> In v ev') -> modest G F ev -> modest G F ev'.
Proof.
  intros G F ev ev' E [H1 H2]. split; [now apply (explains_ext G F ev)|]. destruct H2 as [H2|H2]; [now left|right]. intros s x l o Hs Hx. apply H2; [now apply E|]. destruct x; [now apply E|exact Hx].
Qed.
Lemma modest_reach : forall G, wf_graph G -> forall F ev, modest G F ev -> forall n g ls y ch, geo G ev n g ls y ch -> forall R, In R ls -> zsum y (ch R) < 2147483648.
Proof.
  intros G WF F ev [HF [HL|HW]] n g ls y ch HG R HR; [|exact (reach_bound G WF ev n g ls y ch HG F _ HF HW R HR)].
  pose proof (dual_bound G WF ev n g ls y ch HG F HF) as B. pose proof (g_up _ _ _ _ _ _ _ HG) as U.
  assert (0 <= zsum y (ch R) <= zsum y ls); [|lia]. apply zsum_sub; [exact (up_NoDup _ _ ch U R HR)|exact (up_all_L _ _ ch U R HR)|intros Q HQ; now apply (g_y0 _ _ _ _ _ _ _ HG)].
Qed.
(** ... or nothing is far from anything. *)
Definition mild (G : graph) (ev : list nat) : Prop := joined_within G 2147483648 \/ exists F, modest G F ev.
Lemma mild_reach : forall G, wf_graph G -> forall ev, mild G ev -> forall n g ls y ch, geo G ev n g ls y ch -> forall R, In R ls -> room G ev n ch (root ch R) -> zsum y (ch R) < 2147483648.
Proof.
  intros G WF ev [HJ|(F & HF)] n g ls y ch HG R HR Hm; [exact (reach_room G WF ev n g ls y ch HG _ HJ R HR Hm)|exact (modest_reach G WF F ev HF n g ls y ch HG R HR)].
Qed.
Lemma machine_able : forall G I evs, wf_graph G -> (forall u x w o, In (x, w, o) (nbrs G u) -> w <= max_weight) ->
  (forall ev, (forall v, In v ev <-> effective I evs v) -> mild G ev) -> able machine_ints G I evs.
Proof.
  intros G I evs WF HW HF.
  assert (W : wfine machine_ints G).
  { intros u x w o m t Hin Ht. apply machine_time. pose proof (HW u x w o Hin). unfold max_weight in *. lia. }
  split; [exact W|]. intros ev N Hev. pose proof (HF ev Hev) as HF1.
  split; [exact W|intros m; apply machine_time; lia| |]; intros n g ls y ch HG R HR Hm; pose proof (mild_reach G WF ev HF1 n g ls y ch HG R HR Hm) as B; intros.
  - apply machine_time. lia.
  - apply machine_i32. lia.
Qed.
Lemma machine_able1 : forall G I evs, wf_graph G -> (forall u x w o, In (x, w, o) (nbrs G u) -> w <= max_weight) ->
  forall F ev, (forall v, In v ev <-> effective I evs v) -> modest G F ev -> able machine_ints G I evs.
Proof.
  intros G I evs WF HW F ev Hev HF. apply machine_able; auto. intros ev' E'. right. exists F.
  apply (modest_ext G F ev); [|assumption]. intros v. rewrite Hev, E'. reflexivity.
Qed.

Lemma machine_plain : forall G orc s evs F, wf_graph G -> (forall u x w o, In (x, w, o) (nbrs G u) -> w <= max_weight) -> idle G s -> valid_events G evs ->
  modest G F evs ->
  exists K s' o w l, (forall fuel, (K <= fuel)%nat -> decode G fuel orc machine_ints plain s evs = Ok (s', (o, w, l))) /\ idle G s' /\
    (exists F, NoDup F /\ explains G F evs /\ obs_of F = o /\ weight_of F = w) /\ (forall F, explains G F evs -> w <= weight_of F).
Proof.
  intros G orc s evs F WF HW HI V HF. pose proof (machine_able1 G plain evs WF HW F evs (fun v => iff_sym (effective_plain evs v)) HF) as AB.
  apply (plain_ends (NI := machine_ints)); auto. exists F. apply HF.
Qed.

Lemma machine_decode : forall G orc I s evs F ev, wf_graph G -> (forall u x w o, In (x, w, o) (nbrs G u) -> w <= max_weight) -> idle G s -> valid_events G evs ->
  valid_events G (neg_events I) -> (forall v, In v ev <-> effective I evs v) -> modest G F ev ->
  exists K s' o w l, (forall fuel, (K <= fuel)%nat -> decode G fuel orc machine_ints I s evs = Ok (s', (o, w, l))) /\ idle G s' /\
    (exists F, NoDup F /\ explains G F ev /\ N.lxor (obs_of F) (neg_obs I) = o /\ weight_of F + neg_sum I = w) /\
    (forall F, explains G F ev -> w <= weight_of F + neg_sum I).
Proof.
  intros G orc I s evs F ev WF HW HI V VN Hev HM. pose proof (machine_able1 G I evs WF HW F ev Hev HM) as AB. destruct HM as [HF _].
  destruct (decode_ends (NI := machine_ints) G orc I s evs WF HI V VN) as (K & r & Hr & H). pose proof (H K (le_n K)) as HK.
  destruct r as [[s' [[o w] l]]| | |]; [| | |congruence].
  - exists K, s', o, w, l. split; [exact H|]. split; [exact (decode_idle G K orc I s evs WF HI V VN s' _ HK)|].
    destruct (decode_answer G K orc I s evs WF HI V VN s' o w l HK) as (ev' & F' & N1 & E1 & N2 & X1 & X2 & X3 & X4).
    assert (EE : forall v, In v ev <-> In v ev') by (intros v; rewrite Hev, E1; reflexivity). split.
    + exists F'. split; [assumption|]. split; [|split; assumption]. apply (explains_ext G F' ev' ev); auto. intros v; symmetry; apply EE.
    + intros F'' HF''. apply X4. apply (explains_ext G F'' ev ev'); auto.
  - exfalso. exact (decode_throws G K orc I s evs WF HI V VN HK F ev Hev HF).
  - exfalso. exact (decode_defined G K orc I s evs WF HI V VN HK).
Qed.

(** ** From the edges given by the caller *)
Lemma negs_abs : forall E, s_abs (negs E) = - s_total (negs E).
Proof.
  intros E. unfold negs. induction E as [|e E IH]; [reflexivity|]. cbn [filter]. destruct (Z.ltb_spec (s_weight e) 0); [|exact IH]. unfold s_abs, s_total in *. cbn [fold_right]. lia.
Qed.
Lemma built_weights : forall nobs n E g B, built nobs n E g -> (forall e, In e E -> Z.abs (s_weight e) <= B) -> forall u x w o, In (x, w, o) (nbrs (adj g) u) -> w <= B.
Proof.
  intros nobs n E g B HB HW u [v|] w o Hin.
  - apply (adj_edge _ _ _ _ HB) in Hin as (_ & w0 & obs & [Hin|Hin] & -> & _); exact (HW _ Hin).
  - apply (adj_boundary _ _ _ _ HB) in Hin as (w0 & obs & Hin & -> & _). exact (HW _ Hin).
Qed.
Section Signed.
Variables (nobs n : nat) (E : list sedge) (g : mgraph) (bnd : list bool).
Hypothesis HB : build nobs n E = Ok g.
Hypothesis NP : ForallOrdPairs (fun e f => ~ parallel e f) E.
Hypothesis EV : forall e, In e E -> Z.even (s_weight e) = true.
Hypothesis BN : boundary_bare bnd E.
Hypothesis MW : forall e, In e E -> Z.abs (s_weight e) <= max_weight.
Definition light (G : graph) (I : neg_info) (evs : list nat) : Prop := wf_graph G /\ (forall u x w o, In (x, w, o) (nbrs G u) -> w <= max_weight) /\
  forall ev, (forall v, In v ev <-> effective I evs v) -> mild G ev.
Lemma signed_light : forall evs Y, solves E (wanted bnd evs) Y -> wide_enough E (s_total (select E Y) + s_abs (negs E)) -> light (adj g) (neg_info_of nobs g bnd) evs.
Proof.
  intros evs Y HY HL. split; [exact (signed_wf nobs n E g HB NP EV)|]. split; [exact (built_weights nobs n E g _ (build_built _ _ _ _ HB) MW)|].
  intros ev Hev. destruct (explains_of_solves nobs n E g bnd HB BN evs ev Y Hev HY) as (F & H1 & H2). right. exists F. split; [assumption|].
  destruct HL as [HL|HL]; [left|right; exact (built_within nobs n E g (build_built _ _ _ _ HB) _ HL ev)].
  rewrite negs_abs in HL. destruct (build_built _ _ _ _ HB) as ((_ & _ & _ & _ & H5) & _). lia.
Qed.
(** Whether or not there is a correction. *)
Lemma compact_light : forall evs, s_within E 2147483648 -> light (adj g) (neg_info_of nobs g bnd) evs.
Proof.
  intros evs HL. split; [exact (signed_wf nobs n E g HB NP EV)|]. split; [exact (built_weights nobs n E g _ (build_built _ _ _ _ HB) MW)|].
  intros ev _. left. exact (built_joined nobs n E g (build_built _ _ _ _ HB) _ HL).
Qed.
Lemma machine_compact_able : forall evs, s_within E 2147483648 -> able machine_ints (adj g) (neg_info_of nobs g bnd) evs.
Proof. intros evs HL. destruct (compact_light evs HL) as (H1 & H2 & H3). now apply machine_able. Qed.
Lemma machine_signed_able : forall evs Y, solves E (wanted bnd evs) Y -> wide_enough E (s_total (select E Y) + s_abs (negs E)) -> able machine_ints (adj g) (neg_info_of nobs g bnd) evs.
Proof. intros evs Y HY HL. destruct (signed_light evs Y HY HL) as (H1 & H2 & H3). now apply machine_able. Qed.
End Signed.

(** ** User graphs, and many observables: decoding ends *)
Section User.
Variables (nobs n : nat) (B : nat -> bool) (E : list sedge) (g : mgraph).
Hypothesis RB : nodes_below n E.
Hypothesis NP : ForallOrdPairs (fun e f => ~ parallel e f) E.
Hypothesis EV : forall e, In e E -> Z.even (s_weight e) = true.
Hypothesis POS : forall e, In e E -> 0 <= s_weight e.
Hypothesis HC : to_matching_graph nobs n B E = Ok g.
Let I := neg_info_of nobs g (map B (seq 0 n)).

Lemma user_wf : wf_graph (adj g) /\ valid_events (adj g) (neg_events I) /\ length (adj g) = n.
Proof.
  destruct (user_nonneg nobs n B E g RB POS HC) as (U1 & _). destruct (conversion_wf nobs n B E RB NP EV) as (g' & Eg & WF & HL & _). rewrite HC in Eg. injection Eg as <-.
  split; [exact WF|]. split; [|exact HL]. cbn [neg_events I neg_info_of]. rewrite U1. split; [constructor|intros v []].
Qed.
Lemma user_two : forall {NI : ints} orc s evs {AB : able NI (adj g) I evs}, idle (adj g) s -> valid_events (adj g) evs ->
  (exists K s' o w l, (forall fuel, (K <= fuel)%nat -> decode (adj g) fuel orc NI I s evs = Ok (s', (o, w, l))) /\ idle (adj g) s') \/
  (exists K, forall fuel, (K <= fuel)%nat -> decode (adj g) fuel orc NI I s evs = Throw).
Proof.
  intros NI orc s evs AB HI V. destruct user_wf as (WF & VN & _).
  destruct (decode_ends (adj g) orc I s evs WF HI V VN) as (K & r & Hr & H). destruct r as [[s' [[o w] l]]| | |]; [left|right| |congruence].
  - exists K, s', o, w, l. split; [exact H|]. exact (decode_idle (adj g) K orc I s evs WF HI V VN s' _ (H K (le_n K))).
  - exists K. exact H.
  - exfalso. exact (decode_defined (adj g) K orc I s evs WF HI V VN (H K (le_n K))).
Qed.
Lemma user_ends : forall {NI : ints} orc s evs {AB : able NI (adj g) I evs}, idle (adj g) s -> valid_events (adj g) evs -> (exists F, u_explains E B F evs) ->
  exists K s' o w l, (forall fuel, (K <= fuel)%nat -> decode (adj g) fuel orc NI I s evs = Ok (s', (o, w, l))) /\ idle (adj g) s' /\
    (exists F, u_explains E B F evs /\ s_total F = w /\ u_mask nobs F = o) /\ forall F, u_explains E B F evs -> w <= s_total F.
Proof.
  intros NI orc s evs AB HI V [F HF]. destruct (user_two orc s evs HI V) as [(K & s' & o & w & l & H & Hs)|[K H]].
  - exists K, s', o, w, l. split; [exact H|]. split; [exact Hs|]. exact (user_answer nobs n B E g RB NP EV POS HC K orc s evs s' o w l HI V (H K (le_n K))).
  - exfalso. exact (user_throws nobs n B E g RB NP EV POS HC K orc s evs HI V (H K (le_n K)) F HF).
Qed.
Lemma user_raises : forall {NI : ints} orc s evs {AB : able NI (adj g) I evs}, idle (adj g) s -> valid_events (adj g) evs -> (forall F, ~ u_explains E B F evs) ->
  exists K, forall fuel, (K <= fuel)%nat -> decode (adj g) fuel orc NI I s evs = Throw.
Proof.
  intros NI orc s evs AB HI V HF. destruct (user_two orc s evs HI V) as [(K & s' & o & w & l & H & Hs)|H]; [|exact H].
  exfalso. destruct (user_answer nobs n B E g RB NP EV POS HC K orc s evs s' o w l HI V (H K (le_n K))) as ((F & H1 & _) & _). exact (HF F H1).
Qed.
Lemma user_light : forall evs F, (forall e, In e E -> s_weight e <= max_weight) -> valid_events (adj g) evs -> u_explains E B F evs -> s_total F < 2147483648 -> light (adj g) I evs.
Proof.
  intros evs F MW V HF HL. destruct user_wf as (WF & VN & LN). destruct (user_nonneg nobs n B E g RB POS HC) as (U1 & _).
  split; [exact WF|]. split.
  - apply (built_weights _ _ _ _ _ (build_built _ _ _ _ HC)). intros e He. destruct (convert_all_weights n B E e (proj1 (range_below n E) RB) He) as (e0 & He0 & <-).
    specialize (MW e0 He0). specialize (POS e0 He0). lia.
  - intros ev N2. assert (Eff : forall v, In v ev <-> In v evs /\ B v = false).
    { intros v. rewrite N2. unfold effective. cbn [neg_events is_bnd I neg_info_of]. rewrite U1. split.
      - intros [(H1 & H2 & _)|[[] _]]. split; [exact H1|]. rewrite <- (bnd_nth n B); [exact H2|]. rewrite <- LN. now apply V.
      - intros [H1 H2]. left. split; [exact H1|]. split; [|intros []]. rewrite (bnd_nth n B); [exact H2|]. rewrite <- LN. now apply V. }
    destruct (boundary_conversion' nobs n B E g RB POS HC ev) as [C1 _]; [intros v Hv; now apply Eff|].
    destruct (C1 F) as (F' & H1 & H2); [|right; exists F'; split; [exact H1|left; lia]].
    destruct HF as [F1 F2]. split; [exact F1|]. intros v Hv. rewrite F2 by exact Hv. rewrite Eff. tauto.
Qed.
Lemma machine_user_able : forall evs F, (forall e, In e E -> s_weight e <= max_weight) -> valid_events (adj g) evs -> u_explains E B F evs -> s_total F < 2147483648 -> able machine_ints (adj g) I evs.
Proof. intros evs F MW V HF HL. destruct (user_light evs F MW V HF HL) as (H1 & H2 & H3). now apply machine_able. Qed.
End User.
