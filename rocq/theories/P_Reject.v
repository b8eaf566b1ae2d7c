(** What a decode rejected because of an index out of range leaves behind. *)
From Coq Require Import ZArith NArith List Bool Arith Lia Permutation.
From Verif Require Import M_Base M_Varying M_Tracker M_Core M_Session S_Core S_Session P_Sum P_Dual P_Up P_CoreGeo P_CoreSched P_CoreArea P_CoreRad P_CoreStart P_CoreAdd P_Session P_CoreShat.
Import ListNotations.
Local Open Scope Z_scope.

Section Reject.
Variable G : graph.
Context {NI : ints} {WNI : wfine NI G}.
Hypothesis WF : wf_graph G.

(** A placed event with a neighbour has an entry in the queue. *)
Lemma placed_radius : forall ev K ls al s v, start G ev K ls al s -> In v ev -> exists R, arr (nd s) v = Some R /\ In R ls /\ top (nd s) v = Some R /\ local_radius s v = 1.
Proof.
  intros ev K ls al s v H Hv. pose proof (st_geo _ _ _ _ _ _ H) as HG. destruct (g_ev _ _ _ _ _ _ _ HG v Hv) as (Lv & R & HA & _ & _ & HR & _).
  pose proof (g_arr _ _ _ _ _ _ _ HG v R Lv HA) as HRl. pose proof (g_top _ _ _ _ _ _ _ HG v R Lv HA) as HT. pose proof (g_wrp _ _ _ _ _ _ _ HG v R Lv HA) as HW.
  cbn [umn arr top wrp] in HA, HT, HW. unfold root, ch1 in HT, HW. cbn [last] in HT, HW. exists R. split; [exact HA|]. split; [exact HRl|]. split; [exact HT|].
  unfold local_radius. rewrite HT. destruct (st_rad _ _ _ _ _ _ H R HRl) as [-> _].
  assert (W0 : wrp (nd s) v = 0) by (rewrite HW; unfold rho; cbn [umn arr rar]; rewrite HA; cbn [zsum map fold_right]; lia).
  rewrite W0. reflexivity.
Qed.
Lemma placed_queue : forall ev K ls al s v, start G ev K ls al s -> In v ev -> nbrs G v <> [] -> que (sc s) <> [].
Proof.
  intros ev K ls al s v H Hv Hn. pose proof (st_geo _ _ _ _ _ _ H) as HG. destruct (placed_radius ev K ls al s v H Hv) as (R & HA & HR & HT & HL).
  destruct (nbrs G v) as [|[[x w] o] l] eqn:En; [congruence|]. assert (Hin : In (x, w, o) (nbrs G v)) by (rewrite En; now left).
  destruct (nbr_bound G WF _ _ _ _ Hin) as [Lv Hx].
  assert (NV : nsl s v = 1) by (unfold nsl; now rewrite HL).
  assert (Ap : exists T, appr s v x w = Some T).
  { unfold appr. destruct x as [u|]; [|rewrite NV; cbn; eauto]. specialize (Hx u eq_refl).
    destruct (arr (nd s) u) as [R'|] eqn:EA.
    - assert (Hu : In u ev) by (apply (st_arr _ _ _ _ _ _ H u Hx); congruence).
      destruct (placed_radius ev K ls al s u H Hu) as (R2 & HA2 & HR2 & HT2 & HL2). rewrite EA in HA2. injection HA2 as <-.
      assert (NU : nsl s u = 1) by (unfold nsl; now rewrite HL2).
      assert (Ne : R <> R').
      { intros <-. assert (uv : u <> v) by (intros ->; exact (wf_noloop G WF v w o Hin)). apply uv.
        destruct (g_ev _ _ _ _ _ _ _ HG v Hv) as (_ & R0 & A0 & C0 & _). cbn [umn arr] in A0. rewrite HA in A0. injection A0 as <-.
        destruct (g_leaf _ _ _ _ _ _ _ HG R HR C0) as (l' & z & EL & Hz & NL).
        assert (P : forall a, In a ev -> (a < length G)%nat -> arr (nd s) a = Some R -> a = z).
        { intros a Ha La Aa. assert (Hs : In a (shl (rg s) R)) by (apply (g_shl _ _ _ _ _ _ _ HG R a HR); split; assumption). rewrite EL in Hs. apply in_app_iff in Hs as [Hs|[Hs|[]]]; [exfalso; exact (NL a Hs Ha)|now symmetry]. }
        rewrite (P u Hu Hx EA). symmetry. exact (P v Hv Lv HA). }
      rewrite HT, HT2. cbn [same_opt]. destruct (Nat.eqb_spec R R'); [contradiction|]. rewrite NV, NU. cbn. eauto.
    - destruct (g_emp _ _ _ _ _ _ _ HG u Hx EA) as (ET & _). cbn [umn top] in ET. assert (NU : nsl s u = 0) by (unfold nsl, local_radius; now rewrite ET).
      rewrite HT, ET. cbn [same_opt]. rewrite NV, NU. cbn. eauto. }
  destruct Ap as [T Ap]. pose proof (st_sch _ _ _ _ _ _ H) as SC.
  assert (Q : forall a, (a < length G)%nat -> wants s a T -> que (sc s) <> []).
  { intros a La [Wa _] Eq. destruct (q_nd _ _ _ _ _ SC a La Wa) as [Qa _]. pose proof (q_nq _ _ _ _ _ SC a La Qa) as Hi. rewrite Eq in Hi. exact Hi. }
  destruct (q_cov _ _ _ _ _ SC v x w o T Hin Ap) as [W|(u & -> & W)]; [intros []|intros ? ? []|exact (Q v Lv W)|exact (Q u (Hx u eq_refl) W)].
Qed.

Lemma fold_throw_app : forall f l1 bad l2 s s1 (f0 : f s1 bad = Throw), foldS f l1 s = Ok s1 -> fold_throw f (l1 ++ bad :: l2) s = (s1, true).
Proof.
  intros f l1. induction l1 as [|x l1 IH]; intros bad l2 s s1 f0 H; cbn [foldS app fold_throw] in *.
  - cbn in H. injection H as ->. now rewrite f0.
  - rewrite foldS_cons in H. destruct (f s x) as [s2| | |]; try discriminate. exact (IH bad l2 s2 s1 f0 H).
Qed.

Variables (I : neg_info).
Lemma out_of_range : forall s v, (length G <= v)%nat -> add_plain G NI I s v = Throw.
Proof. intros s v H. unfold add_plain. destruct (Nat.leb_spec (length G) v); [reflexivity|lia]. Qed.
Lemma out_of_range_marked : forall s v, (length G <= v)%nat -> add_marked G NI I s v = Throw.
Proof. intros s v H. unfold add_marked. destruct (Nat.leb_spec (length G) v); [reflexivity|lia]. Qed.

(** Nothing was placed. *)
Lemma reject_idle : forall fuel orc s pre bad rest, idle G s -> neg_events I = [] ->
  (forall v, In v pre -> (v < length G)%nat /\ nth v (is_bnd I) false = true) -> (length G <= bad)%nat ->
  exists s', decode_st G fuel orc NI I s (pre ++ bad :: rest) = (s', Invalid) /\ idle G s'.
Proof.
  intros fuel orc s pre bad rest HI N HP HB. unfold decode_st. rewrite (idle_queue _ _ HI). unfold add_events_st. rewrite N.
  set (s0 := set_sc s _). rewrite (fold_throw_app _ pre bad rest s0 s0 (out_of_range s0 bad HB)).
  - eexists. split; [reflexivity|]. destruct HI as [a b c d]. constructor; auto.
  - clear HB. induction pre as [|x pre IH]; [reflexivity|]. rewrite foldS_cons. destruct (HP x (or_introl eq_refl)) as [Lx Bx].
    unfold add_plain at 1. destruct (Nat.leb_spec (length G) x); [lia|]. unfold maybe_create. rewrite Bx. cbn [bindO]. apply IH. intros v Hv. apply HP. now right.
Qed.
(** Something with a neighbour was placed. *)
Lemma reject_stuck : forall fuel orc s pre bad rest, idle G s -> NoDup pre -> (forall v, In v pre -> (v < length G)%nat) -> (length G <= bad)%nat ->
  (exists v, In v pre /\ nth v (is_bnd I) false = false /\ ~ In v (neg_events I) /\ nbrs G v <> []) ->
  exists s', decode_st G fuel orc NI I s (pre ++ bad :: rest) = (s', Invalid) /\ que (sc s') <> [].
Proof.
  intros fuel orc s pre bad rest HI ND HP HB (v & Hv & Bv & Nv & Hn). unfold decode_st. rewrite (idle_queue _ _ HI).
  pose proof (idle_start G WF s HI) as H0. set (s0 := set_sc s _) in *. unfold add_events_st. destruct (neg_events I) as [|z nl] eqn:En.
  - destruct (plain_spec G WF I pre s0 [] [] [] H0 ND) as (s' & ev & ls & al & E1 & E2 & E3); [intros x Hx; split; auto|].
    rewrite (fold_throw_app _ pre bad rest s0 s' (out_of_range s' bad HB) E1). exists s'. split; [reflexivity|].
    apply (placed_queue _ _ _ _ _ v E2); [apply E3; auto|exact Hn].
  - rewrite <- En in *. clear z nl En. pose proof (marks_start G [] [] [] (neg_events I) s0 _ H0) as H1. cbn [orb] in H1. set (s1 := fold_left _ (neg_events I) s0) in *.
    destruct (marked_spec G WF I pre s1 [] _ [] [] H1 ND) as (s2 & ev2 & ls2 & al2 & E1 & E2 & E3); [intros x Hx; split; auto|intros x []|].
    rewrite (fold_throw_app _ pre bad rest s1 s2 (out_of_range_marked s2 bad HB) E1). exists s2. split; [reflexivity|].
    apply (placed_queue _ _ _ _ _ v E2); [|exact Hn]. apply E3. right. split; [exact Hv|]. split; [exact Bv|]. apply notin_spec' in Nv. now rewrite Nv.
Qed.
(** From then on every decode is rejected. *)
Lemma stuck_rejects : forall fuel orc A J s evs, que (sc s) <> [] -> decode_st G fuel orc A J s evs = (s, Invalid).
Proof. intros fuel orc A J s evs H. unfold decode_st. destruct (que (sc s)); [congruence|reflexivity]. Qed.
End Reject.

Lemma machine_wfine : forall G, (forall u x w o, In (x, w, o) (nbrs G u) -> w <= max_weight) -> wfine machine_ints G.
Proof. intros G MW u x w o m t Hin Ht. specialize (MW u x w o Hin). unfold max_weight in MW. split; [|reflexivity]. cbn [machine_ints to_time]. rewrite Z.mod_small by lia. lia. Qed.

Lemma reject_forever : forall G fuel orc I s pre bad rest,
  wf_graph G -> (forall u x w o, In (x, w, o) (nbrs G u) -> (w <= max_weight)%Z) -> idle G s -> NoDup pre -> (forall v, In v pre -> (v < length G)%nat) -> (length G <= bad)%nat ->
  (exists v, In v pre /\ nth v (is_bnd I) false = false /\ ~ In v (neg_events I) /\ nbrs G v <> []) ->
  exists s', decode_st G fuel orc machine_ints I s (pre ++ bad :: rest) = (s', Invalid) /\
    (forall fuel orc evs, decode_st G fuel orc machine_ints I s' evs = (s', Invalid)) /\ idle G (mwpm_reset G s').
Proof.
  intros G fuel orc I s pre bad rest WF MW HI ND HP HB Hv. pose proof (machine_wfine G MW) as WN.
  destruct (reject_stuck G (NI := machine_ints) WF I fuel orc s pre bad rest HI ND HP HB Hv) as (s' & H1 & H2). exists s'. split; [exact H1|]. split; [|apply reset_idle].
  intros f o evs. now apply stuck_rejects.
Qed.
