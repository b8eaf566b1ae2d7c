(** Decoding on the radix heap whether or not there is a correction. *)
From Coq Require Import ZArith NArith List Bool Arith Lia Permutation.
From Verif Require Import M_Base M_Cyclic M_RadixHeap M_Varying M_Tracker M_Core M_Session M_CoreHeap M_Failing S_Core S_Session S_CoreHeap S_Decode S_Reach
  M_Build S_Build M_Flip S_Flip P_CoreDecode P_Decode P_Signed P_Halt P_Halt2 P_Reach2 P_Machine P_CoreSim P_CoreHeap P_CoreHeap2.
Import ListNotations.
Local Open Scope Z_scope.

(** One decode: an answer that some oracle of the abstract decoder gives, or an exception; an idle decoder in both cases. *)
Lemma heap_two : forall G I s h evs, light G I evs -> idle G s -> drained s h -> valid_events G evs -> valid_events G (neg_events I) ->
  able spy_ints G I evs /\
  exists K orc s' h', idle G s' /\ drained s' h' /\
    ((exists r, (forall f, (K <= f)%nat -> decode_h G f cyclic_ints I s h evs = Ok (s', h', r)) /\ decode G K orc spy_ints I s evs = Ok (s', r)) \/
     ((forall f, (K <= f)%nat -> decode_h G f cyclic_ints I s h evs = Throw) /\ (forall f, (K <= f)%nat -> left_h G f cyclic_ints I s h evs = Ok (s', h', true)) /\
      decode G K orc spy_ints I s evs = Throw)).
Proof.
  intros G I s h evs (WF & L2 & L3) HI HD V VN. pose proof (spy_able G WF I evs L2 L3) as AB. split; [exact AB|].
  destruct (decode_h_spec G WF I s h evs HI HD V VN) as (K & orc & r & Hr & H1 & H2). pose proof (H1 K (le_n K)) as HK.
  destruct r as [[s' r]| | |]; [| | |congruence].
  - destruct H2 as (h' & H3 & H4). exists K, orc, s', h'. split; [exact (decode_idle (NI := spy_ints) (AB := AB) G K orc I s evs WF HI V VN s' _ HK)|]. split; [exact H4|]. left. exists r. auto.
  - destruct H2 as (H2 & s' & h' & H3 & H4 & H5). exists K, orc, s', h'. auto 6.
  - exfalso. exact (decode_defined G K orc I s evs WF HI V VN HK).
Qed.

(** A series of decodes, all of which are right. *)
Lemma heap_each : forall G I (good : list nat -> option result -> Prop), valid_events G (neg_events I) -> (forall evs, light G I evs) ->
  (forall f orc s evs s' r, able spy_ints G I evs -> idle G s -> valid_events G evs -> decode G f orc spy_ints I s evs = Ok (s', r) -> good evs (Some r)) ->
  (forall f orc s evs, able spy_ints G I evs -> idle G s -> valid_events G evs -> decode G f orc spy_ints I s evs = Throw -> good evs None) ->
  forall l s h, idle G s -> drained s h -> Forall (valid_events G) l ->
  exists K s' h' rs, (forall f, (K <= f)%nat -> decode_each_h G f cyclic_ints I s h l = Ok (s', h', rs)) /\ idle G s' /\ drained s' h' /\ Forall2 good l rs.
Proof.
  intros G I good VN LI H1 H2. induction l as [|evs l IH]; intros s h HI HD HV; [exists 0%nat, s, h, []; split; [reflexivity|auto]|]. apply Forall_cons_iff in HV as [V HV].
  destruct (heap_two G I s h evs (LI evs) HI HD V VN) as (AB & K1 & orc & s1 & h1 & I1 & D1 & X). destruct (IH s1 h1 I1 D1 HV) as (K2 & s2 & h2 & rs & B1 & B2 & B3 & B4).
  destruct X as [(r & X1 & X2)|(X1 & X2 & X3)].
  - exists (Nat.max K1 K2), s2, h2, (Some r :: rs). split; [|split; [assumption|split; [assumption|constructor; [exact (H1 K1 orc s evs s1 r AB HI V X2)|assumption]]]].
    intros f Hf. cbn [decode_each_h]. unfold decode_keep_h. rewrite X1 by lia. cbn [bindO fst snd]. rewrite B1 by lia. reflexivity.
  - exists (Nat.max K1 K2), s2, h2, (None :: rs). split; [|split; [assumption|split; [assumption|constructor; [exact (H2 K1 orc s evs AB HI V X3)|assumption]]]].
    intros f Hf. cbn [decode_each_h]. unfold decode_keep_h. rewrite X1, X2 by lia. cbn [bindO fst snd]. rewrite B1 by lia. reflexivity.
Qed.

Lemma plain_each : forall G, wf_graph G -> (forall u x w o, In (x, w, o) (nbrs G u) -> w <= max_weight) -> joined_within G 2147483648 -> forall l s h, idle G s -> drained s h -> Forall (valid_events G) l ->
  exists K s' h' rs, (forall f, (K <= f)%nat -> decode_each_h G f cyclic_ints plain s h l = Ok (s', h', rs)) /\ idle G s' /\ drained s' h' /\
    Forall2 (fun evs r => match r with
                          | Some (o, w, _) => (exists F, explains G F evs /\ obs_of F = o /\ weight_of F = w) /\ forall F, explains G F evs -> w <= weight_of F
                          | None => forall F, ~ explains G F evs
                          end) l rs.
Proof.
  intros G WF HW HJ. apply heap_each; [exact (plain_valid G)|intros evs; split; [assumption|split; [assumption|]]; intros ev _; now left| |].
  - intros f orc s evs s' [[o w] l] AB HI V HK. destruct (plain_answer (NI := spy_ints) G f orc s evs WF HI V s' o w l HK) as ((F & F1 & F2 & F3 & F4) & F5). split; [exists F; auto|exact F5].
  - intros f orc s evs AB HI V HK F HF. exact (decode_throws (NI := spy_ints) G f orc plain s evs WF HI V (plain_valid G) HK F evs (plain_effective evs) HF).
Qed.
Lemma machine_raises : forall G orc s evs, wf_graph G -> (forall u x w o, In (x, w, o) (nbrs G u) -> w <= max_weight) -> joined_within G 2147483648 -> idle G s -> valid_events G evs -> (forall F, ~ explains G F evs) ->
  exists K, forall fuel, (K <= fuel)%nat -> decode G fuel orc machine_ints plain s evs = Throw.
Proof.
  intros G orc s evs WF HW HJ HI V HF. pose proof (machine_able G plain evs WF HW (fun ev _ => or_introl HJ)) as AB. apply (plain_raises (NI := machine_ints)); assumption.
Qed.

Section Signed.
Variables (nobs n : nat) (E : list sedge) (g : mgraph) (bnd : list bool).
Hypothesis HB : build nobs n E = Ok g.
Hypothesis NP : ForallOrdPairs (fun e f => ~ parallel e f) E.
Hypothesis EV : forall e, In e E -> Z.even (s_weight e) = true.
Hypothesis BN : boundary_bare bnd E.
Hypothesis MW : forall e, In e E -> Z.abs (s_weight e) <= max_weight.
Hypothesis SW : s_within E 2147483648.

Lemma signed_each : forall l s h, idle (adj g) s -> drained s h -> Forall (valid_events (adj g)) l ->
  exists K s' h' rs, (forall f, (K <= f)%nat -> decode_each_h (adj g) f cyclic_ints (neg_info_of nobs g bnd) s h l = Ok (s', h', rs)) /\ idle (adj g) s' /\ drained s' h' /\
    Forall2 (fun evs r => match r with
                          | Some (o, w, _) => exists X, solves E (wanted bnd evs) X /\ s_total (select E X) = w /\ ((nobs <= 64)%nat -> forall k, N.testbit o (N.of_nat k) = s_flips k (select E X)) /\
                              forall Y, solves E (wanted bnd evs) Y -> w <= s_total (select E Y)
                          | None => forall Y, ~ solves E (wanted bnd evs) Y
                          end) l rs.
Proof.
  pose proof (signed_wf nobs n E g HB NP EV) as WF.
  apply heap_each; [exact (neg_valid nobs n E g bnd HB)|intros evs; exact (compact_light nobs n E g bnd HB NP EV MW evs SW)| |].
  - intros f orc s evs s' [[o w] l] AB HI V HK. exact (signed_answer nobs n E g bnd HB NP EV BN f orc s evs s' o w l HI V HK).
  - intros f orc s evs AB HI V HK Y HY. exact (signed_throws nobs n E g bnd HB NP EV BN f orc s evs HI V HK Y HY).
Qed.
Lemma machine_signed_raises : forall orc s evs, idle (adj g) s -> valid_events (adj g) evs -> (forall Y, ~ solves E (wanted bnd evs) Y) ->
  exists K, forall fuel, (K <= fuel)%nat -> decode (adj g) fuel orc machine_ints (neg_info_of nobs g bnd) s evs = Throw.
Proof.
  intros orc s evs HI V HY. pose proof (machine_compact_able nobs n E g bnd HB NP EV MW evs SW) as AB. apply (signed_raises nobs n E g bnd HB NP EV BN (NI := machine_ints)); assumption.
Qed.
End Signed.
