(** Decoding ends: from the edges given by the caller to the answer. *)
From Coq Require Import ZArith NArith List Bool Arith Lia Permutation.
From Verif Require Import M_Base M_Core M_Session S_Core S_Session S_Decode M_Build S_Build M_Flip S_Flip M_Search S_Search M_ToEdges S_ToEdges P_Search P_ToEdges P_ToEdges2 P_CoreGeo P_CoreDecode P_Signed P_Decode P_Halt.
Import ListNotations.
Local Open Scope nat_scope.

Section Signed.
Variables (nobs n : nat) (E : list sedge) (g : mgraph) (bnd : list bool).
Hypothesis HB : build nobs n E = Ok g.
Hypothesis NP : ForallOrdPairs (fun e f => ~ parallel e f) E.
Hypothesis EV : forall e, In e E -> Z.even (s_weight e) = true.
Hypothesis BN : boundary_bare bnd E.
Let I := neg_info_of nobs g bnd.

(** Either an answer or an exception, for all large bounds. *)
Lemma signed_two : forall {NI : ints} orc s evs {AB : able NI (adj g) I evs}, idle (adj g) s -> valid_events (adj g) evs ->
  (exists K s' o w l, forall fuel, K <= fuel -> decode (adj g) fuel orc NI I s evs = Ok (s', (o, w, l))) \/
  (exists K, forall fuel, K <= fuel -> decode (adj g) fuel orc NI I s evs = Throw).
Proof.
  intros NI orc s evs AB HI V. pose proof (signed_wf nobs n E g HB NP EV) as WF. pose proof (neg_valid nobs n E g bnd HB) as VN. fold I in VN.
  destruct (decode_ends (adj g) orc I s evs WF HI V VN) as (K & r & Hr & H). destruct r as [[s' [[o w] l]]| | |]; [left|right| |congruence].
  - exists K, s', o, w, l. exact H.
  - exists K. exact H.
  - exfalso. exact (decode_defined (adj g) K orc I s evs WF HI V VN (H K (le_n K))).
Qed.
Lemma signed_ends : forall {NI : ints} orc s evs {AB : able NI (adj g) I evs}, idle (adj g) s -> valid_events (adj g) evs -> (exists Y, solves E (wanted bnd evs) Y) ->
  exists K s' o w l X, (forall fuel, K <= fuel -> decode (adj g) fuel orc NI I s evs = Ok (s', (o, w, l))) /\
    solves E (wanted bnd evs) X /\ s_total (select E X) = w /\ (nobs <= 64 -> forall k, N.testbit o (N.of_nat k) = s_flips k (select E X)) /\
    forall Y, solves E (wanted bnd evs) Y -> (w <= s_total (select E Y))%Z.
Proof.
  intros NI orc s evs AB HI V [Y HY]. destruct (signed_two orc s evs HI V) as [(K & s' & o & w & l & H)|[K H]].
  - destruct (signed_answer nobs n E g bnd HB NP EV BN K orc s evs s' o w l HI V (H K (le_n K))) as (X & H1 & H2 & H3 & H4). exists K, s', o, w, l, X. tauto.
  - exfalso. exact (signed_throws nobs n E g bnd HB NP EV BN K orc s evs HI V (H K (le_n K)) Y HY).
Qed.
Lemma signed_raises : forall {NI : ints} orc s evs {AB : able NI (adj g) I evs}, idle (adj g) s -> valid_events (adj g) evs -> (forall Y, ~ solves E (wanted bnd evs) Y) ->
  exists K, forall fuel, K <= fuel -> decode (adj g) fuel orc NI I s evs = Throw.
Proof.
  intros NI orc s evs AB HI V HY. destruct (signed_two orc s evs HI V) as [(K & s' & o & w & l & H)|H]; [|exact H].
  exfalso. destruct (signed_answer nobs n E g bnd HB NP EV BN K orc s evs s' o w l HI V (H K (le_n K))) as (X & H1 & _). exact (HY X H1).
Qed.

Variable sg : sgraph.
Hypothesis HS : sbuild n E = Ok sg.
Hypothesis NL : forall e, In e E -> ~ negative_loop e.
Lemma edges_end : forall {NI : ints} orc orc2 s q M evs {AB : able NI (adj g) I evs}, idle (adj g) s -> search_idle q -> valid_events (adj g) evs -> unmarked (sadj sg) M ->
  (exists Y, solves E (wanted bnd evs) Y) ->
  exists K s' q' M' out X, (forall fuel, K <= fuel ->
      decode_to_edges (adj g) (sadj sg) fuel fuel orc orc2 NI I (sneg sg) s q M evs = Ok (s', q', M', out)) /\
    lists_edges out (select E X) /\ solves E (wanted bnd evs) X /\
    forall Y, solves E (wanted bnd evs) Y -> (s_total (select E X) <= s_total (select E Y))%Z.
Proof.
  intros NI orc orc2 s q M evs AB HI HQ V UM [Y HY]. destruct (signed_two orc s evs HI V) as [(K & s' & o & w & l & H)|[K H]].
  - destruct (to_edges_spec nobs n E g sg bnd HB HS NP EV BN K orc orc2 s q evs s' o w l HI HQ V (H K (le_n K)) M NL UM) as (k & q' & M' & out & X & a & b & c & d & e & f & h).
    exists (Nat.max K k), s', q', M', out, X. subst w. split; [|tauto]. intros fuel Hf.
    rewrite <- (a fuel) by lia. unfold decode_to_edges. fold I. rewrite (H fuel), (H K) by lia. reflexivity.
  - exfalso. exact (signed_throws nobs n E g bnd HB NP EV BN K orc s evs HI V (H K (le_n K)) Y HY).
Qed.
Lemma many_end : forall {NI : ints} orc orc2 s q evs {AB : able NI (adj g) I evs}, idle (adj g) s -> search_idle q -> valid_events (adj g) evs ->
  (exists Y, solves E (wanted bnd evs) Y) ->
  exists K s' q' o w X, (forall fuel, K <= fuel ->
      decode_many_observables (adj g) (sadj sg) fuel fuel orc orc2 NI I (neg_obss g) s q evs = Ok (s', q', (o, w))) /\
    solves E (wanted bnd evs) X /\ s_total (select E X) = w /\ (forall i, N.testbit o (N.of_nat i) = s_flips i (select E X)) /\
    forall Y, solves E (wanted bnd evs) Y -> (w <= s_total (select E Y))%Z.
Proof.
  intros NI orc orc2 s q evs AB HI HQ V [Y HY]. destruct (signed_two orc s evs HI V) as [(K & s' & o & w & l & H)|[K H]].
  - destruct (many_spec nobs n E g sg bnd HB HS NP EV BN K orc orc2 s q evs s' o w l HI HQ V (H K (le_n K))) as (k & q' & o' & X & a & b & c & d & e & f).
    exists (Nat.max K k), s', q', o', w, X. split; [|tauto]. intros fuel Hf.
    rewrite <- (a fuel) by lia. unfold decode_many_observables. fold I. rewrite (H fuel), (H K) by lia. reflexivity.
  - exfalso. exact (signed_throws nobs n E g bnd HB NP EV BN K orc s evs HI V (H K (le_n K)) Y HY).
Qed.
End Signed.
