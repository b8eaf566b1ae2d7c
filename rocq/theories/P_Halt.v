(** Decoding ends: what follows for whole decodes and sessions. *)
From Coq Require Import ZArith NArith List Bool Arith Lia Permutation.
From Verif Require Import M_Base M_Core M_Session S_Core S_Session S_Decode P_Tree P_CoreGeo P_CoreArea P_CoreEvent P_CoreAdd P_CoreEnd P_CoreExt1 P_CoreExt2 P_CoreExt3 P_CoreCount P_Ends P_CoreDecode P_Session P_Decode.
Import ListNotations.
Local Open Scope nat_scope.

Lemma decode_ends : forall {NI : ints} G orc I s evs {AB : able NI G I evs}, wf_graph G -> idle G s -> valid_events G evs -> valid_events G (neg_events I) ->
  exists K r, r <> Fuel /\ forall fuel, K <= fuel -> decode G fuel orc NI I s evs = r.
Proof. intros NI G orc I s evs AB WF HI [V1 V2] [V3 V4]. exact (decode_stops G WF orc I s evs HI V1 V2 V3 V4). Qed.

Lemma plain_effective : forall evs v, In v evs <-> effective plain evs v.
Proof. intros evs v. unfold effective, plain. cbn [is_bnd neg_events]. destruct v; cbn [nth]; split; intuition; destruct H. Qed.

Lemma plain_ends : forall {NI : ints} G orc s evs {AB : able NI G plain evs}, wf_graph G -> idle G s -> valid_events G evs -> (exists F, explains G F evs) ->
  exists K s' o w l, (forall fuel, K <= fuel -> decode G fuel orc NI plain s evs = Ok (s', (o, w, l))) /\ idle G s' /\
    (exists F, NoDup F /\ explains G F evs /\ obs_of F = o /\ weight_of F = w) /\ (forall F, explains G F evs -> (w <= weight_of F)%Z).
Proof.
  intros NI G orc s evs AB WF HI V [F HF]. destruct (decode_ends G orc plain s evs WF HI V (plain_valid G)) as (K & r & Hr & H). pose proof (H K (le_n K)) as HK.
  destruct r as [[s' [[o w] l]]| | |]; [| | |congruence].
  - exists K, s', o, w, l. split; [exact H|]. split; [exact (decode_idle G K orc plain s evs WF HI V (plain_valid G) s' _ HK)|]. exact (plain_answer G K orc s evs WF HI V s' o w l HK).
  - exfalso. exact (decode_throws G K orc plain s evs WF HI V (plain_valid G) HK F evs (plain_effective evs) HF).
  - exfalso. exact (decode_defined G K orc plain s evs WF HI V (plain_valid G) HK).
Qed.
Lemma plain_raises : forall {NI : ints} G orc s evs {AB : able NI G plain evs}, wf_graph G -> idle G s -> valid_events G evs -> (forall F, ~ explains G F evs) ->
  exists K, forall fuel, K <= fuel -> decode G fuel orc NI plain s evs = Throw.
Proof.
  intros NI G orc s evs AB WF HI V HF. destruct (decode_ends G orc plain s evs WF HI V (plain_valid G)) as (K & r & Hr & H). pose proof (H K (le_n K)) as HK. exists K.
  destruct r as [x| | |]; [| | |congruence].
  - exfalso. exact (plain_infeasible G K orc s evs WF HI V HF x HK).
  - exact H.
  - exfalso. exact (decode_defined G K orc plain s evs WF HI V (plain_valid G) HK).
Qed.

(** One decode by a decoder that keeps its state. *)
Lemma decode_st_ends : forall {NI : ints} G orc I s evs {AB : able NI G I evs}, wf_graph G -> idle G s -> valid_events G evs -> valid_events G (neg_events I) ->
  exists K s' r, (forall fuel, K <= fuel -> decode_st G fuel orc NI I s evs = (s', r)) /\ ((exists x, r = Answer x) \/ r = NoMatching).
Proof.
  intros NI G orc I s evs AB WF HI V VN. pose proof (able_w (able := AB)) as WI. destruct (decode_ends G orc I s evs WF HI V VN) as (K & r & Hr & H). destruct V as [N1 B1], VN as [N2 B2].
  destruct (add_events_spec G WF I s evs HI N1 B1 N2 B2) as (s1 & ev & E1 & HInv & Hev).
  assert (NDev : NoDup ev) by (destruct HInv as (ls & ch & al & c & _ & (HGeo & _)); apply (g_evnd _ _ _ _ _ _ _ (proj1 HGeo))).
  pose proof (able_ev (able := AB) ev NDev Hev) as FI.
  pose proof (proj1 (add_events_st_ok _ _ _ _ _ _) E1) as E1'.
  destruct (main_loop_stops G WF ev orc s1 HInv 0) as (K1 & v & Hv & M). assert (M' : forall f, K1 <= f -> main_loop G f orc NI f s1 = v) by (intros f Hf; rewrite <- (M f Hf), Nat.sub_0_r; reflexivity). clear M.
  pose proof (main_loop_spec G WF ev K1 orc K1 s1 HInv) as ML. rewrite (M' K1 (le_n K1)) in ML. destruct v as [s2| | |]; cbn [safe] in ML; try contradiction.
  destruct (next (ta s2) =? length (free (ta s2))) eqn:En.
  - set (f := Nat.max K K1). pose proof (H f (Nat.le_max_l _ _)) as D. pose proof D as D0.
    destruct r as [[s' x]| | |]; [| | |congruence].
    + exists K, s', (Answer x). split; [|eauto]. intros fuel Hf. apply decode_st_ok. apply H. assumption.
    + exfalso. unfold decode, process_timeline in D. rewrite (idle_queue _ _ HI), E1 in D. cbn [bindO] in D. rewrite (M' f (Nat.le_max_r _ _)) in D. cbn [bindO] in D. rewrite En in D. cbn [bindO] in D.
      destruct ML as (Q0 & ls & ch & al & c & AO & HC). pose proof (end_spec G WF ev s2 ls ch al c HC Q0) as ES. rewrite En in ES. destruct ES as [Ea HM].
      destruct (end_rest G ev s2 ls ch al c AO HC Q0 HM) as (R0 & PD & PE). set (tops := filter _ ls) in *.
      pose proof HC as (HGeo & HQ & HR). pose proof (proj1 HGeo) as HG.
      pose proof (proj2 (extract_all_spec G ev s2 ls _ ch WF HG evs tops s2 R0 B1) f) as X1. cbv beta in X1.
      destruct (extract_all f NI s2 evs) as [[s3 r3]| | |]; cbn [safe bindO fst snd] in *; try contradiction; try discriminate.
      destruct X1 as (dn & TL & P1 & R1 & RO1 & Dn1).
      destruct (neg_events I) as [|z0 nl]; cbn [bindO] in D; [destruct (res_add r3 _) as [[? ?] ?]; discriminate|].
      pose proof (proj2 (extract_all_spec G ev s2 ls _ ch WF HG (z0 :: nl) TL s3 R1 B2) f) as X2. cbv beta in X2.
      destruct (extract_all f NI s3 (z0 :: nl)) as [[s4 r4]| | |]; cbn [safe bindO fst snd] in *; try contradiction; try discriminate. destruct (res_add r3 r4) as [[? ?] ?]. discriminate.
    + exfalso. exact (decode_defined G f orc I s evs WF HI (conj N1 B1) (conj N2 B2) D).
  - exists K1, (mwpm_reset G s2), NoMatching. split; [|auto]. intros fuel Hf. unfold decode_st. rewrite (idle_queue _ _ HI), E1', (M' fuel Hf), En. reflexivity.
Qed.

(** Any sequence of decodes. *)
Lemma session_ends : forall G orc I l s, wf_graph G -> valid_events G (neg_events I) -> Forall (valid_events G) l -> history G exact_ints I s ->
  exists K rs, (forall fuel, K <= fuel -> answers G fuel orc I s l = rs) /\ Forall (fun r => (exists x, r = Answer x) \/ r = NoMatching) rs.
Proof.
  intros G orc I. induction l as [|evs l IH]; intros s WF VN VL HH; [exists 0, []; split; [reflexivity|constructor]|].
  apply Forall_cons_iff in VL as [V VL]. destruct (decode_st_ends G orc I s evs WF (history_idle G I s WF VN HH) V VN) as (K & s' & r & H & Hr).
  assert (HH' : history G exact_ints I s') by (apply (one_more _ _ _ s K orc evs s' r HH V); [apply H, le_n|exact Hr]).
  destruct (IH s' WF VN VL HH') as (K' & rs & H1 & H2). exists (Nat.max K K'), (r :: rs). split; [|constructor; assumption].
  intros fuel Hf. cbn [answers]. rewrite (H fuel) by lia. rewrite (H1 fuel) by lia. reflexivity.
Qed.
