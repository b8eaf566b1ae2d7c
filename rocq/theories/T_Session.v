(** What a failed decode leaves behind (C07, C08), and a decode that never ends (C42). *)
From Coq Require Import ZArith NArith List Bool Arith Lia.
From Verif Require Import M_Base M_Varying M_Tracker M_Core S_Core M_Session S_Session P_WfCheck P_Session P_CoreGeo P_Reject.
Import ListNotations.
Local Open Scope nat_scope.

(** C07, for every decoder state before the call, every graph and every conversion of integers. *)
Theorem C07_failed_decode_leaves_idle : forall G fuel orc A I s evs s',
  decode_st G fuel orc A I s evs = (s', NoMatching) -> idle G s'.
Proof. exact failed_idle. Qed.
Print Assumptions C07_failed_decode_leaves_idle.

(** [decode_st] is [decode] of M_Core.v with the state kept. *)
Theorem C07_same_decoder : forall G fuel orc A I s evs s' r,
  decode G fuel orc A I s evs = Ok (s', r) <-> decode_st G fuel orc A I s evs = (s', Answer r).
Proof. exact decode_st_ok. Qed.
Print Assumptions C07_same_decoder.

(** A path 0-1-2 without boundary: one detection event cannot be explained, two can; the second decode, after
    the failed one, answers as a new decoder does. *)
Definition seg : graph := [[(Some 1, 4%Z, 0%N)]; [(Some 0, 4%Z, 0%N); (Some 2, 6%Z, 1%N)]; [(Some 1, 6%Z, 1%N)]].
Example C07_example :
  let d1 := decode_st seg 50 any exact_ints no_neg init_state [1] in
  let d2 := decode_st seg 50 any exact_ints no_neg (fst d1) [0; 2] in
  snd d1 = NoMatching /\ snd d2 = Answer (1%N, 10%Z, [mkE (Some 0) (Some 2) 1%N]) /\
  snd d2 = snd (decode_st seg 50 any exact_ints no_neg init_state [0; 2]).
Proof. vm_compute. repeat split. Qed.

(** C08 is false: after a decode rejected because of its last detection event, a valid syndrome is rejected. *)
Theorem C08_refuted : exists G evs bad s1,
  wf_graph G /\
  decode_st G 50 any machine_ints no_neg init_state (evs ++ [bad]) = (s1, Invalid) /\
  length G <= bad /\ ~ idle G s1 /\
  snd (decode_st G 50 any machine_ints no_neg s1 evs) = Invalid /\
  exists r, snd (decode_st G 50 any machine_ints no_neg init_state evs) = Answer r.
Proof.
  exists seg, [0; 2], 3. eexists. split; [apply wf_check_sound; reflexivity|].
  split; [vm_compute; reflexivity|]. split; [simpl; lia|]. split; [intros [H _ _ _]; discriminate H|].
  split; [vm_compute; reflexivity|]. eexists. vm_compute. reflexivity.
Qed.
Print Assumptions C08_refuted.

(** What is true of C08, with the machine's integers.  An index out of range at the front, or after boundary nodes only: the
    decoder stays idle (then C01 to C06 hold for the next decode).  Missing: graphs with negative edges. *)
Theorem C08_nothing_placed_partial : forall G fuel orc I s pre bad rest,
  idle G s -> neg_events I = [] -> (forall v, In v pre -> v < length G /\ nth v (is_bnd I) false = true) -> length G <= bad ->
  exists s', decode_st G fuel orc machine_ints I s (pre ++ bad :: rest) = (s', Invalid) /\ idle G s'.
Proof. exact (fun G fuel orc I s pre bad rest => reject_idle G I fuel orc s pre bad rest). Qed.
Print Assumptions C08_nothing_placed_partial.

(** An index out of range after an event at a node with a neighbour: every later decode, of whatever syndrome, is rejected and
    changes nothing; only a reset helps.  So C08 fails for all of these inputs.  Missing: isolated nodes. *)
Theorem C08_rejected_forever_partial : forall G fuel orc I s pre bad rest,
  wf_graph G -> (forall u x w o, In (x, w, o) (nbrs G u) -> (w <= max_weight)%Z) -> idle G s -> NoDup pre -> (forall v, In v pre -> v < length G) -> length G <= bad ->
  (exists v, In v pre /\ nth v (is_bnd I) false = false /\ ~ In v (neg_events I) /\ nbrs G v <> []) ->
  exists s', decode_st G fuel orc machine_ints I s (pre ++ bad :: rest) = (s', Invalid) /\
    (forall fuel orc evs, decode_st G fuel orc machine_ints I s' evs = (s', Invalid)) /\ idle G (mwpm_reset G s').
Proof. exact reject_forever. Qed.
Print Assumptions C08_rejected_forever_partial.
(** [seg] again: the event 1, then the index 7 out of range; then no syndrome is accepted, not even the empty one. *)
Example C08_forever_example :
  let d1 := decode_st seg 50 any machine_ints no_neg init_state [1; 7; 0] in
  snd d1 = Invalid /\ snd (decode_st seg 50 any machine_ints no_neg (fst d1) [0; 2]) = Invalid /\ snd (decode_st seg 50 any machine_ints no_neg (fst d1) []) = Invalid /\
  snd (decode_st seg 50 any machine_ints no_neg (mwpm_reset seg (fst d1)) [0; 2]) = Answer (1%N, 10%Z, [mkE (Some 0) (Some 2) 1%N]).
Proof. vm_compute. repeat split. Qed.
(** The index 7 first: the next decode answers. *)
Example C08_nothing_example :
  let d1 := decode_st seg 50 any machine_ints no_neg init_state [7; 1] in
  snd d1 = Invalid /\ snd (decode_st seg 50 any machine_ints no_neg (fst d1) [0; 2]) = Answer (1%N, 10%Z, [mkE (Some 0) (Some 2) 1%N]).
Proof. vm_compute. repeat split. Qed.

(** C42 is false of the machine integers: 68 detectors in a row, all weights the largest accepted one, a
    detection event at one end and the boundary at the other.  No amount of fuel is enough, although the
    syndrome can be explained. *)
Theorem C42_refuted : exists G evs F,
  wf_graph G /\ (forall u x w o, In (x, w, o) (nbrs G u) -> (w <= max_weight)%Z) /\ explains G F evs /\
  forall fuel, 200 <= fuel -> decode G fuel any machine_ints no_neg init_state evs = Fuel.
Proof.
  exists (long_path 68), [0], (map (fun i => (i, if i =? 67 then None else Some (S i), max_weight, if i =? 67 then 1%N else 0%N)) (seq 0 68)).
  split; [apply wf_check_sound; vm_compute; reflexivity|]. split.
  { intros u x w o Hin. assert (H : forallb (fun l => forallb (fun e : nbr => (snd (fst e) <=? max_weight)%Z) l) (long_path 68) = true) by (vm_compute; reflexivity).
    unfold nbrs in Hin. destruct (nth_in_or_default u (long_path 68) []) as [L|L]; [|rewrite L in Hin; destruct Hin].
    pose proof (proj1 (forallb_forall _ _) (proj1 (forallb_forall _ _) H _ L) _ Hin) as E. apply Z.leb_le in E. exact E. }
  split; [|exact overflow_never_ends]. split.
  - apply Forall_forall. intros e He. apply in_map_iff in He as (i & <- & Hi). apply in_seq in Hi.
    split.
    + assert (H : forallb (fun i => existsb (nbr_eqb (if i =? 67 then None else Some (S i), max_weight, if i =? 67 then 1%N else 0%N)) (nbrs (long_path 68) i)) (seq 0 68) = true)
        by (vm_compute; reflexivity).
      pose proof (proj1 (forallb_forall _ _) H i (proj2 (in_seq 68 0 i) Hi)) as E. apply existsb_exists in E as (y & Hy & Ey).
      apply nbr_eqb_spec in Ey. now subst y.
    + destruct (i =? 67); [exact I|lia].
  - intros v. destruct (Nat.lt_ge_cases v 68) as [L|L].
    + assert (H : forallb (fun v => Bool.eqb (Nat.odd (degree v (map (fun i => (i, if i =? 67 then None else Some (S i), max_weight, if i =? 67 then 1%N else 0%N)) (seq 0 68)))) (v =? 0)) (seq 0 68) = true)
        by (vm_compute; reflexivity).
      pose proof (proj1 (forallb_forall _ _) H v (proj2 (in_seq 68 0 v) ltac:(lia))) as E. apply Bool.eqb_prop in E. rewrite E.
      rewrite Nat.eqb_eq. simpl. intuition.
    + assert (D : forall l, (forall i, In i l -> S i < v) -> degree v (map (fun i => (i, if i =? 67 then None else Some (S i), max_weight, if i =? 67 then 1%N else 0%N)) l) = 0).
      { induction l as [|i l IH]; intros Hl; [reflexivity|]. cbn [map degree ends_at]. rewrite IH by (intros j Hj; apply Hl; now right).
        assert (S i < v) by (apply Hl; now left). destruct (Nat.eqb_spec i v); [lia|]. destruct (i =? 67); [reflexivity|].
        destruct (Nat.eqb_spec (S i) v); [lia|reflexivity]. }
      destruct (Nat.eq_dec v 68) as [->|N].
      * vm_compute. split; [discriminate|intros [H|[]]; discriminate].
      * rewrite D by (intros i Hi; apply in_seq in Hi; lia). simpl. split; [discriminate|lia].
Qed.
Print Assumptions C42_refuted.
(** With unbounded integers the same decode ends, with the right answer. *)
Example C42_example : exists s, decode (long_path 68) 300 any exact_ints no_neg init_state [0] =
  Ok (s, (1%N, (68 * max_weight)%Z, [mkE (Some 0) None 1%N])).
Proof. eexists. vm_compute. reflexivity. Qed.
