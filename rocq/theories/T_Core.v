(** The decoder's core: C01, C02, C03, C04, C06, C41, C43.

    [decode] is the whole decode of M_Core.v: detection events are placed, the flooder and the matcher run until no
    event is left, and the matching is read off.  [orc] is any order in which the queue may deliver events of equal
    time, [fuel] any bound on the recursion (the result is [Fuel] if it is not enough), [s] any state of an idle
    decoder; integers are exact. *)
From Coq Require Import ZArith NArith List Bool Arith Lia Permutation.
From Verif Require Import M_Base M_Core M_Session S_Core S_Session S_Decode P_WfCheck P_Decode.
Import ListNotations.
Local Open Scope nat_scope.

(** C01 *)
Theorem C01_observables_of_a_correction : forall G fuel orc s evs s' o w l,
  wf_graph G -> idle G s -> valid_events G evs ->
  decode G fuel orc exact_ints plain s evs = Ok (s', (o, w, l)) ->
  exists F, NoDup F /\ explains G F evs /\ obs_of F = o.
Proof. exact (fun G fuel orc s evs s' o w l WF HI V => plain_observables G fuel orc s evs WF HI V s' o w l). Qed.
Print Assumptions C01_observables_of_a_correction.

(** C02: the same correction attains the weight, and no correction is lighter. *)
Theorem C02_weight_is_minimal : forall G fuel orc s evs s' o w l,
  wf_graph G -> idle G s -> valid_events G evs ->
  decode G fuel orc exact_ints plain s evs = Ok (s', (o, w, l)) ->
  (exists F, NoDup F /\ explains G F evs /\ obs_of F = o /\ weight_of F = w) /\
  (forall F, explains G F evs -> (w <= weight_of F)%Z).
Proof. exact (fun G fuel orc s evs s' o w l WF HI V => plain_answer G fuel orc s evs WF HI V s' o w l). Qed.
Print Assumptions C02_weight_is_minimal.

(** C01 and C02 with negative weights: [I] holds the ends of odd degree, the observables and the sum of the edges of
    negative weight (C09 says what they have to do with the edges given by the user). *)
Theorem C02_negative_weights : forall G fuel orc I s evs s' o w l,
  wf_graph G -> idle G s -> valid_events G evs -> valid_events G (neg_events I) ->
  decode G fuel orc exact_ints I s evs = Ok (s', (o, w, l)) ->
  exists ev F, NoDup ev /\ (forall v, In v ev <-> effective I evs v) /\
    NoDup F /\ explains G F ev /\ N.lxor (obs_of F) (neg_obs I) = o /\ (weight_of F + neg_sum I)%Z = w /\
    forall F', explains G F' ev -> (w <= weight_of F' + neg_sum I)%Z.
Proof. exact (fun G fuel orc I s evs s' o w l WF HI V VN => decode_answer G fuel orc I s evs WF HI V VN s' o w l). Qed.
Print Assumptions C02_negative_weights.

(** C03: raised only if no correction exists; ... *)
Theorem C03_raised_only_if_infeasible : forall G fuel orc I s evs,
  wf_graph G -> idle G s -> valid_events G evs -> valid_events G (neg_events I) ->
  decode G fuel orc exact_ints I s evs = Throw ->
  forall F ev, (forall v, In v ev <-> effective I evs v) -> ~ explains G F ev.
Proof. exact (fun G fuel orc I s evs => decode_throws G fuel orc I s evs). Qed.
Print Assumptions C03_raised_only_if_infeasible.

(** ... and a syndrome without correction is never answered. *)
Theorem C03_infeasible_never_answered : forall G fuel orc s evs,
  wf_graph G -> idle G s -> valid_events G evs -> (forall F, ~ explains G F evs) ->
  forall x, decode G fuel orc exact_ints plain s evs <> Ok x.
Proof. exact (fun G fuel orc s evs => plain_infeasible G fuel orc s evs). Qed.
Print Assumptions C03_infeasible_never_answered.

(** C04: the matched pairs cover each detection event once and nothing else; the first end is a detection event. *)
Theorem C04_pairs_cover_events : forall G fuel orc s evs s' o w l,
  wf_graph G -> idle G s -> valid_events G evs ->
  decode G fuel orc exact_ints plain s evs = Ok (s', (o, w, l)) ->
  Permutation (flat_map pair_ends l) evs /\ Forall (fun e => efrom e <> None) l.
Proof. exact (fun G fuel orc s evs s' o w l WF HI V => plain_pairs G fuel orc s evs WF HI V s' o w l). Qed.
Print Assumptions C04_pairs_cover_events.

(** Each pair stands for a shortest path between its ends, and their lengths and observables add up to the answer. *)
Theorem C04_pairs_are_shortest_paths : forall G fuel orc I s evs s' o w l,
  wf_graph G -> idle G s -> valid_events G evs -> valid_events G (neg_events I) ->
  decode G fuel orc exact_ints I s evs = Ok (s', (o, w, l)) ->
  exists ws, Forall2 (stands_for_shortest G) l ws /\ (fold_right Z.add 0 ws + neg_sum I)%Z = w /\
    fold_right N.lxor 0%N (map eobs l) = N.lxor o (neg_obs I).
Proof. exact (fun G fuel orc I s evs s' o w l WF HI V VN => decode_shortest G fuel orc I s evs WF HI V VN s' o w l). Qed.
Print Assumptions C04_pairs_are_shortest_paths.

(** C06 *)
Theorem C06_decode_leaves_idle : forall G fuel orc I s evs s' r,
  wf_graph G -> idle G s -> valid_events G evs -> valid_events G (neg_events I) ->
  decode G fuel orc exact_ints I s evs = Ok (s', r) -> idle G s'.
Proof. exact (fun G fuel orc I s evs s' r WF HI V VN => decode_idle G fuel orc I s evs WF HI V VN s' r). Qed.
Print Assumptions C06_decode_leaves_idle.

(** After any number of decodes, answered or failed, the decoder is idle. *)
Theorem C06_any_history : forall G I s,
  wf_graph G -> valid_events G (neg_events I) -> history G exact_ints I s -> idle G s.
Proof. exact history_idle. Qed.
Print Assumptions C06_any_history.

(** The answer after any history has the weight a new decoder finds, and fails only if that one does not answer. *)
Theorem C06_same_as_new : forall G I s fuel1 fuel2 orc1 orc2 evs s1 o1 w1 l1,
  wf_graph G -> valid_events G (neg_events I) -> valid_events G evs -> history G exact_ints I s ->
  decode G fuel1 orc1 exact_ints I init_state evs = Ok (s1, (o1, w1, l1)) ->
  decode G fuel2 orc2 exact_ints I s evs <> Throw /\
  forall s2 o2 w2 l2, decode G fuel2 orc2 exact_ints I s evs = Ok (s2, (o2, w2, l2)) -> w2 = w1.
Proof. exact same_as_new. Qed.
Print Assumptions C06_same_as_new.

(** C41: in every state between two events, every connection on record is a real path between detection events. *)
Theorem C41_connections_are_paths : forall G I s evs s',
  wf_graph G -> idle G s -> valid_events G evs -> valid_events G (neg_events I) ->
  reached G exact_ints I s evs s' -> connections_real G (effective I evs) s'.
Proof. exact reached_connections. Qed.
Print Assumptions C41_connections_are_paths.

(** C43: no null pointer is followed, no missing list element read. *)
Theorem C43_no_undefined_behaviour : forall G fuel orc I s evs,
  wf_graph G -> idle G s -> valid_events G evs -> valid_events G (neg_events I) ->
  decode G fuel orc exact_ints I s evs <> UB.
Proof. exact (fun G fuel orc I s evs => decode_defined G fuel orc I s evs). Qed.
Print Assumptions C43_no_undefined_behaviour.

(** ** Cases that meet the hypotheses *)

(** A triangle 0-1-2 joined to 3, which is joined to 4 and the boundary.  With detection events at 0, 1, 2 and 4 the
    decoder forms a blossom, which is broken up when the matching is read off. *)
Definition kite : graph :=
  [[(Some 1, 2%Z, 1%N); (Some 2, 2%Z, 0%N)];
   [(Some 0, 2%Z, 1%N); (Some 2, 2%Z, 0%N)];
   [(Some 0, 2%Z, 0%N); (Some 1, 2%Z, 0%N); (Some 3, 6%Z, 2%N)];
   [(None, 20%Z, 8%N); (Some 2, 6%Z, 2%N); (Some 4, 4%Z, 4%N)];
   [(Some 3, 4%Z, 4%N)]].
Definition fifo : nat -> nat := fun _ => 0.
Example kite_wf : wf_graph kite.
Proof. apply wf_check_sound. reflexivity. Qed.
Example kite_valid : valid_events kite [4; 0; 2; 1] /\ valid_events kite [3] /\ valid_events kite [].
Proof.
  repeat split; try (repeat constructor; simpl; intuition lia); simpl; intros v H; repeat (destruct H as [<-|H]; [simpl; lia|]); destruct H.
Qed.
Example C01_example : match decode kite 60 fifo exact_ints plain init_state [4; 0; 2; 1] with
  | Ok (_, r) => r = (7%N, 12%Z, [mkE (Some 1) (Some 0) 1%N; mkE (Some 4) (Some 2) 6%N]) | _ => False end.
Proof. vm_compute. reflexivity. Qed.
Example C02_example : exists F, explains kite F [4; 0; 2; 1] /\ obs_of F = 7%N /\ weight_of F = 12%Z.
Proof.
  exists [(0, Some 1, 2%Z, 1%N); (2, Some 3, 6%Z, 2%N); (3, Some 4, 4%Z, 4%N)]. split; [|split; reflexivity]. split.
  - repeat constructor; simpl; tauto || lia.
  - intros v. do 5 (destruct v as [|v]; [simpl; split; intros H; auto; try discriminate; repeat (destruct H as [H|H]; try discriminate); auto|]). simpl. split; [discriminate|]. intros H. repeat (destruct H as [H|H]; try discriminate). destruct H.
Qed.
(** A negative edge 3-4 has been replaced by one of weight 4: the detection events to match are 0 and 4. *)
Example C02_negative_example : match decode kite 60 fifo exact_ints (mkNeg [3; 4] 4%N (-4)%Z []) init_state [0; 3] with
  | Ok (_, (o, w, l)) => o = N.lxor 6 4 /\ w = (12 - 4)%Z /\ l = [mkE (Some 0) (Some 4) 6%N] | _ => False end.
Proof. vm_compute. repeat split. Qed.
(** Without the boundary an odd number of detection events cannot be explained. *)
Definition no_way : graph := [[(Some 1, 4%Z, 0%N)]; [(Some 0, 4%Z, 0%N); (Some 2, 6%Z, 1%N)]; [(Some 1, 6%Z, 1%N)]].
Example C03_example : wf_graph no_way /\ decode no_way 60 fifo exact_ints plain init_state [0; 1; 2] = Throw.
Proof. split; [apply wf_check_sound; reflexivity|vm_compute; reflexivity]. Qed.
(** Several decodes by one decoder, the second of which has an empty syndrome. *)
Example C06_example : answers kite 60 fifo plain init_state [[4; 0; 2; 1]; []; [3]; [4; 0; 2; 1]] =
  let r := Answer (7%N, 12%Z, [mkE (Some 1) (Some 0) 1%N; mkE (Some 4) (Some 2) 6%N]) in
  [r; Answer (0%N, 0%Z, []); Answer (8%N, 20%Z, [mkE (Some 3) None 8%N]); r].
Proof. vm_compute. reflexivity. Qed.
(** A reached state with a blossom and alternating trees. *)
Example C41_example : exists s', reached kite exact_ints plain init_state [4; 0; 2; 1] s' /\
  (exists R, in_use (ra s') R /\ length (chl (rg s') R) = 3) /\ (exists a, in_use (ta s') a).
Proof.
  pose (s1 := match add_events kite exact_ints plain init_state [4; 0; 2; 1] with Ok s => s | _ => init_state end).
  pose (s2 := match after kite 60 fifo 3 s1 with Ok s => s | _ => init_state end).
  exists s2. split; [|split].
  - apply (after_reached kite 60 fifo plain init_state [4; 0; 2; 1] 3 s1 s2); [apply events_added|]; vm_compute; reflexivity.
  - exists 4. vm_compute. split; [split; [lia|tauto]|reflexivity].
  - exists 0. vm_compute. split; [lia|]. intuition discriminate.
Qed.
