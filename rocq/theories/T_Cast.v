(** C68: arrays of integers are read modulo 256.

    Arrays of detection events are converted to uint8 before anything else.  Arrays of bytes (binary arrays among them) are read as they are; others are read as the arrays
    of bytes to which they are congruent.  So an entry counts as a detection event if and only if it is no multiple of 256; an entry 256 is lost, without any exception. *)
From Coq Require Import Reals ZArith List Bool Arith Lia Lra.
From Verif Require Import M_Base M_Bits S_Bits M_Core M_CoreHeap M_Merge M_Matching S_Matching M_Cast S_Cast P_Cast M_UserGraph S_UserGraph S_Pipeline.
Import ListNotations.
Local Open Scope nat_scope.

(** Whatever is called with arrays of integers, the replies are right for the arrays of bytes to which they are congruent. *)
Theorem C68_session : forall n k cs cs', Forall2 same_call_modulo cs cs' -> (forall c, In c cs' -> byte_array (array_of c)) -> all_fair (new_graph RN n k) cs' ->
  exists K m' rs, (forall fuel, K <= fuel -> int_run fuel cyclic_ints (new_matching (new_graph RN n k)) cs = Ok (m', rs)) /\ all_right (new_graph RN n k) cs' rs.
Proof. exact int_session. Qed.
Print Assumptions C68_session.
(** What counts as an event, in one syndrome and in a shot of a batch; shapes are not changed. *)
Theorem C68_events : forall z v, event_at (as_uint8 z) v <-> counted_at z v.
Proof. exact cast_event. Qed.
Print Assumptions C68_events.
Theorem C68_shots : forall packed shot v, shot_event packed (map u8 shot) v <-> counted_in_shot packed shot v.
Proof. exact cast_shot. Qed.
Print Assumptions C68_shots.
Theorem C68_shapes : forall g z, (accepted g (as_uint8 z) <-> accepted g z) /\ forall packed, accepted_batch g packed (as_uint8 z) <-> accepted_batch g packed z.
Proof. exact cast_accepted. Qed.
Print Assumptions C68_shapes.
(** Nonzero entries need not count: an accepted array with an entry 256, whose events some edges explain, gets a reply that is not right. *)
Theorem C68_nonzero_refuted : exists n k cs z m' rs w K, let g := fold_left after cs (new_graph RN n k) in
  all_fair (new_graph RN n k) (cs ++ [AskDecode z]) /\ accepted g z /\ solvable g (event_at z) /\
  (forall fuel, K <= fuel -> int_run fuel cyclic_ints (new_matching (new_graph RN n k)) (cs ++ [AskDecode z]) = Ok (m', rs ++ [Row [0%Z] w])) /\ ~ right g (AskDecode z) (Row [0%Z] w).
Proof. exact event_lost. Qed.
Print Assumptions C68_nonzero_refuted.

(** ** Cases that meet the hypotheses *)
Example C68_session_example : let cs := lone_calls ++ [AskDecode (Syn1 [-255]%Z)] in let cs' := lone_calls ++ [AskDecode (Syn1 [1]%Z)] in
  Forall2 same_call_modulo cs cs' /\ (forall c, In c cs' -> byte_array (array_of c)) /\ all_fair (new_graph RN 0 0) cs'.
Proof.
  cbv zeta. split; [|split].
  - constructor; [reflexivity|]. constructor; [|constructor]. constructor; [|constructor]. exists (-1)%Z. reflexivity.
  - intros c [<-|[<-|[]]] x; cbn; [intros []|]. intros [<-|[]]. lia.
  - apply lone_fair; [intros [|[|v]]; cbn; intros H; congruence|left; cbn; discriminate].
Qed.
Example C68_events_example : ~ event_at (as_uint8 (Syn2 2 [[0; 256]; [3; -256]]%Z)) 2 /\ event_at (as_uint8 (Syn2 2 [[0; 256]; [3; -256]]%Z)) 1 /\ shot_event true (map u8 [258]%Z) 1 /\ ~ shot_event true (map u8 [258]%Z) 8 /\ shot_event false (map u8 [258]%Z) 0.
Proof.
  split; [|split; [|split; [reflexivity|split; [discriminate|cbn; discriminate]]]].
  - intros (t & c & (H1 & H2 & H3) & H4). cbn in H2, H3. destruct t as [|[|]]; destruct c as [|[|]]; try lia. apply H4. reflexivity.
  - exists 0, 1. cbn. split; [lia|discriminate].
Qed.
Example C68_shapes_example : accepted (fold_left after lone_calls (new_graph RN 0 0)) (Syn1 [256]%Z) /\ accepted_batch (fold_left after lone_calls (new_graph RN 0 0)) true (Syn2 1 [[258]]%Z).
Proof. pose proof lone_graph as (_ & P2 & P3 & _). cbn [accepted accepted_batch]. unfold num_detectors. rewrite P2, P3. cbn. lia. Qed.
