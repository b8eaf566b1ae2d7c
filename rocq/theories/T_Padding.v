(** C08 on the Matching object: a packed shot with a set padding bit.

    A packed shot has a whole number of bytes, so its last byte can have bits for which there is no node.  decode_batch accepts any such
    shot, and a set bit past the last node is rejected by the decoder, after events before it have been placed. *)
From Coq Require Import Reals ZArith NArith List Bool Arith Lia Lra.
From Verif Require Import M_Base M_Core M_CoreHeap M_Bits S_Bits M_Discretise M_Merge M_Pipeline M_PipelineHeap M_UserGraph S_UserGraph S_Pipeline M_Matching S_Matching
  P_Pipeline P_Pipeline3 P_Matching S_Padding P_Padding T_Pipeline T_Matching.
Import ListNotations.
Local Open Scope nat_scope.

(** After any fair calls, such a shot with an event at a node that has an edge makes the object refuse every request that follows, whatever is
    asked.  Missing: graphs with negative weights. *)
Theorem C08_padding_forever_partial : forall n k before pp ncols shot shots cs, all_fair (new_graph RN n k) before -> let g := fold_left after before (new_graph RN n k) in
  usable g -> (forall e, In e (edges g) -> (0 <= weight e)%R) -> accepted_batch g true (Syn2 ncols (shot :: shots)) ->
  (exists b, shot_event true shot b /\ num_nodes g <= b) -> (exists v, shot_event true shot v /\ v < num_nodes g /\ ~ In v (bnodes g) /\ has_neighbour g v) -> Forall request cs ->
  exists K m' rs, all_right (new_graph RN n k) before rs /\ forall fuel, K <= fuel ->
    mrun fuel cyclic_ints (new_matching (new_graph RN n k)) (before ++ AskBatch true pp (Syn2 ncols (shot :: shots)) :: cs) = Ok (m', rs ++ Raised :: map (fun _ => Raised) cs).
Proof. exact padding_forever. Qed.
Print Assumptions C08_padding_forever_partial.

(** Nodes 0, 1, 2 in a row; the shot has one byte, with events at node 0 and at the padding bit 3. *)
Definition pad_before : list mcall := [Modify (@OpAdd RN 0 (Some 1) [0] 1%R (-1)%R INDEPENDENT); Modify (@OpAdd RN 1 (Some 2) [1] (5/2)%R (-1)%R INDEPENDENT)].
Example C08_padding_example : let g := fold_left after pad_before (new_graph RN 0 0) in all_fair (new_graph RN 0 0) pad_before /\
  usable g /\ (forall e, In e (edges g) -> (0 <= weight e)%R) /\ accepted_batch g true (Syn2 1 [[9]]%Z) /\
  (exists b, shot_event true [9]%Z b /\ num_nodes g <= b) /\ (exists v, shot_event true [9]%Z v /\ v < num_nodes g /\ ~ In v (bnodes g) /\ has_neighbour g v).
Proof.
  cbv zeta. set (e1 := @mkE RN 0 (Some 1) [0] 1%R (-1)%R). set (e2 := @mkE RN 1 (Some 2) [1] (5/2)%R (-1)%R). set (g := fold_left _ _ _).
  assert (P : edges g = [e1; e2] /\ bnodes g = [] /\ num_nodes g = 3 /\ nobs g = 2).
  { unfold g, pad_before. cbn [fold_left after apply_op]. unfold py_add. rewrite !fits by lra. repeat split; reflexivity. }
  destruct P as (P1 & P2 & P3 & P4).
  assert (POS : forall e, In e (edges g) -> (0 <= weight e)%R). { rewrite P1. intros e [<-|[<-|[]]]; cbn; lra. }
  split; [repeat (split; [exact I|]); exact I|]. split; [|split; [exact POS|]].
  - split; [|split; [apply (scalable_some g e1); [rewrite P1; now left|]; cbn; rewrite Rabs_right; lra|exact (harmless_nonneg g POS)]]. intros e o. rewrite P1, P4. intros [<-|[<-|[]]]; cbn; lia.
  - split; [cbn [accepted_batch]; unfold num_detectors; rewrite P2, P3; cbn; lia|]. split; [exists 3; split; [reflexivity|lia]|].
    exists 0. split; [reflexivity|]. split; [lia|]. split; [rewrite P2; intros []|]. exists e1. split; [rewrite P1; now left|]. left. split; [reflexivity|discriminate].
Qed.

(** So C08 is false of the Matching object: the same syndrome is answered before the shot and refused after it. *)
Theorem C08_padding_refuted : exists before z z2 g, g = fold_left after before (new_graph RN 0 0) /\ usable g /\ accepted_batch g true z /\ accepted g z2 /\ solvable g (event_at z2) /\
  exists K m' row w, forall fuel, K <= fuel ->
    mrun fuel cyclic_ints (new_matching (new_graph RN 0 0)) (before ++ [AskDecode z2; AskBatch true false z; AskDecode z2]) = Ok (m', [Done; Done; Row row w; Raised; Raised]).
Proof.
  pose proof C08_padding_example as X. cbv zeta in X. set (g := fold_left after pad_before (new_graph RN 0 0)) in X. destruct X as (_ & U & POS & HA & HB & HV).
  destruct C53_few_nodes_example as [F0 X]. cbv zeta in X. change (run (new_graph RN 0 0) _) with g in X. destruct X as (_ & _ & SX).
  assert (P : bnodes g = [] /\ num_nodes g = 3). { unfold g, pad_before. cbn [fold_left after apply_op]. unfold py_add. rewrite !fits by lra. split; reflexivity. }
  destruct P as [P2 P3]. assert (A2 : accepted g (Syn1 [1; 0; 1]%Z)) by (cbn [accepted]; unfold num_detectors; rewrite P2, P3; cbn; lia).
  exists pad_before, (Syn2 1 [[9]]%Z), (Syn1 [1; 0; 1]%Z), g. repeat (split; [assumption || reflexivity|]).
  assert (AF : all_fair (new_graph RN 0 0) (pad_before ++ [AskDecode (Syn1 [1; 0; 1]%Z)])).
  { unfold pad_before. cbn [app all_fair fair after]. split; [exact I|]. split; [exact I|]. split; [|exact I]. change (apply_op (apply_op _ _) _) with g. intros _. split; [exact U|]. right. split.
    - apply P_Compact.few_nodes_compact; [|lia]. unfold g. cbn [fold_left pad_before after]. repeat apply P_UserGraph.apply_op_inv. apply P_UserGraph.new_inv.
    - intros v Hv. rewrite P3. cbn [event_at] in Hv. destruct (Nat.lt_ge_cases v 3) as [L|L]; [exact L|]. rewrite nth_overflow in Hv by (cbn; lia). contradiction. }
  destruct (padding_forever 0 0 (pad_before ++ [AskDecode (Syn1 [1; 0; 1]%Z)]) false 1 [9]%Z [] [AskDecode (Syn1 [1; 0; 1]%Z)] AF) as (K & m' & rs & R1 & R2).
  1-5: rewrite fold_left_app; assumption. { repeat constructor. }
  unfold pad_before in R1. cbn [app all_right after] in R1. destruct rs as [|r1 [|r2 [|r3 [|]]]]; try (cbn in R1; tauto). destruct R1 as (Q1 & Q2 & Q3 & _). change (apply_op (apply_op _ _) _) with g in Q3.
  destruct Q3 as (Q3 & _). destruct (Q3 A2 SX) as (row & w & -> & _). exists K, m', row, w. intros f Hf. specialize (R2 f Hf). rewrite <- app_assoc in R2. cbn [app] in R2.
  assert (r1 = Done) as -> by (apply Q1; cbn; intros (? & _); discriminate). assert (r2 = Done) as -> by (apply Q2; cbn; intros (? & _); discriminate). exact R2.
Qed.
Print Assumptions C08_padding_refuted.
