(** C81: without detection events nothing is corrected.

    If every weight of the graph that a series of calls has made is positive, by more than rounding can change, then every call about a
    syndrome without events (except at boundary nodes, where they do not matter) is answered, whatever was asked before: decode predicts no
    flips, with weight zero; decode_batch, if it raises no exception because of another shot, predicts none for such a shot,
    packed or not; and there are no edges and no pairs. *)
From Coq Require Import Reals ZArith NArith List Bool Arith Lia Lra Permutation.
From Verif Require Import M_Base M_Core M_CoreHeap M_Build M_Bits S_Bits M_Discretise M_Merge M_Pipeline M_PipelineHeap M_UserGraph S_UserGraph S_Pipeline S_PipelineHeap M_Matching S_Matching
  P_Pipeline P_Pipeline3 P_PipelineHeap P_Matched P_Matching S_Weights P_Weights S_Triangle P_Triangle T_Pipeline T_Matching T_Weights T_Triangle S_Agree P_Agree T_Agree S_Quiet P_Quiet.
Import ListNotations.
Local Open Scope nat_scope.

Theorem C81_quiet : forall n k cs qs, let g := graph_after (new_graph RN n k) cs in all_fair (new_graph RN n k) (cs ++ qs) -> Forall asks qs -> distinctly_positive g ->
  exists K m rs rs', (forall fuel, K <= fuel -> mrun fuel cyclic_ints (new_matching (new_graph RN n k)) (cs ++ qs) = Ok (m, rs ++ rs')) /\ length rs = length cs /\ Forall2 (quiet_reply g) qs rs'.
Proof. exact session_quiet. Qed.
Print Assumptions C81_quiet.

(** With negative weights it is not so: with a loop of weight -3 at a node, flipping nothing is not the best, and the reply to a syndrome without
    events is a flip and the weight -3. *)
Theorem C81_negative_refuted : exists cs z, let g := graph_after (new_graph RN 0 0) cs in
  all_fair (new_graph RN 0 0) (cs ++ [AskDecode z]) /\ accepted g z /\ no_events g (event_at z) /\
  exists K m rs, forall fuel, K <= fuel -> mrun fuel cyclic_ints (new_matching (new_graph RN 0 0)) (cs ++ [AskDecode z]) = Ok (m, rs ++ [Row [1%Z] (-3)%R]).
Proof. exact loop_refuted. Qed.
Print Assumptions C81_negative_refuted.

(** ** A case that meets the hypotheses *)
(** The graph of C76, with weights 2, 3 and 4.  First an event is asked about; then there is none, in four ways; then a batch of which the last shot has none. *)
Definition none_on : syndrome := Syn1 [0; 0]%Z.
Definition quiet_questions : list mcall := [AskDecode one_on; AskDecode none_on; AskEdges none_on; AskPairs none_on; AskDict none_on; AskBatch false false tri_shots].
Example C81_example : let g := graph_after (new_graph RN 0 0) tri_calls in
  all_fair (new_graph RN 0 0) (tri_calls ++ quiet_questions) /\ Forall asks quiet_questions /\ distinctly_positive g /\
  accepted g none_on /\ no_events g (event_at none_on) /\ ~ no_events g (event_at one_on) /\ no_events g (shot_event false [0; 0]%Z) /\ nobs g = 2.
Proof.
  cbv zeta. pose proof tri_graph as PL. set (g := graph_after (new_graph RN 0 0) tri_calls) in *. pose proof PL as (E & B & M & O).
  assert (POS : forall e, In e (edges g) -> (0 <= weight e)%R) by (rewrite E; intros e He; exact (proj1 (tri_pos _ (incl_refl _) e He))).
  assert (U : usable g) by (apply (tri_usable _ _ PL); [cbn; tauto|apply incl_refl]).
  assert (NL : no_negative_loop g) by (intros e He _; now apply POS).
  assert (ASK : forall shot, In shot [[1; 0]; [0; 0]]%Z -> askable g (event_at (Syn1 shot))).
  { intros shot HS. apply (tri_shot_fair _ _ PL) with (shot := shot); [cbn; tauto|cbn; tauto|apply incl_refl|cbn in HS |- *; tauto|]. intros v. reflexivity. }
  assert (A1 : askable g (event_at one_on)) by (apply ASK; now left). assert (A2 : askable g (event_at none_on)) by (apply ASK; right; now left).
  assert (Z : forall v, nth v [0; 0]%Z 0%Z = 0%Z) by (intros [|[|[|v]]]; reflexivity).
  split; [apply fair_together; [repeat split|]; change (graph_after (new_graph RN 0 0) tri_calls) with g; cbn [quiet_questions all_fair after fair]; do 5 (split; [intros _; auto|]); split; [|exact Logic.I]; apply (tri_fair _ _ PL); [cbn; tauto|cbn; tauto|apply incl_refl]|].
  split; [repeat constructor|]. split.
  { exists 4%R. unfold half_step. change (IZR (2 * (2 ^ 24 - 1))) with 33554430%R. change (IZR (2 ^ 20)) with 1048576%R. intros e He. rewrite E in He. destruct He as [<-|[<-|[<-|[]]]]; cbn [tri_e weight]; lra. }
  split; [cbn [accepted none_on]; unfold num_detectors; rewrite B, M; cbn; lia|]. split; [intros v _; cbn [event_at none_on]; rewrite Z; tauto|].
  split; [intros H; apply (H 0); [rewrite B; intros []|]; discriminate|]. split; [intros v _; cbn [shot_event]; rewrite Z; tauto|exact O].
Qed.
