(** C82: separate parts of a graph are decoded independently.

    If no edge joins two parts of a graph, other than at boundary nodes, and no weight is negative, then the weight reported for a shot is
    the sum of the weights reported for its events in the one part and for its events in the other, but for the rounding of doubles, a part
    in 2^47; with integral weights the sum is exact up to 2^51.  The shots are those of one call, which may follow any other calls.
    And, whatever the signs of the weights, an exception is raised for a syndrome exactly if one is raised for one of its two parts.
    If, furthermore, all corrections of the syndrome that are as light as any flip the same observables, and weights are integral, then
    the prediction is the exclusive or of those for the parts. *)
From Coq Require Import Reals ZArith NArith List Bool Arith Lia Lra Permutation.
From Verif Require Import M_Base M_Core M_CoreHeap M_Build M_Bits S_Bits M_Discretise M_Merge M_Pipeline M_PipelineHeap M_UserGraph S_UserGraph S_Pipeline S_PipelineHeap M_Matching S_Matching
  P_Pipeline P_Pipeline3 P_PipelineHeap P_Matched P_Matching S_Weights P_Weights S_Triangle P_Triangle T_Pipeline T_Matching T_Weights T_Triangle S_Parts P_Parts.
Import ListNotations.
Local Open Scope nat_scope.

Theorem C82_parts : forall n k cs c Ps A, let g := graph_after (new_graph RN n k) cs in
  all_fair (new_graph RN n k) (cs ++ [c]) -> asks_weights g c Ps -> (forall e, In e (edges g) -> (0 <= weight e)%R) -> separate g A ->
  exists K m rs r, (forall fuel, K <= fuel -> mrun fuel cyclic_ints (new_matching (new_graph RN n k)) (cs ++ [c]) = Ok (m, rs ++ [r])) /\
    forall ws, weights_told r = Some ws -> length ws = length Ps /\
      forall S P Q s p q, In (S, s) (combine Ps ws) -> In (P, p) (combine Ps ws) -> In (Q, q) (combine Ps ws) -> split_by g A S P Q ->
        (s <= (p + q) * (1 + / IZR (2 ^ 47)))%R /\ (p + q <= s * (1 + / IZR (2 ^ 47)))%R /\
        ((forall e, In e (edges g) -> exists k, weight e = IZR k) -> (p <= IZR (2 ^ 51))%R -> (q <= IZR (2 ^ 51))%R -> s = (p + q)%R).
Proof. exact session_parts. Qed.
Print Assumptions C82_parts.

Theorem C82_exceptions : forall n k cs z z1 z2 A, let g := graph_after (new_graph RN n k) cs in
  (forall y, In y [z; z1; z2] -> all_fair (new_graph RN n k) (cs ++ [AskDecode y]) /\ accepted g y) -> separate g A -> split_by g A (event_at z) (event_at z1) (event_at z2) ->
  exists K m m1 m2 rs rs1 rs2 r r1 r2,
    (forall fuel, K <= fuel -> mrun fuel cyclic_ints (new_matching (new_graph RN n k)) (cs ++ [AskDecode z]) = Ok (m, rs ++ [r])) /\
    (forall fuel, K <= fuel -> mrun fuel cyclic_ints (new_matching (new_graph RN n k)) (cs ++ [AskDecode z1]) = Ok (m1, rs1 ++ [r1])) /\
    (forall fuel, K <= fuel -> mrun fuel cyclic_ints (new_matching (new_graph RN n k)) (cs ++ [AskDecode z2]) = Ok (m2, rs2 ++ [r2])) /\
    (r = Raised <-> r1 = Raised \/ r2 = Raised).
Proof. exact session_parts_raise. Qed.
Print Assumptions C82_exceptions.

Theorem C82_predictions : forall n k cs z z1 z2 A, let g := graph_after (new_graph RN n k) cs in
  (forall y, In y [z; z1; z2] -> all_fair (new_graph RN n k) (cs ++ [AskDecode y]) /\ accepted g y) -> separate g A -> split_by g A (event_at z) (event_at z1) (event_at z2) ->
  (forall e, In e (edges g) -> (0 <= weight e)%R /\ exists k, weight e = IZR k) -> clear_cut g (event_at z) ->
  exists K m m1 m2 rs rs1 rs2 r r1 r2,
    (forall fuel, K <= fuel -> mrun fuel cyclic_ints (new_matching (new_graph RN n k)) (cs ++ [AskDecode z]) = Ok (m, rs ++ [r])) /\
    (forall fuel, K <= fuel -> mrun fuel cyclic_ints (new_matching (new_graph RN n k)) (cs ++ [AskDecode z1]) = Ok (m1, rs1 ++ [r1])) /\
    (forall fuel, K <= fuel -> mrun fuel cyclic_ints (new_matching (new_graph RN n k)) (cs ++ [AskDecode z2]) = Ok (m2, rs2 ++ [r2])) /\
    (solvable g (event_at z) -> exists row w row1 w1 row2 w2, r = Row row w /\ r1 = Row row1 w1 /\ r2 = Row row2 w2 /\ row = map (fun x => Z.lxor (fst x) (snd x)) (combine row1 row2)).
Proof. exact session_parts_row. Qed.
Print Assumptions C82_predictions.

(** ** A case that meets the hypotheses *)
(** The graph of two nodes, each with an edge to the boundary; the parts are the nodes.  The shots have an event at the one, at the other, at both, and none. *)
Example C82_parts_example : let g := graph_after (new_graph RN 0 0) few_calls in let c := AskBatch false false tri_shots in let A := fun v => v =? 0 in
  all_fair (new_graph RN 0 0) (few_calls ++ [c]) /\ asks_weights g c tri_events /\ (forall e, In e (edges g) -> (0 <= weight e)%R /\ exists k, weight e = IZR k) /\ separate g A /\
  (exists P Q S R, tri_events = [P; Q; S; R] /\ split_by g A S P Q) /\ ~ separate (graph_after (new_graph RN 0 0) tri_calls) A.
Proof.
  cbv zeta. pose proof few_graph as (E & B & M & _). pose proof tri_graph as (E' & B' & _). split; [exact few_all|]. split; [split; [|reflexivity]; cbn [accepted_batch tri_shots]; unfold num_detectors; rewrite B, M; cbn; lia|].
  split; [rewrite E; exact (tri_pos _ tri_incl)|]. split; [intros e v; rewrite E; intros [<-|[<-|[]]] X; discriminate X|].
  split; [|intros H; specialize (H (tri_e 2) 1); rewrite E', B' in H; specialize (H (or_intror (or_intror (or_introl eq_refl))) eq_refl (fun f => f) (fun f => f)); discriminate H].
  do 4 eexists. split; [reflexivity|]. intros [|[|[|v]]] _; cbn; intuition (discriminate || lia).
Qed.
Example C82_exceptions_example : let g := graph_after (new_graph RN 0 0) few_calls in let z := Syn1 [1; 1]%Z in let z1 := Syn1 [1; 0]%Z in let z2 := Syn1 [0; 1]%Z in let A := fun v => v =? 0 in
  (forall y, In y [z; z1; z2] -> all_fair (new_graph RN 0 0) (few_calls ++ [AskDecode y]) /\ accepted g y) /\ separate g A /\ split_by g A (event_at z) (event_at z1) (event_at z2).
Proof.
  cbv zeta. pose proof few_graph as (E & B & M & _). split; [|split; [intros e v; rewrite E; intros [<-|[<-|[]]] X; discriminate X|intros [|[|[|v]]] _; cbn; intuition (discriminate || lia)]]. intros z HZ.
  assert (X : exists shot, z = Syn1 shot /\ In shot [[1; 0]; [0; 1]; [1; 1]; [0; 0]]%Z /\ length shot = 2) by (destruct HZ as [<-|[<-|[<-|[]]]]; eexists; (split; [reflexivity|]); cbn; tauto).
  destruct X as (shot & -> & HS & HL). split; [|cbn [accepted]; unfold num_detectors; rewrite B, M; cbn; lia].
  apply fair_app; [repeat split|]. intros _. split; [apply (tri_usable _ _ few_graph); [cbn; tauto|exact tri_incl]|].
  apply (tri_shot_fair _ _ few_graph) with (shot := shot); [cbn; tauto|cbn; tauto|exact tri_incl|exact HS|]. intros v. cbn [event_at]. reflexivity.
Qed.
(** Both events have only one edge, so that there is only one correction. *)
Lemma few_clear : clear_cut (graph_after (new_graph RN 0 0) few_calls) (event_at (Syn1 [1; 1]%Z)).
Proof.
  pose proof few_graph as (E & B & _).
  assert (X : forall evs F, (forall v, In v evs <-> event_at (Syn1 [1; 1]%Z) v) -> corrects (graph_after (new_graph RN 0 0) few_calls) F evs -> forall o, flips_observable o F = flips_observable o [tri_e 0; tri_e 1]).
  { intros evs F V (N & I & D) o. rewrite E in I. rewrite B in D.
    assert (D0 : Nat.odd (total_degree 0 F) = true) by (apply D; [intros []|apply V; cbn; lia]). assert (D1 : Nat.odd (total_degree 1 F) = true) by (apply D; [intros []|apply V; cbn; lia]).
    assert (L : length F <= 2) by exact (NoDup_incl_length N I).
    destruct F as [|a [|b [|c F]]]; [discriminate D0| | |cbn in L; lia].
    - destruct (I a (or_introl eq_refl)) as [<-|[<-|[]]]; [discriminate D1|discriminate D0].
    - destruct (I a (or_introl eq_refl)) as [<-|[<-|[]]], (I b (or_intror (or_introl eq_refl))) as [<-|[<-|[]]]; [discriminate D1|reflexivity| |discriminate D0]. unfold flips_observable. cbn [fold_right]. now rewrite !xorb_false_r, xorb_comm. }
  intros evs F F' V C _ C' _ o. now rewrite (X evs F V C), (X evs F' V C').
Qed.
Example C82_predictions_example : let g := graph_after (new_graph RN 0 0) few_calls in let z := Syn1 [1; 1]%Z in let z1 := Syn1 [1; 0]%Z in let z2 := Syn1 [0; 1]%Z in let A := fun v => v =? 0 in
  (forall y, In y [z; z1; z2] -> all_fair (new_graph RN 0 0) (few_calls ++ [AskDecode y]) /\ accepted g y) /\ separate g A /\ split_by g A (event_at z) (event_at z1) (event_at z2) /\
  (forall e, In e (edges g) -> (0 <= weight e)%R /\ exists k, weight e = IZR k) /\ clear_cut g (event_at z) /\ solvable g (event_at z).
Proof.
  cbv zeta. destruct C82_exceptions_example as (H1 & H2 & H3). pose proof few_graph as (E & B & _). split; [exact H1|]. split; [exact H2|]. split; [exact H3|]. split; [rewrite E; exact (tri_pos _ tri_incl)|]. split; [exact few_clear|].
  exists [0; 1], [tri_e 0; tri_e 1]. split; [intros [|[|[|v]]]; cbn; lia|]. apply (path_corrects _ _ _ _ few_graph); [repeat constructor; cbn; intuition discriminate|apply incl_refl|]. intros [|[|v]]; cbn; split; intros H; try discriminate; try lia; auto.
Qed.
