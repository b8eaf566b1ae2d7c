(** C80: what a Matching object replies to one syndrome by different methods fits together.

    Let a series of calls make a graph, and let further calls ask about syndromes, in any order.  Whenever decode and one of
    decode_to_edges_array, decode_to_matched_dets_array and decode_to_matched_dets_dict are asked about the same syndrome, both raise an
    exception or neither does.  The weight from decode is that of the edges from decode_to_edges_array, which explain the events; and
    they flip the observables in the prediction if all lightest corrections flip the same.  It is also the least weight in all of sets of
    edges that join the pairs from the other two.  With integral weights the weights are equal, otherwise they are up to rounding.
    The same holds for the rows and weights from decode_batch, for every shot with the events of the syndrome. *)
From Coq Require Import Reals ZArith NArith List Bool Arith Lia Lra Permutation.
From Verif Require Import M_Base M_Core M_CoreHeap M_Build M_Bits S_Bits M_Discretise M_Merge M_Pipeline M_PipelineHeap M_UserGraph S_UserGraph S_Pipeline S_PipelineHeap M_Matching S_Matching
  P_Pipeline P_Pipeline3 P_PipelineHeap P_Matched P_Matching S_Weights P_Weights S_Triangle P_Triangle T_Pipeline T_Matching T_Weights T_Triangle S_Agree P_Agree.
Import ListNotations.
Local Open Scope nat_scope.

Theorem C80_replies : forall n k cs qs, let g := graph_after (new_graph RN n k) cs in all_fair (new_graph RN n k) (cs ++ qs) -> Forall asks qs ->
  exists K m rs rs', (forall fuel, K <= fuel -> mrun fuel cyclic_ints (new_matching (new_graph RN n k)) (cs ++ qs) = Ok (m, rs ++ rs')) /\ length rs = length cs /\ length rs' = length qs /\
    (forall i j z c r r', nth_error qs i = Some (AskDecode z) -> nth_error rs' i = Some r -> nth_error qs j = Some c -> nth_error rs' j = Some r' -> asks_solution c z ->
      replies_agree g z r c r') /\
    (forall i j ps pp nc shots l p shot bytes w z c r', nth_error qs i = Some (AskBatch ps pp (Syn2 nc shots)) -> nth_error rs' i = Some (Rows l) -> nth_error qs j = Some c -> nth_error rs' j = Some r' ->
      asks_solution c z -> accepted g z -> (forall v, shot_event ps shot v <-> event_at z v) -> nth_error shots p = Some shot -> nth_error l p = Some (bytes, w) ->
      exists row, prediction_of g pp bytes row /\ replies_agree g z (Row row w) c r').
Proof. exact session_agree. Qed.
Print Assumptions C80_replies.

(** ** A case that meets the hypotheses *)
(** The graph of C76: nodes 0 and 1, joined by an edge of weight 2, with edges of weights 3 and 4 to the boundary.  Events at both nodes are asked about in
    four ways, then an event at node 0, then an array of a wrong shape, and last a batch that has both syndromes among its shots. *)
Definition both_on : syndrome := Syn1 [1; 1]%Z.
Definition one_on : syndrome := Syn1 [1; 0]%Z.
Definition questions : list mcall := [AskPairs both_on; AskDecode both_on; AskEdges both_on; AskDict both_on; AskEdges one_on; AskDecode one_on; AskDecode SynOther; AskEdges SynOther; AskBatch false false tri_shots].
Lemma fair_together : forall cs qs g, all_fair g cs -> all_fair (graph_after g cs) qs -> all_fair g (cs ++ qs).
Proof. induction cs as [|c cs IH]; intros qs g H F; [exact F|]. split; [exact (proj1 H)|]. exact (IH qs _ (proj2 H) F). Qed.
Example C80_example : let g := graph_after (new_graph RN 0 0) tri_calls in
  all_fair (new_graph RN 0 0) (tri_calls ++ questions) /\ Forall asks questions /\ integer_weights g /\
  (forall z, In z [both_on; one_on] -> accepted g z /\ solvable g (event_at z)) /\ clear_cut g (event_at both_on) /\ ~ accepted g SynOther /\
  accepted_batch g false tri_shots /\ (forall v, shot_event false [1; 1]%Z v <-> event_at both_on v) /\ (forall v, shot_event false [1; 0]%Z v <-> event_at one_on v).
Proof.
  cbv zeta. pose proof tri_graph as PL. set (g := graph_after (new_graph RN 0 0) tri_calls) in *. pose proof PL as (E & B & M & _).
  assert (POS : forall e, In e (edges g) -> (0 <= weight e)%R) by (rewrite E; intros e He; exact (proj1 (tri_pos _ (incl_refl _) e He))).
  assert (INT : integer_weights g) by (intros e He; rewrite E in He; exact (proj2 (tri_pos _ (incl_refl _) e He))).
  assert (U : usable g) by (apply (tri_usable _ _ PL); [cbn; tauto|apply incl_refl]).
  assert (NL : no_negative_loop g) by (intros e He _; now apply POS).
  assert (ASK : forall shot, In shot [[1; 1]; [1; 0]]%Z -> askable g (event_at (Syn1 shot))).
  { intros shot HS. apply (tri_shot_fair _ _ PL) with (shot := shot); [cbn; tauto|cbn; tauto|apply incl_refl|cbn in HS |- *; tauto|]. intros v. reflexivity. }
  assert (A1 : askable g (event_at both_on)) by (apply ASK; now left). assert (A2 : askable g (event_at one_on)) by (apply ASK; right; now left).
  assert (C1 : corrects g [tri_e 2] [0; 1]).
  { apply (path_corrects g _ _ _ PL); [repeat constructor; intros []|intros e [<-|[]]; cbn; tauto|]. intros [|[|v]]; cbn; split; intros H; try discriminate; try lia; auto. }
  assert (C2 : corrects g [tri_e 0] [0]).
  { apply (path_corrects g _ _ _ PL); [repeat constructor; intros []|intros e [<-|[]]; cbn; tauto|]. intros [|[|v]]; cbn; split; intros H; try discriminate; try lia; auto. }
  assert (V1 : forall v, In v [0; 1] <-> event_at both_on v) by (intros [|[|[|v]]]; cbn; lia). assert (V2 : forall v, In v [0] <-> event_at one_on v) by (intros [|[|[|v]]]; cbn; lia).
  split; [apply fair_together; [repeat split|]; change (graph_after (new_graph RN 0 0) tri_calls) with g; cbn [questions all_fair after fair]; do 6 (split; [intros _; auto|]); split; [intros []|split; [intros []|]]; split; [|exact Logic.I]; apply (tri_fair _ _ PL); [cbn; tauto|cbn; tauto|apply incl_refl]|].
  split; [repeat constructor|]. split; [exact INT|]. split; [|split; [|split; [intros []|split; [cbn [accepted_batch tri_shots]; unfold num_detectors; rewrite B, M; cbn; lia|split; intros v; reflexivity]]]].
  - intros z [<-|[<-|[]]]; (split; [cbn [accepted both_on one_on]; unfold num_detectors; rewrite B, M; cbn; lia|]); [exists [0; 1], [tri_e 2]|exists [0], [tri_e 0]]; auto.
  - assert (X : forall evs F, (forall v, In v evs <-> event_at both_on v) -> corrects g F evs -> near_best g F evs -> F = [tri_e 2]).
    { intros evs F HE CF NF. destruct (NF [tri_e 2]) as [_ T]; [apply (corrects_iff g _ [0; 1] evs); [intros v; rewrite V1, HE; tauto|exact C1]|]. specialize (T INT).
      destruct CF as (ND & I & D).
      assert (W : forall e, In e F -> e <> tri_e 2 -> (2 < total_weight F)%R).
      { intros e He Hn. assert (G : forall l : list (uedge RN), (forall x, In x l -> (0 <= weight x)%R) -> In e l -> (weight e <= total_weight l)%R).
        { clear. induction l as [|a l IH]; intros P []; unfold total_weight; cbn [fold_right]; fold (total_weight l).
          - subst a. assert (Y : (0 <= total_weight l)%R) by (clear -P; induction l as [|b l IH]; [right; reflexivity|]; pose proof (P b (or_intror (or_introl eq_refl))); unfold total_weight; cbn [fold_right]; fold (total_weight l); assert (0 <= total_weight l)%R by (apply IH; intros x [Hx|Hx]; apply P; [now left|right; now right]); lra). lra.
          - pose proof (P a (or_introl eq_refl)). pose proof (IH (fun x Hx => P x (or_intror Hx)) H). lra. }
        pose proof (G F (fun x Hx => POS x (I x Hx)) He) as G'. pose proof (I e He) as Ie. rewrite E in Ie. destruct Ie as [<-|[<-|[<-|[]]]]; cbn in G'; [lra|lra|now elim Hn]. }
      assert (Z : total_weight [tri_e 2] = 2%R) by (unfold total_weight; cbn; lra). rewrite Z in T.
      assert (ALL : forall e, In e F -> e = tri_e 2).
      { intros e He. pose proof (I e He) as Ie. rewrite E in Ie. destruct Ie as [<-|[<-|[<-|[]]]]; [| |reflexivity]; exfalso; (assert (Q : (2 < total_weight F)%R) by (eapply W; [exact He|discriminate])); lra. }
      destruct F as [|a [|b F]]; [|now rewrite (ALL a (or_introl eq_refl))|exfalso].
      - exfalso. assert (K : false = true); [|discriminate]. apply (D 0); [rewrite B; intros []|]. apply HE, V1. now left.
      - inversion ND as [|? ? N _]; subst. apply N. left. rewrite (ALL a (or_introl eq_refl)). apply ALL. right. now left. }
    intros evs F F' HE CF NF CF' NF' i. rewrite (X evs F HE CF NF), (X evs F' HE CF' NF'). reflexivity.
Qed.
