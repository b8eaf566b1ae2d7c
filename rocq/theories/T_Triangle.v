(** C76: the reported weights are a measure of distance.

    If no edge has a negative weight: no reported weight is negative; a shot without events has weight zero, exactly; and if a shot has
    an event where exactly one of two other shots has, then its weight is at most the sum of the weights of those two, but for the rounding
    of doubles, a part in 2^47; with integral weights the inequality holds exactly up to 2^51.  If both of the two shots can be explained
    then so can the third: no exception is raised for it.  And if a graph has all edges of another one and integral weights, of either sign,
    then the same events never have a larger weight in it, and raise no exception that they do not raise in the other one. *)
From Coq Require Import Reals ZArith NArith List Bool Arith Lia Lra Permutation.
From Verif Require Import M_Base M_Core M_CoreHeap M_Build M_Bits S_Bits M_Discretise M_Merge M_Pipeline M_PipelineHeap M_UserGraph S_UserGraph S_Pipeline S_PipelineHeap M_Matching S_Matching
  P_Pipeline P_Pipeline3 P_PipelineHeap P_Matched P_Matching S_Weights P_Weights S_Triangle P_Triangle T_Pipeline T_Matching T_Weights.
Import ListNotations.
Local Open Scope nat_scope.

Theorem C76_norm : forall n k cs c Ps, let g := graph_after (new_graph RN n k) cs in
  all_fair (new_graph RN n k) (cs ++ [c]) -> asks_weights g c Ps -> (forall e, In e (edges g) -> (0 <= weight e)%R) ->
  exists K m rs r, (forall fuel, K <= fuel -> mrun fuel cyclic_ints (new_matching (new_graph RN n k)) (cs ++ [c]) = Ok (m, rs ++ [r])) /\
    forall ws, weights_told r = Some ws -> length ws = length Ps /\
      (forall P w, In (P, w) (combine Ps ws) -> (0 <= w)%R /\ (no_events g P -> w = 0%R)) /\
      forall P Q S p q s, In (P, p) (combine Ps ws) -> In (Q, q) (combine Ps ws) -> In (S, s) (combine Ps ws) -> combines g P Q S ->
        (s <= (p + q) * (1 + / IZR (2 ^ 47)))%R /\
        ((forall e, In e (edges g) -> exists k, weight e = IZR k) -> (p <= IZR (2 ^ 51))%R -> (q <= IZR (2 ^ 51))%R -> (s <= p + q)%R).
Proof. exact session_norm. Qed.
Print Assumptions C76_norm.

(** The same with three calls, of which the third raises no exception unless one of the others does. *)
Theorem C76_combined : forall n k cs z1 z2 z3, let g := graph_after (new_graph RN n k) cs in
  (forall z, In z [z1; z2; z3] -> all_fair (new_graph RN n k) (cs ++ [AskDecode z]) /\ accepted g z) -> (forall e, In e (edges g) -> (0 <= weight e)%R) ->
  combines g (event_at z1) (event_at z2) (event_at z3) ->
  exists K m1 m2 m3 rs1 rs2 rs3 r1 r2 r3,
    (forall fuel, K <= fuel -> mrun fuel cyclic_ints (new_matching (new_graph RN n k)) (cs ++ [AskDecode z1]) = Ok (m1, rs1 ++ [r1])) /\
    (forall fuel, K <= fuel -> mrun fuel cyclic_ints (new_matching (new_graph RN n k)) (cs ++ [AskDecode z2]) = Ok (m2, rs2 ++ [r2])) /\
    (forall fuel, K <= fuel -> mrun fuel cyclic_ints (new_matching (new_graph RN n k)) (cs ++ [AskDecode z3]) = Ok (m3, rs3 ++ [r3])) /\
    forall p q, weights_told r1 = Some [p] -> weights_told r2 = Some [q] -> exists s, weights_told r3 = Some [s] /\ (s <= (p + q) * (1 + / IZR (2 ^ 47)))%R.
Proof. exact session_three. Qed.
Print Assumptions C76_combined.

Theorem C76_more_edges : forall n1 k1 cs1 c1 Ps1 n2 k2 cs2 c2 Ps2, let g1 := graph_after (new_graph RN n1 k1) cs1 in let g2 := graph_after (new_graph RN n2 k2) cs2 in
  all_fair (new_graph RN n1 k1) (cs1 ++ [c1]) -> all_fair (new_graph RN n2 k2) (cs2 ++ [c2]) -> has_more_edges g1 g2 -> (forall e, In e (edges g2) -> exists k, weight e = IZR k) ->
  asks_weights g1 c1 Ps1 -> asks_weights g2 c2 Ps2 -> Forall2 (same_events (fun v => v) g1) Ps1 Ps2 ->
  exists K m1 rs1 r1 m2 rs2 r2,
    (forall fuel, K <= fuel -> mrun fuel cyclic_ints (new_matching (new_graph RN n1 k1)) (cs1 ++ [c1]) = Ok (m1, rs1 ++ [r1])) /\
    (forall fuel, K <= fuel -> mrun fuel cyclic_ints (new_matching (new_graph RN n2 k2)) (cs2 ++ [c2]) = Ok (m2, rs2 ++ [r2])) /\
    forall ws1, weights_told r1 = Some ws1 -> exists ws2, weights_told r2 = Some ws2 /\ Forall2 Rle ws2 ws1.
Proof. exact session_more. Qed.
Print Assumptions C76_more_edges.

(** ** Cases that meet the hypotheses *)
(** Two nodes, each with an edge to the boundary; then an edge between them is added.  The shots have an event at the one, at the other, at both, and none. *)
Definition tri_e (i : nat) : uedge RN := match i with 0 => @mkE RN 0 None [0] 3%R (-1)%R | 1 => @mkE RN 1 None [1] 4%R (-1)%R | _ => @mkE RN 0 (Some 1) [] 2%R (-1)%R end.
Definition few_calls : list mcall := map Modify [@OpAdd RN 0 None [0] 3%R (-1)%R DISALLOW; @OpAdd RN 1 None [1] 4%R (-1)%R DISALLOW].
Definition tri_calls : list mcall := few_calls ++ [Modify (@OpAdd RN 0 (Some 1) [] 2%R (-1)%R DISALLOW)].
Definition tri_shots : syndrome := Syn2 2 [[1; 0]; [0; 1]; [1; 1]; [0; 0]]%Z.
Lemma few_graph : path_like (graph_after (new_graph RN 0 0) few_calls) [tri_e 0; tri_e 1].
Proof. unfold graph_after, few_calls. cbn [map fold_left after apply_op]. unfold py_add. rewrite !T_Pipeline.fits by lra. repeat split; reflexivity. Qed.
Lemma tri_graph : path_like (graph_after (new_graph RN 0 0) tri_calls) [tri_e 0; tri_e 1; tri_e 2].
Proof. unfold graph_after, tri_calls, few_calls. cbn [map app fold_left after apply_op]. unfold py_add. rewrite !T_Pipeline.fits by lra. repeat split; reflexivity. Qed.
Lemma tri_pos : forall E, incl E [tri_e 0; tri_e 1; tri_e 2] -> forall e, In e E -> (0 <= weight e)%R /\ exists k, weight e = IZR k.
Proof. intros E H e He. destruct (H e He) as [<-|[<-|[<-|[]]]]; cbn; (split; [lra|eexists; reflexivity]). Qed.
Lemma tri_usable : forall (g : ugraph RN) E, path_like g E -> In (tri_e 0) E -> incl E [tri_e 0; tri_e 1; tri_e 2] -> usable g.
Proof.
  intros g E (PE & B & _ & K) I0 HI. assert (POS : forall e, In e (edges g) -> (0 <= weight e)%R) by (rewrite PE; intros e He; exact (proj1 (tri_pos E HI e He))).
  split; [intros e o; rewrite PE, K; intros He; destruct (HI e He) as [<-|[<-|[<-|[]]]]; cbn; lia|]. split; [|exact (harmless_nonneg g POS)]. apply (scalable_some g (tri_e 0)); [now rewrite PE|]. cbn. rewrite Rabs_right; lra.
Qed.
Lemma tri_shot_fair : forall (g : ugraph RN) E, path_like g E -> In (tri_e 0) E -> In (tri_e 1) E -> incl E [tri_e 0; tri_e 1; tri_e 2] -> forall (P : nat -> Prop) shot,
  In shot [[1; 0]; [0; 1]; [1; 1]; [0; 0]]%Z -> (forall v, P v <-> nth v shot 0%Z <> 0%Z) -> askable g P.
Proof.
  intros g E PL I0 I1 HI P shot HS HP. assert (POS : forall e, In e (edges g) -> (0 <= weight e)%R) by (destruct PL as (-> & _); intros e He; exact (proj1 (tri_pos E HI e He))).
  destruct HS as [<-|[<-|[<-|[<-|[]]]]].
  - apply (path_asks g [0] [tri_e 0] P POS); [| |cbn; lia]; [intros v; rewrite HP; destruct v as [|[|[|v]]]; cbn; lia|]. apply (path_corrects g E _ _ PL); [repeat constructor; intros []|intros e [<-|[]]; assumption|]. intros [|[|v]]; cbn; split; intros H; try discriminate; try lia; auto.
  - apply (path_asks g [1] [tri_e 1] P POS); [| |cbn; lia]; [intros v; rewrite HP; destruct v as [|[|[|v]]]; cbn; lia|]. apply (path_corrects g E _ _ PL); [repeat constructor; intros []|intros e [<-|[]]; assumption|]. intros [|[|v]]; cbn; split; intros H; try discriminate; try lia; auto.
  - apply (path_asks g [0; 1] [tri_e 0; tri_e 1] P POS); [| |cbn; lia]; [intros v; rewrite HP; destruct v as [|[|[|v]]]; cbn; lia|]. apply (path_corrects g E _ _ PL); [repeat constructor; cbn; intuition discriminate|intros e [<-|[<-|[]]]; assumption|]. intros [|[|v]]; cbn; split; intros H; try discriminate; try lia; auto.
  - apply (path_asks g [] [] P POS); [| |cbn; lia]; [intros v; rewrite HP; destruct v as [|[|[|v]]]; cbn; lia|]. apply (path_corrects g E _ _ PL); [constructor|intros e []|]. intros v; cbn; split; [discriminate|intros []].
Qed.
Lemma tri_fair : forall (g : ugraph RN) E, path_like g E -> In (tri_e 0) E -> In (tri_e 1) E -> incl E [tri_e 0; tri_e 1; tri_e 2] -> fair g (AskBatch false false tri_shots).
Proof.
  intros g E PL I0 I1 HI _. split; [exact (tri_usable g E PL I0 HI)|]. apply Forall_forall. intros shot HS. apply (tri_shot_fair g E PL I0 I1 HI _ shot HS). intros v. reflexivity.
Qed.
Lemma tri_incl : incl [tri_e 0; tri_e 1] [tri_e 0; tri_e 1; tri_e 2].
Proof. intros e H. cbn [In] in *. tauto. Qed.
Lemma few_all : all_fair (new_graph RN 0 0) (few_calls ++ [AskBatch false false tri_shots]).
Proof. apply fair_app; [repeat split|]. apply (tri_fair _ _ few_graph); cbn [In]; [tauto|tauto|exact tri_incl]. Qed.
Lemma tri_all : all_fair (new_graph RN 0 0) (tri_calls ++ [AskBatch false false tri_shots]).
Proof. apply fair_app; [repeat split|]. apply (tri_fair _ _ tri_graph); cbn [In]; [tauto|tauto|apply incl_refl]. Qed.
Definition tri_events : list (nat -> Prop) := map (shot_event false) [[1; 0]; [0; 1]; [1; 1]; [0; 0]]%Z.
Lemma tri_combines : forall g, combines g (shot_event false [1; 0]%Z) (shot_event false [0; 1]%Z) (shot_event false [1; 1]%Z).
Proof. intros g [|[|[|v]]] _; cbn; lia. Qed.
Example C76_norm_example : let g := graph_after (new_graph RN 0 0) tri_calls in let c := AskBatch false false tri_shots in
  all_fair (new_graph RN 0 0) (tri_calls ++ [c]) /\ asks_weights g c tri_events /\ (forall e, In e (edges g) -> (0 <= weight e)%R /\ exists k, weight e = IZR k) /\
  (exists P Q S R, tri_events = [P; Q; S; R] /\ combines g P Q S /\ no_events g R).
Proof.
  cbv zeta. pose proof tri_graph as (E & B & M & _). split; [exact tri_all|]. split; [split; [|reflexivity]; cbn [accepted_batch tri_shots]; unfold num_detectors; rewrite B, M; cbn; lia|].
  split; [rewrite E; exact (tri_pos _ (incl_refl _))|]. do 4 eexists. split; [reflexivity|]. split; [apply tri_combines|]. intros v _. cbn [shot_event]. rewrite nth_zeros. tauto.
Qed.
Example C76_combined_example : let g := graph_after (new_graph RN 0 0) tri_calls in let z1 := Syn1 [1; 0]%Z in let z2 := Syn1 [0; 1]%Z in let z3 := Syn1 [1; 1]%Z in
  (forall z, In z [z1; z2; z3] -> all_fair (new_graph RN 0 0) (tri_calls ++ [AskDecode z]) /\ accepted g z) /\ combines g (event_at z1) (event_at z2) (event_at z3).
Proof.
  cbv zeta. pose proof tri_graph as (E & B & M & _). split; [|intros [|[|[|v]]] _; cbn; lia]. intros z HZ.
  assert (X : exists shot, z = Syn1 shot /\ In shot [[1; 0]; [0; 1]; [1; 1]; [0; 0]]%Z /\ length shot = 2) by (destruct HZ as [<-|[<-|[<-|[]]]]; eexists; (split; [reflexivity|]); cbn; tauto).
  destruct X as (shot & -> & HS & HL). split; [|cbn [accepted]; unfold num_detectors; rewrite B, M; cbn; lia].
  apply fair_app; [repeat split|]. intros _. split; [apply (tri_usable _ _ tri_graph); [cbn; tauto|apply incl_refl]|].
  apply (tri_shot_fair _ _ tri_graph) with (shot := shot); [cbn; tauto|cbn; tauto|apply incl_refl|exact HS|]. intros v. cbn [event_at]. reflexivity.
Qed.
Example C76_more_edges_example : let g1 := graph_after (new_graph RN 0 0) few_calls in let g2 := graph_after (new_graph RN 0 0) tri_calls in let c := AskBatch false false tri_shots in
  all_fair (new_graph RN 0 0) (few_calls ++ [c]) /\ all_fair (new_graph RN 0 0) (tri_calls ++ [c]) /\ has_more_edges g1 g2 /\ (forall e, In e (edges g2) -> exists k, weight e = IZR k) /\
  asks_weights g1 c tri_events /\ asks_weights g2 c tri_events /\ Forall2 (same_events (fun v => v) g1) tri_events tri_events.
Proof.
  cbv zeta. pose proof tri_graph as (E & B & M & _). pose proof few_graph as (E' & B' & M' & _). split; [exact few_all|]. split; [exact tri_all|].
  split; [split; [rewrite E, E'; exact tri_incl|rewrite B, B'; reflexivity]|]. split; [rewrite E; intros e He; exact (proj2 (tri_pos _ (incl_refl _) e He))|].
  split; [split; [|reflexivity]; cbn [accepted_batch tri_shots]; unfold num_detectors; rewrite B', M'; cbn; lia|]. split; [split; [|reflexivity]; cbn [accepted_batch tri_shots]; unfold num_detectors; rewrite B, M; cbn; lia|].
  unfold tri_events. cbn [map]. repeat constructor; auto.
Qed.
