(** C76, continued: cheaper edges never make a reported weight larger.

    If for every edge of one graph another graph has an edge between the same nodes that weighs no more, and perhaps more edges, and all
    weights are integers, of either sign, then the same events never have a larger weight in the second graph, and raise no exception that they
    do not raise in the first. *)
From Coq Require Import Reals ZArith NArith List Bool Arith Lia Lra Permutation.
From Verif Require Import M_Base M_Core M_CoreHeap M_Build M_Bits S_Bits M_Discretise M_Merge M_Pipeline M_PipelineHeap M_UserGraph S_UserGraph S_Pipeline S_PipelineHeap M_Matching S_Matching
  P_Pipeline P_Pipeline3 P_PipelineHeap P_Matched P_Matching S_Weights P_Weights S_Triangle P_Triangle T_Pipeline T_Matching T_Weights T_Triangle S_Cheaper P_Cheaper.
Import ListNotations.
Local Open Scope nat_scope.

Theorem C76_cheaper_edges : forall n1 k1 cs1 c1 Ps1 n2 k2 cs2 c2 Ps2, let g1 := graph_after (new_graph RN n1 k1) cs1 in let g2 := graph_after (new_graph RN n2 k2) cs2 in
  all_fair (new_graph RN n1 k1) (cs1 ++ [c1]) -> all_fair (new_graph RN n2 k2) (cs2 ++ [c2]) -> no_dearer g1 g2 -> integer_weights g1 -> integer_weights g2 ->
  asks_weights g1 c1 Ps1 -> asks_weights g2 c2 Ps2 -> Forall2 (same_events (fun v => v) g1) Ps1 Ps2 ->
  exists K m1 rs1 r1 m2 rs2 r2,
    (forall fuel, K <= fuel -> mrun fuel cyclic_ints (new_matching (new_graph RN n1 k1)) (cs1 ++ [c1]) = Ok (m1, rs1 ++ [r1])) /\
    (forall fuel, K <= fuel -> mrun fuel cyclic_ints (new_matching (new_graph RN n2 k2)) (cs2 ++ [c2]) = Ok (m2, rs2 ++ [r2])) /\
    forall ws1, weights_told r1 = Some ws1 -> exists ws2, weights_told r2 = Some ws2 /\ Forall2 Rle ws2 ws1.
Proof. exact session_cheaper. Qed.
Print Assumptions C76_cheaper_edges.

(** ** A case that meets the hypotheses *)
(** The graph of C76, with weights 3, 4 and 2; in the other graph the edge between the nodes is added first, the other way round and with weight 1. *)
Definition low_e : uedge RN := @mkE RN 1 (Some 0) [] 1%R (-1)%R.
Definition low_calls : list mcall := Modify (@OpAdd RN 1 (Some 0) [] 1%R (-1)%R DISALLOW) :: few_calls.
Lemma low_graph : path_like (graph_after (new_graph RN 0 0) low_calls) [low_e; tri_e 0; tri_e 1].
Proof. unfold graph_after, low_calls, few_calls. cbn [map app fold_left after apply_op]. unfold py_add. rewrite !T_Pipeline.fits by lra. repeat split; reflexivity. Qed.
Lemma low_weights : forall e, In e [low_e; tri_e 0; tri_e 1] -> (0 <= weight e)%R /\ exists k, weight e = IZR k.
Proof. intros e [<-|[<-|[<-|[]]]]; cbn; (split; [lra|eexists; reflexivity]). Qed.
Example C76_cheaper_edges_example : let g1 := graph_after (new_graph RN 0 0) tri_calls in let g2 := graph_after (new_graph RN 0 0) low_calls in let c := AskBatch false false tri_shots in
  all_fair (new_graph RN 0 0) (tri_calls ++ [c]) /\ all_fair (new_graph RN 0 0) (low_calls ++ [c]) /\ no_dearer g1 g2 /\ ~ no_dearer g2 g1 /\ integer_weights g1 /\ integer_weights g2 /\
  asks_weights g1 c tri_events /\ asks_weights g2 c tri_events /\ Forall2 (same_events (fun v => v) g1) tri_events tri_events.
Proof.
  cbv zeta. pose proof tri_graph as (E & B & M & _). pose proof low_graph as PL. pose proof PL as (E' & B' & M' & O').
  set (g2 := graph_after (new_graph RN 0 0) low_calls) in *. set (g1 := graph_after (new_graph RN 0 0) tri_calls) in *.
  assert (POS : forall e, In e (edges g2) -> (0 <= weight e)%R) by (rewrite E'; intros e He; exact (proj1 (low_weights e He))).
  assert (ASK : forall shot, In shot [[1; 0]; [0; 1]; [1; 1]; [0; 0]]%Z -> askable g2 (shot_event false shot)).
  { intros shot [<-|[<-|[<-|[<-|[]]]]].
    - apply (path_asks g2 [0] [tri_e 0] _ POS); [| |cbn; lia]; [intros [|[|[|v]]]; cbn; lia|]. apply (path_corrects g2 _ _ _ PL); [repeat constructor; intros []|intros e [<-|[]]; cbn; tauto|]. intros [|[|v]]; cbn; split; intros H; try discriminate; try lia; auto.
    - apply (path_asks g2 [1] [tri_e 1] _ POS); [| |cbn; lia]; [intros [|[|[|v]]]; cbn; lia|]. apply (path_corrects g2 _ _ _ PL); [repeat constructor; intros []|intros e [<-|[]]; cbn; tauto|]. intros [|[|v]]; cbn; split; intros H; try discriminate; try lia; auto.
    - apply (path_asks g2 [0; 1] [low_e] _ POS); [| |cbn; lia]; [intros [|[|[|v]]]; cbn; lia|]. apply (path_corrects g2 _ _ _ PL); [repeat constructor; intros []|intros e [<-|[]]; cbn; tauto|]. intros [|[|v]]; cbn; split; intros H; try discriminate; try lia; auto.
    - apply (path_asks g2 [] [] _ POS); [| |cbn; lia]; [intros [|[|[|v]]]; cbn; lia|]. apply (path_corrects g2 _ _ _ PL); [constructor|intros e []|]. intros v; cbn; split; [discriminate|intros []]. }
  split; [exact tri_all|]. split.
  { apply fair_app; [repeat split|]. fold g2. intros _. split; [|apply Forall_forall; exact ASK]. split; [intros e o; rewrite E', O'; intros [<-|[<-|[<-|[]]]]; cbn; lia|]. split; [|exact (harmless_nonneg g2 POS)].
    apply (scalable_some g2 low_e); [rewrite E'; now left|]. cbn. rewrite Rabs_right; lra. }
  split.
  { split; [|rewrite B, B'; reflexivity]. rewrite E, E'. intros e [<-|[<-|[<-|[]]]]; [exists (tri_e 0)|exists (tri_e 1)|exists low_e]; (split; [cbn; tauto|]); (split; [unfold joins; cbn; auto|cbn; lra]). }
  split.
  { intros [H _]. destruct (H low_e) as (e & He & J & L); [rewrite E'; now left|]. rewrite E in He. destruct He as [<-|[<-|[<-|[]]]]; cbn in J, L; try lra. }
  split; [intros e; rewrite E; intros He; exact (proj2 (tri_pos _ (incl_refl _) e He))|]. split; [intros e; rewrite E'; intros He; exact (proj2 (low_weights e He))|].
  split; [split; [|reflexivity]; cbn [accepted_batch tri_shots]; unfold num_detectors; rewrite B, M; cbn; lia|]. split; [split; [|reflexivity]; cbn [accepted_batch tri_shots]; unfold num_detectors; rewrite B', M'; cbn; lia|].
  unfold tri_events. cbn [map]. repeat constructor; auto.
Qed.
