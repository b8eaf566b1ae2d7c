(** C69: asked for the matched detection events of a graph with negative weights, the library raises an exception, and goes on.

    decode_to_matched_dets_array and decode_to_matched_dets_dict do not support negative weights.  They raise an exception if the weight of some edge is negative by more than
    half the distance between two weights that can be told apart (by anything, if all weights are integers).  They answer as ever if the negative weights are so small beside
    another that they are taken for zero.  Either way the object is as good as before: all later calls are answered as they should be. *)
From Coq Require Import Reals ZArith List Bool Arith Lia Lra.
From Verif Require Import M_Base M_Bits S_Bits M_Core M_CoreHeap M_Merge M_Matching S_Matching S_Negative P_Negative M_UserGraph S_UserGraph P_Pipeline S_Pipeline.
From Verif Require T_Pipeline.
Import ListNotations.
Local Open Scope nat_scope.

Theorem C69_session : forall n k cs, always fair_signed (new_graph RN n k) cs ->
  exists K m' rs, (forall fuel, K <= fuel -> mrun fuel cyclic_ints (new_matching (new_graph RN n k)) cs = Ok (m', rs)) /\ each right_signed (new_graph RN n k) cs rs.
Proof. exact session_signed. Qed.
Print Assumptions C69_session.
(** That every negative weight makes it raise an exception is false. *)
Theorem C69_every_negative_refuted : exists n k cs z e K m' rs out, let g := fold_left after cs (new_graph RN n k) in
  usable g /\ In e (edges g) /\ (weight e < 0)%R /\
  (forall fuel, K <= fuel -> mrun fuel cyclic_ints (new_matching (new_graph RN n k)) (cs ++ [AskPairs z]) = Ok (m', rs ++ [PairList out])).
Proof. exact tiny_kept. Qed.
Print Assumptions C69_every_negative_refuted.

(** ** Cases that meet the hypotheses *)
(** A graph with a negative weight is asked, the weight is replaced, and the graph is asked again. *)
Definition mended_e (w : R) : uedge RN := @mkE RN 0 None [0] w (-1)%R.
Definition mended_calls : list mcall :=
  [Modify (@OpAdd RN 0 None [0] (-2)%R (-1)%R DISALLOW); AskPairs (Syn1 [1]%Z); Modify (@OpAdd RN 0 None [0] 1%R (-1)%R REPLACE); AskPairs (Syn1 [1]%Z)].
Example C69_session_example : always fair_signed (new_graph RN 0 0) mended_calls /\
  (let g := fold_left after (firstn 1 mended_calls) (new_graph RN 0 0) in accepted g (Syn1 [1]%Z) /\ negative_weights g) /\
  (let g := fold_left after (firstn 3 mended_calls) (new_graph RN 0 0) in accepted g (Syn1 [1]%Z) /\ small_negatives g /\ solvable g (event_at (Syn1 [1]%Z))).
Proof.
  unfold mended_calls. cbn [always fair_signed fair firstn fold_left]. 
  assert (P : let g := after (new_graph RN 0 0) (Modify (@OpAdd RN 0 None [0] (-2)%R (-1)%R DISALLOW)) in edges g = [mended_e (-2)] /\ bnodes g = [] /\ num_nodes g = 1 /\ nobs g = 1).
  { cbn [after apply_op]. unfold py_add. rewrite T_Pipeline.fits by lra. repeat split; reflexivity. }
  assert (Q : let g := after (after (after (new_graph RN 0 0) (Modify (@OpAdd RN 0 None [0] (-2)%R (-1)%R DISALLOW))) (AskPairs (Syn1 [1]%Z))) (Modify (@OpAdd RN 0 None [0] 1%R (-1)%R REPLACE)) in edges g = [mended_e 1] /\ bnodes g = [] /\ num_nodes g = 1 /\ nobs g = 1).
  { cbn [after apply_op]. unfold py_add. rewrite (T_Pipeline.fits (-2)), (T_Pipeline.fits 1) by lra. repeat split; reflexivity. }
  set (g2 := after (after (after _ _) _) _) in *. set (g1 := after _ _) in *. clearbody g1 g2. cbv zeta in P, Q. destruct P as (P1 & P2 & P3 & P4), Q as (Q1 & Q2 & Q3 & Q4).
  assert (U : forall (g : ugraph RN) w, edges g = [mended_e w] -> bnodes g = [] -> nobs g = 1 -> (1 <= Rabs w)%R -> usable g).
  { intros g w E1 E2 E4 L. split; [|split; [|split]].
    - intros e o. rewrite E1, E4. intros [<-|[]]. cbn. lia.
    - apply (scalable_some g (mended_e w)); [rewrite E1; now left|]. cbn. lra.
    - intros e _. rewrite E2. intros [].
    - intros e f u. rewrite E1. intros [<-|[]] [<-|[]] N. congruence. }
  assert (A : forall g : ugraph RN, bnodes g = [] -> num_nodes g = 1 -> accepted g (Syn1 [1]%Z)) by (intros g E2 E3; cbn [accepted length]; unfold num_detectors; rewrite E2, E3; cbn; lia).
  assert (N : negative_weights g1) by (exists (mended_e (-2)); split; [rewrite P1; now left|]; left; split; [intros e; rewrite P1; intros [<-|[]]; now exists (-2)%Z|cbn; lra]).
  assert (S : small_negatives g2) by (intros e; rewrite Q1; intros [<-|[]]; exists (mended_e 1); split; [now left|]; cbn; rewrite Rabs_right; lra).
  assert (V : forall v, In v [0] <-> event_at (Syn1 [1]%Z) v) by (intros [|[|v]]; cbn; split; intros H; try lia; auto; congruence).
  assert (CO : corrects g2 [mended_e 1] [0]) by (split; [repeat constructor; intros []|]; split; [rewrite Q1; apply incl_refl|]; intros v _; destruct v as [|v]; cbn; split; intros H; auto; try discriminate; lia).
  split; [|split; [split; [now apply A|exact N]|split; [now apply A|split; [exact S|exists [0], [mended_e 1]; auto]]]].
  split; [exact I|]. split; [intros _; split; [apply (U g1 (-2)%R P1 P2 P4); rewrite Rabs_left; lra|now left]|]. split; [exact I|]. split; [|exact I].
  intros _. split; [apply (U g2 1%R Q1 Q2 Q4); rewrite Rabs_right; lra|]. right. split; [exact S|]. left. exists [0], [mended_e 1]. split; [exact V|]. split; [exact CO|].
  left. exists []. split; [|left; cbn; lia]. intros e. rewrite Q1. intros [<-|[]]. cbn. lra.
Qed.
