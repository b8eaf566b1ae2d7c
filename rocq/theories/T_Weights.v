(** C66: what the reported weights depend on.

    Two Matching objects are made and used, each in its own way.  If in the end their graphs are the same but for the numbers of the nodes
    and the order and orientation of the edges, and the same events are decoded with both, alone or as shots of a batch, packed or not, then
    both report exactly the same weights, to the last bit, or both raise an exception.  So the weights depend on nothing else: not on the
    order in which edges were added or events given, not on earlier calls, and not on which of several lightest corrections is found.  If
    all corrections that are as light as any flip the same observables, the predictions are the same too. *)
From Coq Require Import Reals ZArith NArith List Bool Arith Lia Lra Permutation.
From Verif Require Import M_Base M_Core M_CoreHeap M_Build M_Bits S_Bits M_Discretise M_Merge M_Pipeline M_PipelineHeap M_UserGraph S_UserGraph S_Pipeline S_PipelineHeap M_Matching S_Matching
  P_Pipeline P_Pipeline3 P_PipelineHeap P_Matched P_Matching S_Weights P_Weights T_Pipeline T_Matching.
Import ListNotations.
Local Open Scope nat_scope.

Theorem C66_weights : forall n1 k1 cs1 c1 Ps1 n2 k2 cs2 c2 Ps2 f,
  let g1 := graph_after (new_graph RN n1 k1) cs1 in let g2 := graph_after (new_graph RN n2 k2) cs2 in
  all_fair (new_graph RN n1 k1) (cs1 ++ [c1]) -> all_fair (new_graph RN n2 k2) (cs2 ++ [c2]) ->
  numbering f -> same_up_to (renamed f) f g1 g2 -> asks_weights g1 c1 Ps1 -> asks_weights g2 c2 Ps2 -> Forall2 (same_events f g1) Ps1 Ps2 ->
  exists K m1 rs1 r1 m2 rs2 r2,
    (forall fuel, K <= fuel -> mrun fuel cyclic_ints (new_matching (new_graph RN n1 k1)) (cs1 ++ [c1]) = Ok (m1, rs1 ++ [r1])) /\
    (forall fuel, K <= fuel -> mrun fuel cyclic_ints (new_matching (new_graph RN n2 k2)) (cs2 ++ [c2]) = Ok (m2, rs2 ++ [r2])) /\
    weights_told r1 = weights_told r2.
Proof. exact sessions_weights. Qed.
Print Assumptions C66_weights.

Theorem C66_predictions : forall n1 k1 cs1 z1 n2 k2 cs2 z2 f,
  let g1 := graph_after (new_graph RN n1 k1) cs1 in let g2 := graph_after (new_graph RN n2 k2) cs2 in
  all_fair (new_graph RN n1 k1) (cs1 ++ [AskDecode z1]) -> all_fair (new_graph RN n2 k2) (cs2 ++ [AskDecode z2]) ->
  numbering f -> same_up_to (renamed_with_ids f) f g1 g2 -> nobs g1 = nobs g2 -> accepted g1 z1 -> accepted g2 z2 -> same_events f g1 (event_at z1) (event_at z2) -> clear_cut g1 (event_at z1) ->
  exists K m1 rs1 r m2 rs2,
    (forall fuel, K <= fuel -> mrun fuel cyclic_ints (new_matching (new_graph RN n1 k1)) (cs1 ++ [AskDecode z1]) = Ok (m1, rs1 ++ [r])) /\
    (forall fuel, K <= fuel -> mrun fuel cyclic_ints (new_matching (new_graph RN n2 k2)) (cs2 ++ [AskDecode z2]) = Ok (m2, rs2 ++ [r])).
Proof. exact sessions_rows. Qed.
Print Assumptions C66_predictions.

(** Edges between different pairs of nodes may be added in any order. *)
Theorem C66_order_of_edges : forall n k ops1 ops2, Permutation ops1 ops2 -> different_edges ops1 ->
  let g1 := run (new_graph RN n k) ops1 in let g2 := run (new_graph RN n k) ops2 in
  same_up_to (renamed_with_ids (fun v => v)) (fun v => v) g1 g2 /\ nobs g1 = nobs g2.
Proof. exact any_order. Qed.
Print Assumptions C66_order_of_edges.

Theorem C66_order_of_edges_weights : forall n k ops1 ops2 c1 c2 Ps,
  Permutation ops1 ops2 -> different_edges ops1 -> let g1 := run (new_graph RN n k) ops1 in let g2 := run (new_graph RN n k) ops2 in
  all_fair (new_graph RN n k) (map Modify ops1 ++ [c1]) -> all_fair (new_graph RN n k) (map Modify ops2 ++ [c2]) -> asks_weights g1 c1 Ps -> asks_weights g2 c2 Ps ->
  exists K m1 rs1 r1 m2 rs2 r2,
    (forall fuel, K <= fuel -> mrun fuel cyclic_ints (new_matching (new_graph RN n k)) (map Modify ops1 ++ [c1]) = Ok (m1, rs1 ++ [r1])) /\
    (forall fuel, K <= fuel -> mrun fuel cyclic_ints (new_matching (new_graph RN n k)) (map Modify ops2 ++ [c2]) = Ok (m2, rs2 ++ [r2])) /\
    weights_told r1 = weights_told r2.
Proof. exact any_order_weights. Qed.
Print Assumptions C66_order_of_edges_weights.

(** ** Cases that meet the hypotheses *)
(** A path of two nodes with an edge to the boundary at both ends.  The second object has the nodes the other way round, the edges in another
    order and orientation, a weight that is corrected after a first decoding, and decodes the same events as the first shot of two. *)
Definition swap01 (v : nat) : nat := match v with 0 => 1 | 1 => 0 | _ => v end.
Definition one_e (i : nat) : uedge RN := match i with 0 => @mkE RN 0 None [0] (3/2)%R (-1)%R | 1 => @mkE RN 0 (Some 1) [1] 2%R (-1)%R | _ => @mkE RN 1 None [] (5/2)%R (-1)%R end.
Definition two_e (i : nat) : uedge RN := match i with 0 => @mkE RN 1 None [0] (3/2)%R (-1)%R | 1 => @mkE RN 0 (Some 1) [1] 2%R (-1)%R | _ => @mkE RN 0 None [] (5/2)%R (-1)%R end.
Definition one_ops : list (op RN) := [@OpAdd RN 0 None [0] (3/2)%R (-1)%R DISALLOW; @OpAdd RN 0 (Some 1) [1] 2%R (-1)%R DISALLOW; @OpAdd RN 1 None [] (5/2)%R (-1)%R DISALLOW].
Definition one_calls : list mcall := map Modify one_ops.
Definition two_calls : list mcall :=
  [Modify (@OpAdd RN 0 None [] (5/2)%R (-1)%R DISALLOW); Modify (@OpAdd RN 1 None [0] (3/2)%R (-1)%R DISALLOW); Modify (@OpAdd RN 0 (Some 1) [1] 7%R (-1)%R DISALLOW);
   AskDecode (Syn1 [1; 1]%Z); Modify (@OpAdd RN 1 (Some 0) [1] 2%R (-1)%R REPLACE)].
Definition path_like (g : ugraph RN) (E : list (uedge RN)) : Prop := edges g = E /\ bnodes g = [] /\ num_nodes g = 2 /\ nobs g = 2.
Lemma swap_numbering : numbering swap01.
Proof. exists swap01. split; intros [|[|v]]; reflexivity. Qed.
Lemma one_graph : path_like (graph_after (new_graph RN 0 0) one_calls) [one_e 0; one_e 1; one_e 2].
Proof. unfold graph_after, one_calls, one_ops. cbn [map fold_left after apply_op]. unfold py_add. rewrite !T_Pipeline.fits by lra. repeat split; reflexivity. Qed.
Lemma two_graph : path_like (graph_after (new_graph RN 0 0) two_calls) [two_e 2; two_e 0; two_e 1].
Proof. unfold graph_after, two_calls. cbn [map fold_left after apply_op]. unfold py_add. rewrite !T_Pipeline.fits by lra. repeat split; reflexivity. Qed.
Lemma before_graph : path_like (graph_after (new_graph RN 0 0) (firstn 3 two_calls)) [two_e 2; two_e 0; @mkE RN 0 (Some 1) [1] 7%R (-1)%R].
Proof. unfold graph_after, two_calls. cbn [firstn map fold_left after apply_op]. unfold py_add. rewrite !T_Pipeline.fits by lra. repeat split; reflexivity. Qed.
(** Such a graph can be handed to the decoder, and any events be asked for that three edges explain. *)
Lemma path_fair : forall (g : ugraph RN) a b c, path_like g [a; b; c] -> (0 < weight a <= 10)%R -> (1 <= weight b <= 10)%R -> (0 < weight c <= 10)%R -> (forall e o, In e [a; b; c] -> In o (obs e) -> o < 2) -> usable g /\ forall e, In e (edges g) -> (0 <= weight e)%R.
Proof.
  intros g a b c (E & B & _ & K) Ha Hb Hc HO. assert (POS : forall e, In e (edges g) -> (0 <= weight e)%R) by (rewrite E; intros e [<-|[<-|[<-|[]]]]; lra). split; [|exact POS].
  split; [intros e o; rewrite E, K; apply HO|]. split; [|exact (harmless_nonneg g POS)]. apply (scalable_some g b); [rewrite E; cbn; tauto|]. rewrite Rabs_right by lra. lra.
Qed.
Lemma path_asks : forall (g : ugraph RN) evs F (P : nat -> Prop), (forall e, In e (edges g) -> (0 <= weight e)%R) -> (forall v, In v evs <-> P v) -> corrects g F evs -> length F <= 64 -> askable g P.
Proof. intros g evs F P POS HE HC HL. left. exists evs, F. split; [exact HE|]. split; [exact HC|]. left. exists []. split; [|left; rewrite app_nil_r; exact HL]. intros e He Hw. pose proof (POS e He). lra. Qed.
Lemma one_usable : usable (graph_after (new_graph RN 0 0) one_calls) /\ forall e, In e (edges (graph_after (new_graph RN 0 0) one_calls)) -> (0 <= weight e)%R.
Proof. apply (path_fair _ _ _ _ one_graph); cbn; try lra. intros e o [<-|[<-|[<-|[]]]]; cbn; lia. Qed.
Lemma two_usable : usable (graph_after (new_graph RN 0 0) two_calls) /\ forall e, In e (edges (graph_after (new_graph RN 0 0) two_calls)) -> (0 <= weight e)%R.
Proof. apply (path_fair _ _ _ _ two_graph); cbn; try lra. intros e o [<-|[<-|[<-|[]]]]; cbn; lia. Qed.
Lemma before_usable : usable (graph_after (new_graph RN 0 0) (firstn 3 two_calls)) /\ forall e, In e (edges (graph_after (new_graph RN 0 0) (firstn 3 two_calls))) -> (0 <= weight e)%R.
Proof. apply (path_fair _ _ _ _ before_graph); cbn; try lra. intros e o [<-|[<-|[<-|[]]]]; cbn; lia. Qed.
Lemma path_corrects : forall (g : ugraph RN) E F evs, path_like g E -> NoDup F -> incl F E -> (forall v, Nat.odd (total_degree v F) = true <-> In v evs) -> corrects g F evs.
Proof. intros g E F evs (PE & _) ND HI HD. split; [exact ND|]. split; [rewrite PE; exact HI|]. intros v _. apply HD. Qed.
Lemma one_corrects : corrects (graph_after (new_graph RN 0 0) one_calls) [one_e 2] [1].
Proof. apply (path_corrects _ _ _ _ one_graph); [repeat constructor; intros []|intros e [<-|[]]; cbn; tauto|]. intros [|[|v]]; cbn; split; intros H; try discriminate; try lia; auto. Qed.
Lemma two_corrects : corrects (graph_after (new_graph RN 0 0) two_calls) [two_e 2] [0].
Proof. apply (path_corrects _ _ _ _ two_graph); [repeat constructor; intros []|intros e [<-|[]]; cbn; tauto|]. intros [|[|v]]; cbn; split; intros H; try discriminate; try lia; auto. Qed.
Lemma two_nothing : corrects (graph_after (new_graph RN 0 0) two_calls) [] [].
Proof. apply (path_corrects _ _ _ _ two_graph); [constructor|intros e []|]. intros v; cbn; split; [discriminate|intros []]. Qed.
Lemma before_corrects : corrects (graph_after (new_graph RN 0 0) (firstn 3 two_calls)) [two_e 2; two_e 0] [0; 1].
Proof. apply (path_corrects _ _ _ _ before_graph); [repeat constructor; cbn; intuition discriminate|intros e [<-|[<-|[]]]; cbn; tauto|]. intros [|[|v]]; cbn; split; intros H; try discriminate; try lia; auto. Qed.
Lemma one_fair : all_fair (new_graph RN 0 0) (one_calls ++ [AskDecode (Syn1 [0; 1]%Z)]).
Proof.
  unfold one_calls, one_ops. cbn [map app all_fair fair after]. do 3 (split; [exact I|]). split; [|exact I]. intros _. split; [exact (proj1 one_usable)|].
  apply (path_asks _ [1] [one_e 2] _ (proj2 one_usable)); [|exact one_corrects|cbn; lia]. intros [|[|[|v]]]; cbn; split; intros H; auto; try lia.
Qed.
Lemma two_before : all_fair (new_graph RN 0 0) two_calls.
Proof.
  unfold two_calls. cbn [map app all_fair fair after]. do 3 (split; [exact I|]). split; [|auto]. intros _. split; [exact (proj1 before_usable)|].
  apply (path_asks _ [0; 1] [two_e 2; two_e 0] _ (proj2 before_usable)); [|exact before_corrects|cbn; lia]. intros [|[|[|v]]]; cbn; split; intros H; auto; try lia.
Qed.
Lemma fair_app : forall cs g c, all_fair g cs -> fair (graph_after g cs) c -> all_fair g (cs ++ [c]).
Proof. induction cs as [|a cs IH]; intros g c H1 H2; [split; [exact H2|exact I]|]. destruct H1 as [H0 H1]. split; [exact H0|]. apply IH; assumption. Qed.
Lemma one_two : same_up_to (renamed_with_ids swap01) swap01 (graph_after (new_graph RN 0 0) one_calls) (graph_after (new_graph RN 0 0) two_calls).
Proof.
  destruct one_graph as (E1 & B1 & _), two_graph as (E2 & B2 & _). split; [|rewrite B1, B2; intros v; reflexivity]. rewrite E1, E2. exists [two_e 0; two_e 1; two_e 2]. split.
  - eapply perm_trans; [apply perm_skip, perm_swap|]. eapply perm_trans; [apply perm_swap|]. reflexivity.
  - constructor; [|constructor; [|constructor; [|constructor]]]; (split; [|reflexivity]); (split; [reflexivity|]); [left|right; exists 1|left]; repeat split; reflexivity.
Qed.
Lemma packed_one : forall v, packed_bit [1]%Z v = true <-> v = 0.
Proof.
  intros v. unfold packed_bit. do 8 (destruct v as [|v]; [cbn; split; intros H; auto; discriminate|]). split; [|discriminate]. intros H. exfalso.
  assert (1 <= S (S (S (S (S (S (S (S v))))))) / 8) by (apply Nat.div_le_lower_bound; lia). destruct (_ / 8) as [|[|j]]; [lia| |]; cbn in H; rewrite Z.bits_0 in H; discriminate.
Qed.
Lemma packed_zero : forall v, packed_bit [0]%Z v = true <-> False.
Proof. intros v. unfold packed_bit. split; [|intros []]. intros H. destruct (v / 8) as [|[|j]]; cbn in H; rewrite Z.bits_0 in H; discriminate. Qed.
Lemma nth_zeros : forall v, (nth v [0; 0] 0 <> 0)%Z <-> False.
Proof. intros [|[|[|v]]]; cbn; lia. Qed.
Lemma nth_second : forall v, (nth v [0; 1] 0 <> 0)%Z <-> v = 1.
Proof. intros [|[|[|v]]]; cbn; lia. Qed.
Lemma one_nothing : corrects (graph_after (new_graph RN 0 0) one_calls) [] [].
Proof. apply (path_corrects _ _ _ _ one_graph); [constructor|intros e []|]. intros v; cbn; split; [discriminate|intros []]. Qed.
Lemma one_batch_fair : all_fair (new_graph RN 0 0) (one_calls ++ [AskBatch false false (Syn2 2 [[0; 1]; [0; 0]]%Z)]).
Proof.
  apply fair_app; [repeat split|]. intros _. split; [exact (proj1 one_usable)|]. constructor; [|constructor; [|constructor]].
  - apply (path_asks _ [1] [one_e 2] _ (proj2 one_usable)); [|exact one_corrects|cbn; lia]. intros v. cbn [shot_event]. rewrite nth_second. cbn. lia.
  - apply (path_asks _ [] [] _ (proj2 one_usable)); [|exact one_nothing|cbn; lia]. intros v. cbn [shot_event]. rewrite nth_zeros. reflexivity.
Qed.
Lemma two_batch_fair : all_fair (new_graph RN 0 0) (two_calls ++ [AskBatch true true (Syn2 1 [[1]; [0]]%Z)]).
Proof.
  apply fair_app; [exact two_before|]. intros _. split; [exact (proj1 two_usable)|]. constructor; [|constructor; [|constructor]].
  - apply (path_asks _ [0] [two_e 2] _ (proj2 two_usable)); [|exact two_corrects|cbn; lia]. intros v. cbn [shot_event]. rewrite packed_one. cbn. lia.
  - apply (path_asks _ [] [] _ (proj2 two_usable)); [|exact two_nothing|cbn; lia]. intros v. cbn [shot_event]. rewrite packed_zero. reflexivity.
Qed.
Example C66_weights_example : let g1 := graph_after (new_graph RN 0 0) one_calls in let g2 := graph_after (new_graph RN 0 0) two_calls in
  let c1 := AskBatch false false (Syn2 2 [[0; 1]; [0; 0]]%Z) in let c2 := AskBatch true true (Syn2 1 [[1]; [0]]%Z) in
  all_fair (new_graph RN 0 0) (one_calls ++ [c1]) /\ all_fair (new_graph RN 0 0) (two_calls ++ [c2]) /\ numbering swap01 /\ same_up_to (renamed swap01) swap01 g1 g2 /\
  exists Ps1 Ps2, asks_weights g1 c1 Ps1 /\ asks_weights g2 c2 Ps2 /\ Forall2 (same_events swap01 g1) Ps1 Ps2.
Proof.
  cbv zeta. destruct one_graph as (_ & B1 & M1 & _), two_graph as (_ & B2 & M2 & _). split; [exact one_batch_fair|]. split; [exact two_batch_fair|]. split; [exact swap_numbering|].
  split; [destruct one_two as [(L & P & H) B]; split; [|exact B]; exists L; split; [exact P|now apply drop_ids]|].
  exists (map (shot_event false) [[0; 1]; [0; 0]]%Z), (map (shot_event true) [[1]; [0]]%Z).
  split; [split; [|reflexivity]; cbn [accepted_batch]; unfold num_detectors; rewrite B1, M1; cbn; lia|]. split; [split; [|reflexivity]; cbn [accepted_batch]; unfold num_detectors; rewrite B2, M2; cbn; lia|].
  constructor; [|constructor; [|constructor]]; intros v _; cbn [shot_event].
  - rewrite nth_second, packed_one. destruct v as [|[|v]]; cbn; lia.
  - rewrite nth_zeros, packed_zero. reflexivity.
Qed.
(** The lightest correction by far of an event at the second node is its edge to the boundary. *)
Lemma one_clear : forall F, corrects (graph_after (new_graph RN 0 0) one_calls) F [1] -> near_best (graph_after (new_graph RN 0 0) one_calls) F [1] -> F = [one_e 2].
Proof.
  destruct one_graph as (E1 & B1 & _). intros F (ND & IN & HD) NB. rewrite E1 in IN. rewrite B1 in HD.
  assert (LF : length F <= 3) by exact (NoDup_incl_length ND IN).
  assert (W : (total_weight F <= 3)%R).
  { destruct (NB _ one_corrects) as [Q _]. specialize (Q (5/2)%R). assert (X : forall e : uedge RN, In e (edges (graph_after (new_graph RN 0 0) one_calls)) -> (Rabs (weight e) <= 5/2)%R) by (rewrite E1; intros e [<-|[<-|[<-|[]]]]; cbn; rewrite Rabs_right; lra).
    specialize (Q X). change (total_weight [one_e 2]) with (5/2 + 0)%R in Q. cbn [length] in Q. assert (INR (length F + 1) <= 4)%R by (replace 4%R with (INR 4) by (cbn; lra); apply le_INR; lia).
    unfold half_step in Q. change (2 * (2 ^ 24 - 1))%Z with 33554430%Z in Q. change (2 ^ 20)%Z with 1048576%Z in Q. nra. }
  pose proof (HD 0 (fun H => H)) as H0. pose proof (HD 1 (fun H => H)) as H1. clear HD NB.
  destruct F as [|a F]; [exfalso; destruct H1 as [_ H1]; specialize (H1 (or_introl eq_refl)); discriminate|]. pose proof (IN a (or_introl eq_refl)) as Ia. destruct F as [|b F].
  { destruct Ia as [<-|[<-|[<-|[]]]]; [exfalso|exfalso|reflexivity]; cbn in H0, H1; [destruct H1 as [_ H1]; specialize (H1 (or_introl eq_refl)); discriminate|destruct H0 as [H0 _]; specialize (H0 eq_refl); lia]. }
  exfalso. pose proof (IN b (or_intror (or_introl eq_refl))) as Ib. apply NoDup_cons_iff in ND as [Na ND].
  assert (R : (0 <= total_weight F)%R). { assert (Q : forall e, In e F -> (0 <= weight e)%R) by (intros e He; destruct (IN e (or_intror (or_intror He))) as [<-|[<-|[<-|[]]]]; cbn; lra). clear -Q. induction F as [|e F IH]; [cbn; lra|]. change (0 <= weight e + total_weight F)%R. pose proof (Q e (or_introl eq_refl)). specialize (IH (fun x Hx => Q x (or_intror Hx))). lra. }
  change (weight a + (weight b + total_weight F) <= 3)%R in W. destruct Ia as [<-|[<-|[<-|[]]]], Ib as [<-|[<-|[<-|[]]]]; cbn [In] in Na; try tauto; cbn in W; lra.
Qed.
Example C66_predictions_example : let g1 := graph_after (new_graph RN 0 0) one_calls in let g2 := graph_after (new_graph RN 0 0) two_calls in
  let z1 := Syn1 [0; 1]%Z in let z2 := Syn1 [1; 0]%Z in
  all_fair (new_graph RN 0 0) (one_calls ++ [AskDecode z1]) /\ all_fair (new_graph RN 0 0) (two_calls ++ [AskDecode z2]) /\
  numbering swap01 /\ same_up_to (renamed_with_ids swap01) swap01 g1 g2 /\ nobs g1 = nobs g2 /\ accepted g1 z1 /\ accepted g2 z2 /\ same_events swap01 g1 (event_at z1) (event_at z2) /\ clear_cut g1 (event_at z1).
Proof.
  cbv zeta. destruct one_graph as (_ & B1 & M1 & K1), two_graph as (_ & B2 & M2 & K2). split; [exact one_fair|]. split.
  { apply fair_app; [exact two_before|]. intros _. split; [exact (proj1 two_usable)|]. apply (path_asks _ [0] [two_e 2] _ (proj2 two_usable)); [|exact two_corrects|cbn; lia]. intros [|[|[|v]]]; cbn; lia. }
  split; [exact swap_numbering|]. split; [exact one_two|]. split; [congruence|]. split; [cbn [accepted]; unfold num_detectors; rewrite B1, M1; cbn; lia|]. split; [cbn [accepted]; unfold num_detectors; rewrite B2, M2; cbn; lia|].
  split; [intros [|[|[|v]]] _; cbn; lia|]. intros evs F F' HE C1 N1 C2 N2 k.
  assert (X : forall v, In v evs <-> In v [1]) by (intros v; rewrite HE; cbn [event_at]; rewrite nth_second; cbn; lia).
  assert (Y : forall G, corrects (graph_after (new_graph RN 0 0) one_calls) G evs -> near_best (graph_after (new_graph RN 0 0) one_calls) G evs -> G = [one_e 2]).
  { intros G H1 H2. apply one_clear; [exact (corrects_iff _ G evs [1] X H1)|]. intros G' H'. apply H2. apply (corrects_iff _ G' [1] evs); [intros v; symmetry; apply X|exact H']. }
  now rewrite (Y F C1 N1), (Y F' C2 N2).
Qed.
Example C66_order_of_edges_example : Permutation one_ops (rev one_ops) /\ different_edges one_ops /\
  let c := AskDecode (Syn1 [0; 1]%Z) in all_fair (new_graph RN 0 0) (map Modify one_ops ++ [c]) /\ all_fair (new_graph RN 0 0) (map Modify (rev one_ops) ++ [c]) /\
  asks_weights (run (new_graph RN 0 0) one_ops) c [event_at (Syn1 [0; 1]%Z)] /\ asks_weights (run (new_graph RN 0 0) (rev one_ops)) c [event_at (Syn1 [0; 1]%Z)].
Proof.
  assert (G : path_like (graph_after (new_graph RN 0 0) (map Modify (rev one_ops))) [one_e 2; one_e 1; one_e 0]).
  { unfold graph_after, one_ops. cbn [rev app map fold_left after apply_op]. unfold py_add. rewrite !T_Pipeline.fits by lra. repeat split; reflexivity. }
  assert (U : usable (graph_after (new_graph RN 0 0) (map Modify (rev one_ops))) /\ forall e, In e (edges (graph_after (new_graph RN 0 0) (map Modify (rev one_ops)))) -> (0 <= weight e)%R).
  { apply (path_fair _ _ _ _ G); cbn; try lra. intros e o [<-|[<-|[<-|[]]]]; cbn; lia. }
  assert (C : corrects (graph_after (new_graph RN 0 0) (map Modify (rev one_ops))) [one_e 2] [1]).
  { apply (path_corrects _ _ _ _ G); [repeat constructor; intros []|intros e [<-|[]]; cbn; tauto|]. intros [|[|v]]; cbn; split; intros H; try discriminate; try lia; auto. }
  split; [apply Permutation_rev|]. split.
  { split; [repeat constructor; cbn [addition]; apply T_Pipeline.fits; lra|]. repeat constructor; cbn [different_pairs]; intuition discriminate. }
  cbv zeta. split; [exact one_fair|]. split; [|split].
  - apply fair_app; [repeat split|]. intros _. split; [exact (proj1 U)|]. apply (path_asks _ [1] [one_e 2] _ (proj2 U)); [|exact C|cbn; lia]. intros [|[|[|v]]]; cbn; lia.
  - destruct one_graph as (_ & B & M & _). unfold one_calls in B, M. rewrite after_modify in B, M. split; [|reflexivity]. cbn [accepted]. unfold num_detectors. rewrite B, M. cbn. lia.
  - destruct G as (_ & B & M & _). rewrite after_modify in B, M. split; [|reflexivity]. cbn [accepted]. unfold num_detectors. rewrite B, M. cbn. lia.
Qed.
