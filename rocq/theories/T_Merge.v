(** C28, C29 (and the real-number hypotheses of C30, C40): independent merging.
    Doubles are modelled by real numbers. *)
From Coq Require Import Reals Lra List Permutation.
From Verif Require Import M_UserGraph S_UserGraph S_GraphMap M_Merge P_Merge S_Merge P_Merge2 P_UserGraph.
Import ListNotations.
Local Open Scope R_scope.

(** C28: the merged weight of two mechanisms is the log-likelihood ratio of the XOR of them, and the merged
    probability is that of the XOR. *)
Theorem C28_merged_weight_is_llr_of_xor :
  forall p q, 0 < p < 1 -> 0 < q < 1 ->
  merge_weights (log_likelihood_ratio p) (log_likelihood_ratio q) = log_likelihood_ratio (exactly_one p q) /\
  bernoulli_xor p q = exactly_one p q.
Proof. exact merge_weights_llr. Qed.
Print Assumptions C28_merged_weight_is_llr_of_xor.

Example C28_ex : 0 < 1/10 < 1 /\ 0 < 3/4 < 1 /\ exactly_one (1/10) (3/4) = 7/10.
Proof. unfold exactly_one. repeat split; lra. Qed.

(** C28, whole graph: if every edge is added with the weight of its probability, then after any sequence of
    calls every edge has the weight of its probability. *)
Theorem C28_every_edge_keeps_llr_weight :
  forall n k (ops : list (op RN)) e,
  (forall x, In x ops -> exists u v o p, 0 < p < 1 /\ x = @OpAdd RN u v o (log_likelihood_ratio p) p INDEPENDENT) ->
  In e (edges (run (new_graph RN n k) ops)) ->
  0 < prob e < 1 /\ weight e = log_likelihood_ratio (prob e).
Proof. exact graph_llr. Qed.
Print Assumptions C28_every_edge_keeps_llr_weight.

Definition mech (u v : nat) (p : R) : op RN := @OpAdd RN u (Some v) [u] (log_likelihood_ratio p) p INDEPENDENT.

Example C28_ex2 : let ops := [mech 0 1 (1/2); mech 1 0 (3/4); mech 1 2 (1/3)] in
  (forall x, In x ops -> exists u v o p, 0 < p < 1 /\ x = @OpAdd RN u v o (log_likelihood_ratio p) p INDEPENDENT) /\
  length ops = 3%nat.
Proof.
  split; [|reflexivity]. intros x [<-|[<-|[<-|[]]]]; unfold mech; repeat eexists; lra.
Qed.

(** C29: any order of the same mechanisms gives the same probability (that of an odd number of them
    happening) and the same weight. *)
Theorem C29_order_of_mechanisms :
  forall ps qs p q, Permutation (p :: ps) (q :: qs) ->
  merge_probs p ps = merge_probs q qs /\ merge_probs p ps = odd_probability (p :: ps) /\
  (forall w v ws vs, Permutation (w :: ws) (v :: vs) -> merge_weight_list w ws = merge_weight_list v vs).
Proof. exact list_order. Qed.
Print Assumptions C29_order_of_mechanisms.

(** C29, range: probabilities stay in [0,1]; at most 1/2 stays at most 1/2, with non-negative weight. *)
Theorem C29_range :
  forall ps p,
  ((forall q, In q (p :: ps) -> 0 <= q <= 1) -> 0 <= merge_probs p ps <= 1) /\
  ((forall q, In q (p :: ps) -> 0 < q <= 1/2) ->
    0 < merge_probs p ps <= 1/2 /\ 0 <= merge_weight_list (log_likelihood_ratio p) (map log_likelihood_ratio ps)).
Proof. exact list_range. Qed.
Print Assumptions C29_range.

Example C29_ex : merge_probs (1/4) [1/2; 1/10] = 1/2 /\ merge_probs (1/10) [1/4; 1/10] = 34/100 /\
  merge_probs (1/4) [1/10; 1/10] = 34/100.
Proof. unfold merge_probs, bernoulli_xor. cbn [fold_left]. repeat split; lra. Qed.

(** C29, whole graph: permuting the calls changes no edge's weight or probability (any weights and
    probabilities, valid or not). *)
Theorem C29_order_of_calls :
  forall n k n' k' (ops ops' : list (op RN)),
  (forall x, In x ops -> exists u v o w p, x = @OpAdd RN u v o w p INDEPENDENT) ->
  Permutation ops ops' ->
  forall x y, weight_and_probability (get_edge_data (run (new_graph RN n k) ops) x y) = weight_and_probability (get_edge_data (run (new_graph RN n' k') ops') x y).
Proof. exact graph_order_independent. Qed.
Print Assumptions C29_order_of_calls.

Example C29_ex2 : Permutation [mech 0 1 (1/2); mech 1 0 (3/4); mech 1 2 (1/3)] [mech 1 2 (1/3); mech 1 0 (3/4); mech 0 1 (1/2)].
Proof. apply perm_trans with [mech 1 0 (3/4); mech 0 1 (1/2); mech 1 2 (1/3)]; [apply perm_swap|].
  apply perm_trans with [mech 1 0 (3/4); mech 1 2 (1/3); mech 0 1 (1/2)]; [apply perm_skip, perm_swap|apply perm_swap].
Qed.

(** C40 over the reals: merging keeps weights in range (the hypothesis of C40_stored_weights_in_range). *)
Theorem C40_merge_keeps_range :
  forall a b, Rabs a <= 16777215 -> Rabs b <= 16777215 -> Rabs (merge_weights a b) <= Rmin (Rabs a) (Rabs b).
Proof. exact merge_abs_le_min. Qed.
Print Assumptions C40_merge_keeps_range.

Example C40_ex_range : Rabs (-16777215) <= 16777215 /\ Rabs 5 <= 16777215.
Proof. rewrite Rabs_left, Rabs_right by lra. lra. Qed.
