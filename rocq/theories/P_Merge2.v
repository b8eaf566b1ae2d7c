(** Order independence of independent merging on the whole graph. *)
From Coq Require Import Reals Lra List Permutation Bool Arith Psatz.
From Verif Require Import M_UserGraph S_UserGraph P_UserGraph S_GraphMap P_GraphMap M_Merge P_Merge S_Merge.
Import ListNotations.
Local Open Scope R_scope.

(** merged probability as the code computes it, valid or not *)
Definition fp (p q : R) : R := if p_valid RN q && p_valid RN p then bernoulli_xor p q else -1.

Lemma fp_comm : forall a b, fp a b = fp b a.
Proof. intros. unfold fp. rewrite andb_comm. rewrite xor_comm. reflexivity. Qed.

Lemma m1_invalid : p_valid RN (-1) = false.
Proof. destruct (p_valid RN (-1)) eqn:E; [|reflexivity]. apply RN_valid_range in E. lra. Qed.

Lemma fp_assoc : forall a b c, fp a (fp b c) = fp (fp a b) c.
Proof.
  intros. unfold fp.
  destruct (p_valid RN a) eqn:Ea, (p_valid RN b) eqn:Eb, (p_valid RN c) eqn:Ec; cbn [andb];
    rewrite ?m1_invalid, ?Ea, ?Ec; cbn [andb]; try reflexivity;
    change bernoulli_xor with (p_xor RN); rewrite ?(RN_xor_valid b c Eb Ec), ?(RN_xor_valid a b Ea Eb); cbn [andb];
    try reflexivity; try (apply xor_assoc).
Qed.

Definition on_pair (x : nat) (y : option nat) (c : call RN) : bool := same_pair (c_u c) (c_v c) x y.

Lemma effects_independent : forall x y cs a, (forall c, In c cs -> c_s c = INDEPENDENT) ->
  effects (N := RN) x y (Some a) cs =
    Some (fst (fst a), merge_weight_list (snd (fst a)) (map (@c_w RN) (filter (on_pair x y) cs)),
          fold_left (fun q p => fp p q) (map (@c_p RN) (filter (on_pair x y) cs)) (snd a)).
Proof.
  intros x y. induction cs as [|c cs IH]; intros [[o w] p] H; [reflexivity|].
  assert (Hc : c_s c = INDEPENDENT) by (apply H; left; reflexivity).
  assert (Ht : forall c', In c' cs -> c_s c' = INDEPENDENT) by (intros; apply H; right; assumption).
  change (effects x y (Some (o, w, p)) (c :: cs)) with (effects x y (effect x y (Some (o, w, p)) c) cs).
  unfold effect. cbn [filter]. change (same_pair (c_u c) (c_v c) x y) with (on_pair x y c).
  destruct (on_pair x y c); [|rewrite IH by exact Ht; reflexivity].
  rewrite Hc. cbn [merged]. rewrite IH by exact Ht. reflexivity.
Qed.

Lemma effects_independent_none : forall x y cs, (forall c, In c cs -> c_s c = INDEPENDENT) ->
  effects (N := RN) x y None cs =
    match filter (on_pair x y) cs with
    | [] => None
    | c :: cs' => Some (c_obs c, merge_weight_list (c_w c) (map (@c_w RN) cs'), fold_left (fun q p => fp p q) (map (@c_p RN) cs') (c_p c))
    end.
Proof.
  intros x y. induction cs as [|c cs IH]; intros H; [reflexivity|].
  assert (Ht : forall c', In c' cs -> c_s c' = INDEPENDENT) by (intros; apply H; right; assumption).
  change (effects x y None (c :: cs)) with (effects x y (effect x y None c) cs).
  unfold effect. cbn [filter]. change (same_pair (c_u c) (c_v c) x y) with (on_pair x y c).
  destruct (on_pair x y c).
  - rewrite effects_independent by exact Ht. reflexivity.
  - apply IH. exact Ht.
Qed.

Lemma filter_perm : forall {A} (f : A -> bool) l l', Permutation l l' -> Permutation (filter f l) (filter f l').
Proof.
  intros A f l l' H. induction H; cbn [filter].
  - constructor.
  - destruct (f x); [constructor|]; assumption.
  - destruct (f x), (f y); try reflexivity. apply perm_swap.
  - etransitivity; eauto.
Qed.

Lemma effects_perm : forall x y cs cs', (forall c, In c cs -> c_s c = INDEPENDENT) -> Permutation cs cs' ->
  weight_and_probability (effects x y None cs) = weight_and_probability (effects x y None cs').
Proof.
  intros x y cs cs' H HP.
  assert (H' : forall c, In c cs' -> c_s c = INDEPENDENT).
  { intros c Hc. apply H. eapply Permutation_in; [symmetry; exact HP|exact Hc]. }
  rewrite !effects_independent_none by assumption.
  pose proof (filter_perm (on_pair x y) _ _ HP) as HF.
  destruct (filter (on_pair x y) cs) as [|c l], (filter (on_pair x y) cs') as [|c' l'].
  - reflexivity.
  - apply Permutation_nil in HF. discriminate.
  - symmetry in HF. apply Permutation_nil in HF. discriminate.
  - cbn [weight_and_probability]. f_equal. f_equal.
    + apply merge_weights_order. apply (Permutation_map (@c_w RN)) in HF. exact HF.
    + apply (fold_comm_assoc fp fp_comm fp_assoc). apply (Permutation_map (@c_p RN)) in HF. exact HF.
Qed.

Lemma op_calls_perm : forall (ops ops' : list (op RN)), Permutation ops ops' -> Permutation (op_calls ops) (op_calls ops').
Proof. intros. unfold op_calls. apply Permutation_flat_map. assumption. Qed.

Lemma graph_order_independent : forall n k n' k' (ops ops' : list (op RN)),
  (forall x, In x ops -> exists u v o w p, x = @OpAdd RN u v o w p INDEPENDENT) ->
  Permutation ops ops' ->
  forall x y, weight_and_probability (get_edge_data (run (new_graph RN n k) ops) x y) = weight_and_probability (get_edge_data (run (new_graph RN n' k') ops') x y).
Proof.
  intros n k n' k' ops ops' H HP x y. rewrite !graph_is_map. apply effects_perm; [|apply op_calls_perm; exact HP].
  intros c Hc. unfold op_calls in Hc. apply in_flat_map in Hc. destruct Hc as (o & Ho & Hc).
  destruct (H o Ho) as (u & v & ob & w & p & ->). destruct (w_exceeds RN w); [destruct Hc|].
  destruct Hc as [<-|[]]. reflexivity.
Qed.

(** fold = odd probability *)
Lemma exactly_one_xor : forall p q, exactly_one p q = bernoulli_xor p q.
Proof. intros. unfold exactly_one, bernoulli_xor. ring. Qed.

Lemma merge_probs_odd : forall ps p, merge_probs p ps = odd_probability (p :: ps).
Proof.
  unfold merge_probs. induction ps as [|q ps IH]; intros p; cbn [fold_left odd_probability].
  - rewrite exactly_one_xor. unfold bernoulli_xor. ring.
  - rewrite IH. cbn [odd_probability]. rewrite !exactly_one_xor, xor_assoc. f_equal. apply xor_comm.
Qed.

Lemma fold_fp : forall ps p, (forall q, In q (p :: ps) -> 0 <= q <= 1) -> fold_left (fun q p => fp p q) ps p = merge_probs p ps.
Proof.
  unfold merge_probs. induction ps as [|x ps IH]; intros p H; cbn [fold_left]; [reflexivity|].
  assert (Hp : p_valid RN p = true) by (apply RN_valid_range, H; left; reflexivity).
  assert (Hx : p_valid RN x = true) by (apply RN_valid_range, H; right; left; reflexivity).
  unfold fp at 2. rewrite Hp, Hx. cbn [andb]. apply IH.
  intros q [<-|Hq]; [|apply H; right; right; exact Hq].
  apply RN_valid_range. exact (RN_xor_valid x p Hx Hp).
Qed.

(** statement-level lemmas *)
Lemma merge_weights_llr : forall p q, 0 < p < 1 -> 0 < q < 1 ->
  merge_weights (log_likelihood_ratio p) (log_likelihood_ratio q) = log_likelihood_ratio (exactly_one p q) /\
  bernoulli_xor p q = exactly_one p q.
Proof. intros. rewrite exactly_one_xor. split; [|reflexivity]. apply merge_is_llr_of_xor; assumption. Qed.

Lemma graph_llr : forall n k (ops : list (op RN)) e,
  (forall x, In x ops -> exists u v o p, 0 < p < 1 /\ x = @OpAdd RN u v o (log_likelihood_ratio p) p INDEPENDENT) ->
  In e (edges (run (new_graph RN n k) ops)) ->
  0 < prob e < 1 /\ weight e = log_likelihood_ratio (prob e).
Proof.
  intros n k ops e H He.
  pose proof (run_inv ops (new_graph RN n k) (new_inv n k)) as HI.
  pose proof (edge_data_exists _ e HI He) as HD. rewrite graph_is_map in HD.
  rewrite effects_independent_none in HD.
  2: { intros c Hc. unfold op_calls in Hc. apply in_flat_map in Hc. destruct Hc as (o & Ho & Hc).
       destruct (H o Ho) as (u & v & ob & p & _ & ->). destruct (w_exceeds RN _); [destruct Hc|].
       destruct Hc as [<-|[]]. reflexivity. }
  assert (HC : forall c, In c (filter (on_pair (node1 e) (node2 e)) (op_calls ops)) -> 0 < c_p c < 1 /\ c_w c = to_weight (c_p c)).
  { intros c Hc. apply filter_In in Hc. destruct Hc as [Hc _].
    unfold op_calls in Hc. apply in_flat_map in Hc. destruct Hc as (o & Ho & Hc).
    destruct (H o Ho) as (u & v & ob & p & Hp & ->). destruct (w_exceeds RN _); [destruct Hc|].
    destruct Hc as [<-|[]]. split; [exact Hp|reflexivity]. }
  destruct (filter (on_pair (node1 e) (node2 e)) (op_calls ops)) as [|c cs]; [discriminate|].
  unfold attributes_of in HD. injection HD as _ Hw Hp.
  assert (Em : map (@c_w RN) cs = map to_weight (map (@c_p RN) cs)).
  { rewrite map_map. apply map_ext_in. intros c' Hc'. apply HC. right. exact Hc'. }
  assert (HR : forall q, In q (c_p c :: map (@c_p RN) cs) -> 0 < q < 1).
  { intros q [<-|Hq]; [apply HC; left; reflexivity|]. apply in_map_iff in Hq. destruct Hq as (c' & <- & Hc'). apply HC. right. exact Hc'. }
  cbn [weight prob] in Hw, Hp. match type of Hw with ?A = _ => change A with (merge_weight_list (c_w c) (map (@c_w RN) cs)) in Hw end.
  rewrite Em in Hw. rewrite (proj2 (HC c (or_introl eq_refl))) in Hw.
  rewrite fold_fp in Hp by (intros q Hq; specialize (HR q Hq); lra).
  destruct (merge_list_is_llr (map (@c_p RN) cs) (c_p c) HR) as [HL HRg].
  rewrite HL in Hw. rewrite <- Hp, <- Hw. split; [exact HRg|reflexivity].
Qed.

Lemma list_order : forall ps qs p q, Permutation (p :: ps) (q :: qs) ->
  merge_probs p ps = merge_probs q qs /\ merge_probs p ps = odd_probability (p :: ps) /\
  (forall w v ws vs, Permutation (w :: ws) (v :: vs) -> merge_weight_list w ws = merge_weight_list v vs).
Proof.
  intros. split; [apply merge_probs_order; assumption|]. split; [apply merge_probs_odd|]. intros. apply merge_weights_order. assumption.
Qed.

Lemma list_range : forall ps p,
  ((forall q, In q (p :: ps) -> 0 <= q <= 1) -> 0 <= merge_probs p ps <= 1) /\
  ((forall q, In q (p :: ps) -> 0 < q <= 1/2) -> 0 < merge_probs p ps <= 1/2 /\ 0 <= merge_weight_list (log_likelihood_ratio p) (map log_likelihood_ratio ps)).
Proof.
  intros. split; [apply merge_probs_range|]. intros H. split; [apply merge_probs_pos; exact H|apply merge_nonneg; exact H].
Qed.

Lemma merge_abs_le_min : forall a b, Rabs a <= 16777215 -> Rabs b <= 16777215 -> Rabs (merge_weights a b) <= Rmin (Rabs a) (Rabs b).
Proof.
  intros a b _ _. apply Rmin_glb; [apply merge_abs_le|]. rewrite merge_comm. apply merge_abs_le.
Qed.
