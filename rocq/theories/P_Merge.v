(** Proofs about merging weights and probabilities. *)
From Coq Require Import Reals List Permutation Lra Lia Bool.
From Verif Require Import M_UserGraph M_Merge.
Import ListNotations.
Local Open Scope R_scope.

Lemma ln_div : forall a b, 0 < a -> 0 < b -> ln (a / b) = ln a - ln b.
Proof. intros. unfold Rdiv. rewrite ln_mult by (try assumption; apply Rinv_0_lt_compat; assumption). rewrite ln_Rinv by assumption. lra. Qed.

Lemma ln_one_plus_exp : forall x, ln (1 + exp x) = Rmax x 0 + ln (1 + exp (- Rabs x)).
Proof.
  intros x. destruct (Rle_lt_dec 0 x).
  - rewrite Rmax_left, Rabs_right by lra.
    replace (1 + exp x) with (exp x * (1 + exp (- x))).
    + rewrite ln_mult; [|apply exp_pos|]. { rewrite ln_exp. reflexivity. }
      pose proof (exp_pos (-x)). lra.
    + rewrite Rmult_plus_distr_l, <- exp_plus. replace (x + - x) with 0 by lra. rewrite exp_0. lra.
  - rewrite Rmax_right, Rabs_left by lra. replace (- - x) with x by lra. lra.
Qed.

Lemma ln_exp_plus : forall a b, ln (exp a + exp b) = Rmax a b + ln (1 + exp (- Rabs (a - b))).
Proof.
  intros a b. replace (exp a + exp b) with (exp b * (1 + exp (a - b))).
  - rewrite ln_mult; [|apply exp_pos|pose proof (exp_pos (a - b)); lra].
    rewrite ln_exp, ln_one_plus_exp.
    assert (Rmax a b = b + Rmax (a - b) 0); [|lra].
    destruct (Rle_lt_dec a b).
    + rewrite !Rmax_right by lra. lra.
    + rewrite !Rmax_left by lra. lra.
  - rewrite Rmult_plus_distr_l, <- exp_plus. replace (b + (a - b)) with a by lra. lra.
Qed.

Lemma signed_min_eq : forall a b,
  copysign1 a * copysign1 b * Rmin (Rabs a) (Rabs b) = Rmax (a + b) 0 - Rmax a b.
Proof.
  intros a b. unfold copysign1.
  destruct (Rle_dec 0 a) as [Ha|Ha], (Rle_dec 0 b) as [Hb|Hb].
  - rewrite !Rabs_right by lra. rewrite (Rmax_left (a + b) 0) by lra.
    destruct (Rle_lt_dec a b); [rewrite Rmin_left, Rmax_right by lra|rewrite Rmin_right, Rmax_left by lra]; lra.
  - rewrite (Rabs_right a), (Rabs_left b) by lra. rewrite (Rmax_left a b) by lra.
    destruct (Rle_lt_dec 0 (a + b)).
    + rewrite Rmax_left, Rmin_right by lra. lra.
    + rewrite Rmax_right, Rmin_left by lra. lra.
  - rewrite (Rabs_left a), (Rabs_right b) by lra. rewrite (Rmax_right a b) by lra.
    destruct (Rle_lt_dec 0 (a + b)).
    + rewrite Rmax_left, Rmin_left by lra. lra.
    + rewrite Rmax_right, Rmin_right by lra. lra.
  - rewrite !Rabs_left by lra. rewrite (Rmax_right (a + b) 0) by lra.
    destruct (Rle_lt_dec a b); [rewrite Rmin_right, Rmax_right by lra|rewrite Rmin_left, Rmax_left by lra]; lra.
Qed.

Lemma merge_weights_closed : forall a b,
  merge_weights a b = ln ((1 + exp (a + b)) / (exp a + exp b)).
Proof.
  intros a b. unfold merge_weights. rewrite signed_min_eq.
  pose proof (exp_pos (a + b)). pose proof (exp_pos a). pose proof (exp_pos b).
  rewrite ln_div by lra. rewrite (ln_one_plus_exp (a + b)), ln_exp_plus. lra.
Qed.

Lemma exp_to_weight : forall p, 0 < p < 1 -> exp (to_weight p) = (1 - p) / p.
Proof. intros p H. unfold to_weight. apply exp_ln. apply Rdiv_lt_0_compat; lra. Qed.

Lemma xor_range : forall p q, 0 < p < 1 -> 0 < q < 1 -> 0 < bernoulli_xor p q < 1.
Proof. intros p q Hp Hq. unfold bernoulli_xor. split; nra. Qed.

Lemma merge_is_llr_of_xor : forall p q, 0 < p < 1 -> 0 < q < 1 ->
  merge_weights (to_weight p) (to_weight q) = to_weight (bernoulli_xor p q).
Proof.
  intros p q Hp Hq. rewrite merge_weights_closed. rewrite exp_plus, !exp_to_weight by assumption.
  unfold to_weight at 1. f_equal. pose proof (xor_range p q Hp Hq). unfold bernoulli_xor in *.
  field. repeat split; try lra; nra.
Qed.

Lemma xor_comm : forall p q, bernoulli_xor p q = bernoulli_xor q p.
Proof. intros. unfold bernoulli_xor. ring. Qed.

Lemma xor_assoc : forall p q r, bernoulli_xor p (bernoulli_xor q r) = bernoulli_xor (bernoulli_xor p q) r.
Proof. intros. unfold bernoulli_xor. ring. Qed.

Lemma merge_comm : forall a b, merge_weights a b = merge_weights b a.
Proof. intros. rewrite !merge_weights_closed. do 2 f_equal; [do 2 f_equal|]; lra. Qed.

(** every weight is the log-likelihood ratio of a probability *)
Lemma weight_of_prob : forall a, exists p, 0 < p < 1 /\ to_weight p = a.
Proof.
  intros a. exists (/ (1 + exp a)). pose proof (exp_pos a).
  assert (0 < / (1 + exp a)) by (apply Rinv_0_lt_compat; lra).
  assert (/ (1 + exp a) < 1).
  { rewrite <- Rinv_1. apply Rinv_lt_contravar; lra. }
  split; [lra|]. unfold to_weight.
  replace ((1 - / (1 + exp a)) / / (1 + exp a)) with (exp a); [apply ln_exp|]. field. lra.
Qed.

Lemma merge_assoc : forall a b c, merge_weights a (merge_weights b c) = merge_weights (merge_weights a b) c.
Proof.
  intros a b c. destruct (weight_of_prob a) as (p & Hp & <-), (weight_of_prob b) as (q & Hq & <-), (weight_of_prob c) as (r & Hr & <-).
  rewrite !merge_is_llr_of_xor; auto using xor_range. rewrite xor_assoc. reflexivity.
Qed.

Lemma fold_comm_assoc : forall (f : R -> R -> R), (forall a b, f a b = f b a) -> (forall a b c, f a (f b c) = f (f a b) c) ->
  forall l l' a b, Permutation (a :: l) (b :: l') -> fold_left (fun x y => f y x) l a = fold_left (fun x y => f y x) l' b.
Proof.
  intros f HC HA.
  (* a fold over a nonempty list depends only on the multiset: compare with an option-valued right fold *)
  set (g := fun x (o : option R) => match o with None => Some x | Some y => Some (f x y) end).
  assert (Hg : forall l a, Some (fold_left (fun x y => f y x) l a) = fold_right g None (a :: l)).
  { intros l. assert (Hk : forall l a, fold_left (fun x y => f y x) l a =
        match fold_right g None l with None => a | Some y => f a y end).
    { induction l0 as [|x l0 IH]; intros a; [reflexivity|]. cbn [fold_left fold_right]. rewrite IH.
      destruct (fold_right g None l0) as [y|]; cbn.
      - rewrite (HC x a), HA. reflexivity.
      - apply HC. }
    intros a. rewrite Hk. cbn. destruct (fold_right g None l); reflexivity. }
  assert (HP : forall l l', Permutation l l' -> fold_right g None l = fold_right g None l').
  { intros l l' H. induction H; cbn; auto.
    - f_equal. exact IHPermutation.
    - destruct (fold_right g None l) as [z|]; cbn; [|rewrite HC; reflexivity].
      rewrite !HA, (HC y x). reflexivity.
    - congruence. }
  intros l l' a b H. apply HP in H. rewrite <- !Hg in H. congruence.
Qed.

Lemma merge_probs_order : forall p ps q qs, Permutation (p :: ps) (q :: qs) -> merge_probs p ps = merge_probs q qs.
Proof. intros. unfold merge_probs. apply (fold_comm_assoc bernoulli_xor xor_comm xor_assoc). assumption. Qed.

Lemma merge_weights_order : forall w ws v vs, Permutation (w :: ws) (v :: vs) -> merge_weight_list w ws = merge_weight_list v vs.
Proof. intros. unfold merge_weight_list. apply (fold_comm_assoc merge_weights merge_comm merge_assoc). assumption. Qed.

Lemma merge_probs_range : forall ps p, (forall q, In q (p :: ps) -> 0 <= q <= 1) -> 0 <= merge_probs p ps <= 1.
Proof.
  unfold merge_probs. induction ps as [|x ps IH]; intros p H; cbn [fold_left].
  - apply H. left. reflexivity.
  - apply IH. intros q [<-|Hq]; [|apply H; right; right; exact Hq].
    assert (0 <= p <= 1) by (apply H; left; reflexivity).
    assert (0 <= x <= 1) by (apply H; right; left; reflexivity).
    unfold bernoulli_xor. split; nra.
Qed.

Lemma merge_probs_half : forall ps p, (forall q, In q (p :: ps) -> 0 <= q <= 1/2) -> 0 <= merge_probs p ps <= 1/2.
Proof.
  unfold merge_probs. induction ps as [|x ps IH]; intros p H; cbn [fold_left].
  - apply H. left. reflexivity.
  - apply IH. intros q [<-|Hq]; [|apply H; right; right; exact Hq].
    assert (0 <= p <= 1/2) by (apply H; left; reflexivity).
    assert (0 <= x <= 1/2) by (apply H; right; left; reflexivity).
    unfold bernoulli_xor. split; nra.
Qed.

Lemma merge_probs_pos : forall ps p, (forall q, In q (p :: ps) -> 0 < q <= 1/2) -> 0 < merge_probs p ps <= 1/2.
Proof.
  unfold merge_probs. induction ps as [|x ps IH]; intros p H; cbn [fold_left].
  - apply H. left. reflexivity.
  - apply IH. intros q [<-|Hq]; [|apply H; right; right; exact Hq].
    assert (0 < p <= 1/2) by (apply H; left; reflexivity).
    assert (0 < x <= 1/2) by (apply H; right; left; reflexivity).
    unfold bernoulli_xor. split; nra.
Qed.

Lemma merge_list_is_llr : forall ps p, (forall q, In q (p :: ps) -> 0 < q < 1) ->
  merge_weight_list (to_weight p) (map to_weight ps) = to_weight (merge_probs p ps) /\ 0 < merge_probs p ps < 1.
Proof.
  unfold merge_weight_list, merge_probs. induction ps as [|x ps IH]; intros p H; cbn [map fold_left].
  - split; [reflexivity|]. apply H. left. reflexivity.
  - assert (0 < p < 1) by (apply H; left; reflexivity).
    assert (0 < x < 1) by (apply H; right; left; reflexivity).
    rewrite merge_is_llr_of_xor by assumption. apply IH.
    intros q [<-|Hq]; [apply xor_range; assumption|apply H; right; right; exact Hq].
Qed.

Lemma to_weight_nonneg : forall p, 0 < p <= 1/2 -> 0 <= to_weight p.
Proof.
  intros p H. unfold to_weight. rewrite <- ln_1.
  assert (1 <= (1 - p) / p).
  { apply Rmult_le_reg_r with p; [lra|]. unfold Rdiv. rewrite Rmult_assoc, Rinv_l by lra. lra. }
  destruct H0 as [H0|H0]; [|rewrite <- H0; lra]. left. apply ln_increasing; lra.
Qed.

Lemma merge_nonneg : forall ps p, (forall q, In q (p :: ps) -> 0 < q <= 1/2) ->
  0 <= merge_weight_list (to_weight p) (map to_weight ps).
Proof.
  intros ps p H. destruct (merge_list_is_llr ps p) as [E R].
  - intros q Hq. specialize (H q Hq). lra.
  - rewrite E. apply to_weight_nonneg. apply merge_probs_pos. exact H.
Qed.

(** |merge a b| <= |a| *)
Lemma ln_le : forall a b, 0 < a -> a <= b -> ln a <= ln b.
Proof. intros a b Ha [H|H]; [left; apply ln_increasing; assumption|subst; lra]. Qed.

Lemma merge_abs_le : forall a b, Rabs (merge_weights a b) <= Rabs a.
Proof.
  intros a b. rewrite merge_weights_closed.
  pose proof (exp_pos a) as HA. pose proof (exp_pos b) as HB.
  rewrite exp_plus. set (A := exp a) in *. set (B := exp b) in *.
  assert (Ea : a = ln A) by (unfold A; rewrite ln_exp; reflexivity).
  assert (HAB : 0 < A * B) by (apply Rmult_lt_0_compat; assumption).
  assert (Hpos : 0 < (1 + A * B) / (A + B)) by (apply Rdiv_lt_0_compat; lra).
  assert (Hdiv : forall c, (1 + A * B) <= c * (A + B) -> (1 + A * B) / (A + B) <= c).
  { intros c Hc. apply Rmult_le_reg_r with (A + B); [lra|]. unfold Rdiv. rewrite Rmult_assoc, Rinv_l by lra. lra. }
  assert (Hdiv' : forall c, c * (A + B) <= (1 + A * B) -> c <= (1 + A * B) / (A + B)).
  { intros c Hc. apply Rmult_le_reg_r with (A + B); [lra|]. unfold Rdiv. rewrite Rmult_assoc, Rinv_l by lra. lra. }
  assert (HiA : 0 < / A) by (apply Rinv_0_lt_compat; assumption).
  assert (EiA : / A * A = 1) by (apply Rinv_l; lra).
  destruct (Rle_lt_dec 1 A) as [H1|H1].
  - assert (0 <= a). { rewrite Ea. rewrite <- ln_1. apply ln_le; lra. }
    rewrite (Rabs_right a) by lra. apply Rabs_le. split.
    + rewrite Ea, <- ln_Rinv by assumption. apply ln_le; [assumption|]. apply Hdiv'.
      rewrite Rmult_plus_distr_l, EiA.
      assert (/ A <= 1) by (rewrite <- Rinv_1; apply Rinv_le_contravar; lra).
      assert (/ A * B <= 1 * B) by (apply Rmult_le_compat_r; lra). nra.
    + rewrite Ea. apply ln_le; [assumption|]. apply Hdiv. nra.
  - assert (a < 0). { rewrite Ea. rewrite <- ln_1. apply ln_increasing; lra. }
    rewrite (Rabs_left a) by lra. apply Rabs_le. split.
    + rewrite Ropp_involutive, Ea. apply ln_le; [assumption|]. apply Hdiv'. nra.
    + rewrite Ea, <- ln_Rinv by assumption. apply ln_le; [assumption|]. apply Hdiv.
      rewrite Rmult_plus_distr_l, EiA.
      assert (1 <= / A) by (rewrite <- Rinv_1; apply Rinv_le_contravar; lra).
      assert (1 * B <= / A * B) by (apply Rmult_le_compat_r; lra). nra.
Qed.

Lemma RN_merge_in_range : forall a b, w_exceeds RN a = false -> w_exceeds RN b = false -> w_exceeds RN (w_merge RN a b) = false.
Proof.
  intros a b Ha _. cbn in *. unfold Rltb in *.
  destruct (Rlt_dec max_user_weight (Rabs a)) as [|H]; [discriminate|].
  destruct (Rlt_dec max_user_weight (Rabs (merge_weights a b))) as [H'|]; [|reflexivity].
  pose proof (merge_abs_le a b). lra.
Qed.

Lemma RN_valid : forall p, p_valid RN p = negb (p_outside RN p).
Proof.
  intros p. cbn. unfold Rleb, Rltb.
  destruct (Rle_dec 0 p), (Rle_dec p 1), (Rlt_dec p 0), (Rlt_dec 1 p); cbn; try reflexivity; exfalso; lra.
Qed.

Lemma RN_valid_range : forall p, p_valid RN p = true <-> 0 <= p <= 1.
Proof.
  intros p. cbn. unfold Rleb. destruct (Rle_dec 0 p), (Rle_dec p 1); cbn; split; intros; try discriminate; try lra; reflexivity.
Qed.

Lemma RN_xor_valid : forall p q, p_valid RN p = true -> p_valid RN q = true -> p_valid RN (p_xor RN p q) = true.
Proof.
  intros p q Hp Hq. apply RN_valid_range in Hp, Hq. apply RN_valid_range. cbn. unfold bernoulli_xor. split; nra.
Qed.

(** C35 *)
Lemma implied_weight_ok : forall joint marginal, 0 < joint -> 0 < marginal ->
  exists c, 0 < c <= 1/2 /\ c = Rmin (1/2) (joint / marginal) /\
    implied_weight joint marginal = ln ((1 - c) / c) /\ 0 <= implied_weight joint marginal.
Proof.
  intros j m Hj Hm. exists (Rmin (1/2) (j/m)).
  assert (0 < j / m) by (apply Rdiv_lt_0_compat; assumption).
  assert (0 < Rmin (1/2) (j/m) <= 1/2).
  { split; [apply Rmin_glb_lt; lra|apply Rmin_l]. }
  split; [assumption|]. split; [reflexivity|]. split; [reflexivity|].
  unfold implied_weight. apply to_weight_nonneg. assumption.
Qed.
