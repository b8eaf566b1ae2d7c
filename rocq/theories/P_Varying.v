From Coq Require Import ZArith Lia Bool.
From Verif Require Import M_Base M_Varying S_Varying.
Open Scope Z_scope.

Lemma shr2 y c : 0 <= c < 4 -> Z.shiftr (4 * y + c) 2 = y.
Proof.
  intros. rewrite Z.shiftr_div_pow2 by lia. change (2 ^ 2) with 4.
  symmetry. apply Z.div_unique with c; lia.
Qed.

Lemma land1 y c : Z.land (4 * y + c) 1 = c mod 2.
Proof.
  change 1 with (Z.ones 1). rewrite Z.land_ones by lia. change (2 ^ 1) with 2.
  replace (4 * y + c) with (c + (2 * y) * 2) by ring. apply Z_mod_plus_full.
Qed.

Lemma land3 y c : Z.land (4 * y + c) 3 = c mod 4.
Proof.
  change 3 with (Z.ones 2). rewrite Z.land_ones by lia. change (2 ^ 2) with 4.
  replace (4 * y + c) with (c + y * 4) by ring. apply Z_mod_plus_full.
Qed.

Lemma land2 y c : 0 <= c < 4 -> Z.land (4 * y + c) 2 = if c <? 2 then 0 else 2.
Proof.
  intros H. assert (E : Z.land (4 * y + c) 2 = Z.land (Z.land (4 * y + c) 3) 2).
  { rewrite <- Z.land_assoc. reflexivity. }
  rewrite E, land3, Z.mod_small by lia.
  assert (c = 0 \/ c = 1 \/ c = 2 \/ c = 3) as [-> | [-> | [-> | ->]]] by lia; reflexivity.
Qed.

Ltac lcases l := destruct l as [s y]; 
  match goal with H : legal _ |- _ => unfold legal in H; simpl in H; destruct H as [-> | [-> | ->]] end.

Lemma vf_growing l : legal l -> is_growing (word_of l) = (slope l =? 1).
Proof. intros H. lcases l; unfold is_growing, word_of; cbn [slope icpt Z.eqb Pos.eqb]; rewrite land1; reflexivity. Qed.
Lemma vf_shrinking l : legal l -> is_shrinking (word_of l) = (slope l =? -1).
Proof. intros H. lcases l; unfold is_shrinking, word_of; cbn [slope icpt Z.eqb Pos.eqb]; rewrite land2 by lia; reflexivity. Qed.
Lemma vf_frozen l : legal l -> is_frozen (word_of l) = (slope l =? 0).
Proof. intros H. lcases l; unfold is_frozen, word_of; cbn [slope icpt Z.eqb Pos.eqb]; rewrite land3; reflexivity. Qed.
Lemma vf_icpt l : legal l -> y_intercept (word_of l) = icpt l.
Proof. intros H. lcases l; unfold y_intercept, word_of; cbn [slope icpt Z.eqb Pos.eqb]; apply shr2; lia. Qed.
Lemma vf_shr l : legal l -> Z.shiftr (word_of l) 2 = icpt l.
Proof. exact (vf_icpt l). Qed.

Lemma vf_distance l t : legal l -> get_distance_at_time (word_of l) t = value l t.
Proof.
  intros H. unfold get_distance_at_time. rewrite vf_growing, vf_shrinking, vf_shr by assumption.
  lcases l; unfold value; cbn [slope icpt Z.eqb Pos.eqb]; lia.
Qed.

Lemma vf_then_growing l t : legal l ->
  then_growing_at_time (word_of l) t = word_of (mkLine 1 (value l t - t)).
Proof.
  intros H. unfold then_growing_at_time. rewrite vf_distance by assumption.
  unfold word_of; cbn [slope icpt Z.eqb Pos.eqb]. rewrite Z.shiftl_mul_pow2 by lia. change (2 ^ 2) with 4. lia.
Qed.
Lemma vf_then_shrinking l t : legal l ->
  then_shrinking_at_time (word_of l) t = word_of (mkLine (-1) (value l t + t)).
Proof.
  intros H. unfold then_shrinking_at_time. rewrite vf_distance by assumption.
  unfold word_of; cbn [slope icpt Z.eqb Pos.eqb]. rewrite Z.shiftl_mul_pow2 by lia. change (2 ^ 2) with 4. lia.
Qed.
Lemma vf_then_frozen l t : legal l ->
  then_frozen_at_time (word_of l) t = word_of (mkLine 0 (value l t)).
Proof.
  intros H. unfold then_frozen_at_time. rewrite vf_distance by assumption.
  unfold word_of; cbn [slope icpt Z.eqb Pos.eqb]. rewrite Z.shiftl_mul_pow2 by lia. change (2 ^ 2) with 4. lia.
Qed.

Lemma switch_correct l t : legal l ->
  (exists g, then_growing_at_time (word_of l) t = word_of g /\ slope g = 1 /\ value g t = value l t) /\
  (exists s, then_shrinking_at_time (word_of l) t = word_of s /\ slope s = -1 /\ value s t = value l t) /\
  (exists f, then_frozen_at_time (word_of l) t = word_of f /\ slope f = 0 /\ value f t = value l t).
Proof.
  intros H. repeat split; eexists.
  - split; [apply vf_then_growing; exact H|]. split; [reflexivity|]. unfold value; cbn [slope icpt]. lia.
  - split; [apply vf_then_shrinking; exact H|]. split; [reflexivity|]. unfold value; cbn [slope icpt]. lia.
  - split; [apply vf_then_frozen; exact H|]. split; [reflexivity|]. unfold value; cbn [slope icpt]. lia.
Qed.

Lemma root_correct l : legal l ->
  match time_of_x_intercept (word_of l) with
  | Ok t => slope l <> 0 /\ forall t', value l t' = 0 <-> t' = t
  | Throw => slope l = 0
  | _ => False
  end.
Proof.
  intros H. unfold time_of_x_intercept. rewrite vf_growing, vf_shrinking, vf_shr by assumption.
  lcases l; unfold value; cbn [slope icpt Z.eqb Pos.eqb]; try reflexivity; (split; [lia|intros; lia]).
Qed.

Lemma colliding_correct a b : legal a -> legal b ->
  (colliding_with (word_of a) (word_of b) = true <-> (0 < slope a + slope b /\ slope a <> -1 /\ slope b <> -1)).
Proof.
  intros Ha Hb. unfold colliding_with.
  assert (E : Z.land (Z.lor (word_of a) (word_of b)) 3 = Z.lor (Z.land (word_of a) 3) (Z.land (word_of b) 3))
    by apply Z.land_lor_distr_l.
  rewrite E. unfold word_of. rewrite !land3.
  destruct a as [sa ya], b as [sb yb]. unfold legal in *. cbn [slope icpt] in *.
  destruct Ha as [-> | [-> | ->]], Hb as [-> | [-> | ->]]; simpl; split; intros; try discriminate; try lia; auto.
Qed.

Lemma meeting_time_correct a b w : legal a -> legal b -> slope a <> -1 -> slope b <> -1 -> 0 < slope a + slope b ->
  let t := time_of_x_intercept_when_added_to (word_of (mkLine (slope a) (icpt a - w))) (word_of b) in
  (slope a + slope b = 2 -> Z.Even (icpt a + icpt b - w)) ->
  forall t', value a t' + value b t' = w <-> t' = t.
Proof.
  intros Ha Hb Na Nb Hs. cbv zeta. intros Hev t'.
  unfold time_of_x_intercept_when_added_to.
  assert (Hc : legal (mkLine (slope a) (icpt a - w))) by exact Ha.
  rewrite !vf_growing, !vf_shr by assumption.
  destruct a as [sa ya], b as [sb yb]. unfold legal, value in *. cbn [slope icpt] in *.
  destruct Ha as [-> | [-> | ->]], Hb as [-> | [-> | ->]]; cbn [Z.eqb Pos.eqb]; simpl andb; cbv iota; try lia.
  destruct (Hev eq_refl) as [k Hk].
  rewrite Z.shiftr_div_pow2 by lia. change (2 ^ 1) with 2.
  replace (- (ya - w) - yb) with ((- k) * 2) by lia. rewrite Z.div_mul by lia. lia.
Qed.

Lemma constructors_correct y t :
  growing_value_at_time y t = Ok (word_of (mkLine 1 (y - t))) /\
  shrinking_value_at_time y t = Ok (word_of (mkLine (-1) (y + t))) /\
  frozen y = Ok (word_of (mkLine 0 y)) /\
  growing_varying_with_zero_distance_at_time t = word_of (mkLine 1 (- t)).
Proof.
  unfold growing_value_at_time, shrinking_value_at_time, frozen, from_base_and_growth,
    growing_varying_with_zero_distance_at_time, word_of.
  assert (L1 : forall z, Z.lor (Z.shiftl z 2) 1 = 4 * z + 1).
  { intros z.
    rewrite Z.shiftl_mul_pow2 by lia. change (2 ^ 2) with 4.
    rewrite <- Z.lxor_lor.
    - rewrite <- Z.add_nocarry_lxor; [lia|]. replace (z * 4) with (4 * z + 0) by ring. now rewrite land1.
    - replace (z * 4) with (4 * z + 0) by ring. now rewrite land1. }
  assert (L2 : forall z, Z.lor (Z.shiftl z 2) 2 = 4 * z + 2).
  { intros z. rewrite Z.shiftl_mul_pow2 by lia. change (2 ^ 2) with 4.
    rewrite <- Z.lxor_lor.
    - rewrite <- Z.add_nocarry_lxor; [lia|]. replace (z * 4) with (4 * z + 0) by ring. now rewrite land2 by lia.
    - replace (z * 4) with (4 * z + 0) by ring. now rewrite land2 by lia. }
  cbn [Z.eqb Pos.eqb]. cbn [slope icpt negb]. rewrite L1, L2, !Z.shiftl_mul_pow2 by lia. change (2 ^ 2) with 4.
  cbn [Z.eqb Pos.eqb]. repeat split; f_equal; lia.
Qed.

Lemma growth_refused base growth : growth <> -1 -> growth <> 0 -> growth <> 1 -> from_base_and_growth base growth = Throw.
Proof. intros H1 H2 H3. unfold from_base_and_growth. destruct (Z.eqb_spec growth 1); [contradiction|]. destruct (Z.eqb_spec growth (-1)); [contradiction|]. destruct (Z.eqb_spec growth 0); [contradiction|reflexivity]. Qed.

Lemma offset_correct l o : legal l ->
  v_add (word_of l) o = word_of (mkLine (slope l) (icpt l + o)) /\
  v_sub (word_of l) o = word_of (mkLine (slope l) (icpt l - o)).
Proof.
  intros H. unfold v_add, v_sub, word_of. cbn [slope icpt]. rewrite Z.shiftl_mul_pow2 by lia. change (2 ^ 2) with 4.
  split; lia.
Qed.

Lemma range_correct l t : legal l -> Z.abs (icpt l) <= 2 ^ 59 -> Z.abs t <= 2 ^ 59 ->
  in_int64 (word_of l) /\ in_int64 (get_distance_at_time (word_of l) t) /\
  in_int64 (then_growing_at_time (word_of l) t) /\ in_int64 (then_shrinking_at_time (word_of l) t) /\
  in_int64 (then_frozen_at_time (word_of l) t).
Proof.
  intros H Hi Ht. rewrite vf_distance, vf_then_growing, vf_then_shrinking, vf_then_frozen by assumption.
  assert (E : 2 ^ 63 = 16 * 2 ^ 59) by reflexivity. set (K := 2 ^ 59) in *. 
  assert (4 < K) by reflexivity.
  unfold in_int64. rewrite E.
  lcases l; unfold value, word_of; cbn [slope icpt] in *; cbn [Z.eqb Pos.eqb]; repeat split; lia.
Qed.

Lemma directed_correct l : legal l ->
  (slope l = 1 -> forall t, get_growing_distance_at_time (word_of l) t = value l t /\ (value l t = 0 <-> t = time_of_x_intercept_for_growing (word_of l))) /\
  (slope l = -1 -> forall t, get_shrinking_distance_at_time (word_of l) t = value l t /\ (value l t = 0 <-> t = time_of_x_intercept_for_shrinking (word_of l))).
Proof.
  intros H. unfold get_growing_distance_at_time, get_shrinking_distance_at_time, time_of_x_intercept_for_growing, time_of_x_intercept_for_shrinking.
  rewrite !vf_shr by assumption. unfold value. split; intros -> t; lia.
Qed.
Lemma unit_slope_correct a b w : legal a -> legal b -> slope a <> -1 -> slope b <> -1 -> slope a + slope b = 1 ->
  forall t, value a t + value b t = w <-> t = time_of_x_intercept_when_added_to_giving_unit_slope (word_of (mkLine (slope a) (icpt a - w))) (word_of b).
Proof.
  intros Ha Hb Na Nb Hs t. unfold time_of_x_intercept_when_added_to_giving_unit_slope. assert (Hc : legal (mkLine (slope a) (icpt a - w))) by exact Ha.
  rewrite !vf_shr by assumption. destruct a as [sa ya], b as [sb yb]. unfold legal, value in *. cbn [slope icpt] in *. destruct Ha as [-> | [-> | ->]], Hb as [-> | [-> | ->]]; lia.
Qed.
