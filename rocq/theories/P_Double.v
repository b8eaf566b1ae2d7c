(** Rounding to doubles. *)
From Coq Require Import Reals ZArith Lia Lra.
From Flocq Require Import Core Relative.
From Verif Require Import M_Double.
Local Open Scope R_scope.

Lemma fl_0 : fl 0 = 0.
Proof. apply round_0. apply valid_rnd_N. Qed.
Lemma fl_opp : forall x, fl (- x) = - fl x.
Proof. intros x. apply round_NE_opp. Qed.
Lemma fl_le : forall x y, x <= y -> fl x <= fl y.
Proof. intros x y H. apply round_le; [now apply FLT_exp_valid|apply valid_rnd_N|exact H]. Qed.
Lemma fl_pos : forall x, 0 <= x -> 0 <= fl x.
Proof. intros x H. rewrite <- fl_0. now apply fl_le. Qed.
Lemma fl_abs : forall x, Rabs (fl x) = fl (Rabs x).
Proof.
  intros x. unfold Rabs at 2. destruct (Rcase_abs x) as [H|H].
  - rewrite fl_opp. rewrite Rabs_left1; [reflexivity|]. rewrite <- fl_0. apply fl_le. lra.
  - apply Rabs_pos_eq. apply fl_pos. lra.
Qed.
(** Integers of at most 53 bits are doubles. *)
Lemma fl_IZR : forall k, (Z.abs k <= 2 ^ 53)%Z -> fl (IZR k) = IZR k.
Proof.
  intros k H. apply round_generic; [apply valid_rnd_N|].
  destruct (Z.eq_dec (Z.abs k) (2 ^ 53)) as [E|E].
  - assert (G : generic_format radix2 (FLT_exp (-1074) 53) (bpow radix2 53)) by (apply generic_format_bpow; vm_compute; congruence).
    change (bpow radix2 53) with (IZR (2 ^ 53)) in G. destruct (Z.abs_eq_cases k (2 ^ 53)) as [-> | ->]; [lia|exact G|]. rewrite opp_IZR. now apply generic_format_opp.
  - apply generic_format_FLT. exists (Float radix2 k 0); [unfold F2R; simpl; lra|simpl Fnum; change (radix2 ^ 53)%Z with (2 ^ 53)%Z; lia|simpl; lia].
Qed.
Lemma b53 : / 2 * bpow radix2 (- (53) + 1) = / 9007199254740992.
Proof. change (- (53) + 1)%Z with (-52)%Z. unfold bpow. change (Z.pow_pos radix2 52) with 4503599627370496%Z. lra. Qed.
(** Relative error, if the number is not minute. *)
Lemma fl_relative : forall x, bpow radix2 (-1022) <= Rabs x -> Rabs (fl x - x) <= / 9007199254740992 * Rabs x.
Proof. intros x H. rewrite <- b53. apply (relative_error_N_FLT radix2 (-1074) 53 eq_refl (fun x => negb (Z.even x)) x). exact H. Qed.
Lemma bpow_small : forall e, (e <= 0)%Z -> bpow radix2 e <= 1.
Proof. intros e H. change 1 with (bpow radix2 0). now apply bpow_le. Qed.
(** Error in general. *)
Lemma fl_error : forall x, Rabs (fl x - x) <= / 9007199254740992 * Rabs x + bpow radix2 (-1075).
Proof.
  intros x. pose proof (bpow_gt_0 radix2 (-1075)) as HP.
  destruct (Rle_lt_dec (bpow radix2 (-1022)) (Rabs x)) as [H|H]; [pose proof (fl_relative x H); lra|].
  pose proof (Rabs_pos x) as HA.
  assert (E : Rabs (fl x - x) <= / 2 * ulp radix2 (FLT_exp (-1074) 53) x) by (apply error_le_half_ulp; now apply FLT_exp_valid).
  rewrite ulp_FLT_small in E; [|reflexivity|].
  - replace (/ 2 * bpow radix2 (-1074)) with (bpow radix2 (-1075)) in E by (change (-1074)%Z with (1 + -1075)%Z; rewrite bpow_plus; change (bpow radix2 1) with 2; field).
    assert (0 <= / 9007199254740992 * Rabs x) by (apply Rmult_le_pos; lra). lra.
  - eapply Rlt_le_trans; [exact H|]. apply bpow_le. lia.
Qed.
Lemma triangle : forall a b c x y, Rabs (a - b) <= x -> Rabs (b - c) <= y -> Rabs (a - c) <= x + y.
Proof. intros a b c x y H1 H2. replace (a - c) with ((a - b) + (b - c)) by ring. pose proof (Rabs_triang (a - b) (b - c)). lra. Qed.
(** An integer divided by a positive number that is not too large. *)
Lemma fl_quotient : forall z d, 0 < d -> d <= IZR (2 ^ 1024) -> Rabs (fl (fl (IZR z) / d) - IZR z / d) <= / 562949953421312 * Rabs (IZR z / d).
Proof.
  intros z d Hd HL. destruct (Z.eq_dec z 0) as [->|NZ].
  { rewrite fl_0. unfold Rdiv. rewrite Rmult_0_l, fl_0, Rminus_0_r, Rabs_R0. lra. }
  assert (N1 : 1 <= Rabs (IZR z)) by (rewrite <- abs_IZR; apply IZR_le; lia).
  assert (E1 : Rabs (fl (IZR z) - IZR z) <= / 9007199254740992 * Rabs (IZR z)).
  { apply fl_relative. apply Rle_trans with 1; [apply bpow_small; lia|exact N1]. }
  set (x := IZR z / d) in *. set (y := fl (IZR z) / d).
  assert (D : 0 < / d) by now apply Rinv_0_lt_compat.
  assert (AX : Rabs x = Rabs (IZR z) * / d) by (unfold x, Rdiv; rewrite Rabs_mult, (Rabs_pos_eq (/ d)) by lra; reflexivity).
  assert (E2 : Rabs (y - x) <= / 9007199254740992 * Rabs x).
  { unfold y, x, Rdiv. rewrite <- Rmult_minus_distr_r, Rabs_mult, (Rabs_pos_eq (/ d)) by lra.
    fold (Rdiv (IZR z) d). fold x. rewrite AX, <- Rmult_assoc. apply Rmult_le_compat_r; lra. }
  assert (SX : bpow radix2 (-1024) <= Rabs x).
  { rewrite AX. apply Rle_trans with (1 * / d); [|apply Rmult_le_compat_r; lra]. rewrite Rmult_1_l. change (-1024)%Z with (- (1024))%Z. rewrite bpow_opp.
    apply Rinv_le; [exact Hd|exact HL]. }
  pose proof (fl_error y) as E3.
  assert (AY : Rabs y <= Rabs x + Rabs (y - x)) by (replace y with (x + (y - x)) at 1 by ring; apply Rabs_triang).
  assert (T : bpow radix2 (-1075) <= / 2251799813685248 * Rabs x).
  { change (-1075)%Z with (-51 + -1024)%Z. rewrite bpow_plus. change (bpow radix2 (-51)) with (/ 2251799813685248). apply Rmult_le_compat_l; [lra|exact SX]. }
  pose proof (triangle _ _ _ _ _ E3 E2) as E4. pose proof (Rabs_pos x). lra.
Qed.
(** An even integer halved. *)
Lemma fl_half : forall k, (Z.abs k <= 2 ^ 52)%Z -> fl (fl (IZR (2 * k)) / 2) = IZR k.
Proof.
  intros k H. rewrite fl_IZR by lia. rewrite mult_IZR. replace (2 * IZR k / 2) with (IZR k) by field. apply fl_IZR. lia.
Qed.
(** The same without Flocq's notations. *)
Lemma fl_normal : forall x, 1 <= Rabs x -> Rabs (fl x - x) <= / 9007199254740992 * Rabs x.
Proof. intros x H. apply fl_relative. apply Rle_trans with 1; [apply bpow_small; lia|exact H]. Qed.
Lemma fl_error' : forall x, Rabs (fl x - x) <= / 9007199254740992 * Rabs x + / 1267650600228229401496703205376.
Proof.
  intros x. pose proof (fl_error x) as E. assert (bpow radix2 (-1075) <= / 1267650600228229401496703205376); [|lra].
  change (/ 1267650600228229401496703205376) with (bpow radix2 (-100)). apply bpow_le. lia.
Qed.
(** Integers of 53 bits times a power of two are doubles. *)
Lemma fl_large : forall n, fl (IZR (16777215 * 2 ^ Z.pos n)) = IZR (16777215 * 2 ^ Z.pos n).
Proof.
  intros n. apply round_generic; [apply valid_rnd_N|]. apply generic_format_FLT. exists (Float radix2 16777215 (Z.pos n)); [|reflexivity|simpl; lia].
  unfold F2R. cbn [Fnum Fexp]. rewrite mult_IZR. reflexivity.
Qed.
