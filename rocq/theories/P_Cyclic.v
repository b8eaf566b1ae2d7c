From Coq Require Import ZArith Lia Bool.
From Verif Require Import M_Cyclic.
Open Scope Z_scope.

Lemma pow_split w : 1 <= w -> 2 ^ w = 2 * 2 ^ (w - 1) /\ 0 < 2 ^ (w - 1).
Proof.
  intros H. split; [|apply Z.pow_pos_nonneg; lia].
  replace w with (Z.succ (w - 1)) at 1 by lia. rewrite Z.pow_succ_r; lia.
Qed.

Lemma wrap_unique w x k r : 0 <= r < 2 ^ w -> x = 2 ^ w * k + r -> wrap w x = r.
Proof.
  intros Hr ->. unfold wrap. symmetry. apply Z.mod_unique with k; lia.
Qed.

Lemma HALF_eq w : 1 <= w -> HALF w = 2 ^ (w - 1).
Proof.
  intros H. destruct (pow_split w H) as [E P]. unfold HALF.
  assert (E1 : wrap w (-1) = 2 ^ w - 1) by (apply wrap_unique with (-1); lia).
  rewrite E1, Z.shiftr_div_pow2 by lia. change (2 ^ 1) with 2.
  replace ((2 ^ w - 1) / 2) with (2 ^ (w - 1) - 1).
  - apply wrap_unique with 0; lia.
  - apply Z.div_unique with 1; lia.
Qed.

Lemma wrap_sub w x y c : 1 <= w -> wrap w (wrap w x - wrap w y - c) = wrap w (x - y - c).
Proof.
  intros H. unfold wrap.
  rewrite (Z.mod_eq x), (Z.mod_eq y) by (apply Z.pow_nonzero; lia).
  replace (x - 2 ^ w * (x / 2 ^ w) - (y - 2 ^ w * (y / 2 ^ w)) - c)
    with (x - y - c + (y / 2 ^ w - x / 2 ^ w) * 2 ^ w) by ring.
  apply Z_mod_plus_full.
Qed.

Lemma wrap_sub0 w x y : 1 <= w -> wrap w (wrap w x - wrap w y) = wrap w (x - y).
Proof. intros. pose proof (wrap_sub w x y 0 H). rewrite !Z.sub_0_r in H0. exact H0. Qed.

Lemma cyc_order w x y : 1 <= w -> Z.abs (x - y) < 2 ^ (w - 1) ->
  cyc_lt w (wrap w x) (wrap w y) = (x <? y) /\
  cyc_le w (wrap w x) (wrap w y) = (x <=? y) /\
  cyc_gt w (wrap w x) (wrap w y) = (y <? x) /\
  cyc_ge w (wrap w x) (wrap w y) = (y <=? x).
Proof.
  intros Hw Hxy. destruct (pow_split w Hw) as [E P].
  unfold cyc_lt, cyc_le, cyc_gt, cyc_ge. rewrite !wrap_sub, !wrap_sub0, HALF_eq by lia.
  replace (wrap w (2 ^ (w - 1) - 1)) with (2 ^ (w - 1) - 1)
    by (symmetry; apply wrap_unique with 0; lia).
  repeat split.
  - destruct (x <? y) eqn:C.
    + rewrite (wrap_unique w (y - x - 1) 0 (y - x - 1)) by lia. lia.
    + rewrite (wrap_unique w (y - x - 1) (-1) (y - x - 1 + 2 ^ w)) by lia. lia.
  - destruct (x <=? y) eqn:C.
    + rewrite (wrap_unique w (y - x) 0 (y - x)) by lia. lia.
    + rewrite (wrap_unique w (y - x) (-1) (y - x + 2 ^ w)) by lia. lia.
  - destruct (y <? x) eqn:C.
    + rewrite (wrap_unique w (x - y - 1) 0 (x - y - 1)) by lia. lia.
    + rewrite (wrap_unique w (x - y - 1) (-1) (x - y - 1 + 2 ^ w)) by lia. lia.
  - destruct (y <=? x) eqn:C.
    + rewrite (wrap_unique w (x - y) 0 (x - y)) by lia. lia.
    + rewrite (wrap_unique w (x - y) (-1) (x - y + 2 ^ w)) by lia. lia.
Qed.

Lemma cyc_half w x y : 2 <= w -> Z.abs (x - y) = 2 ^ (w - 1) ->
  cyc_lt w (wrap w x) (wrap w y) = false /\ cyc_le w (wrap w x) (wrap w y) = false /\
  cyc_gt w (wrap w x) (wrap w y) = false /\ cyc_ge w (wrap w x) (wrap w y) = false.
Proof.
  intros Hw Hxy. destruct (pow_split w ltac:(lia)) as [E P]. unfold cyc_lt, cyc_le, cyc_gt, cyc_ge. rewrite !wrap_sub, !wrap_sub0, HALF_eq by lia.
  replace (wrap w (2 ^ (w - 1) - 1)) with (2 ^ (w - 1) - 1) by (symmetry; apply wrap_unique with 0; lia).
  assert (H : forall d, Z.abs d = 2 ^ (w - 1) -> wrap w d = 2 ^ (w - 1) /\ wrap w (d - 1) = 2 ^ (w - 1) - 1).
  { intros d Hd. destruct (Z.abs_spec d) as [[_ X]|[_ X]]; rewrite X in Hd; split; [apply wrap_unique with 0|apply wrap_unique with 0|apply wrap_unique with (-1)|apply wrap_unique with (-1)]; lia. }
  destruct (H (y - x) ltac:(lia)) as [-> ->]. destruct (H (x - y) ltac:(lia)) as [-> ->]. repeat split; apply Z.ltb_ge; lia.
Qed.

Lemma widen_exact w x ref : 1 <= w -> - 2 ^ (w - 1) < x - ref <= 2 ^ (w - 1) ->
  widen w (wrap w x) ref = x.
Proof.
  intros Hw Hx. destruct (pow_split w Hw) as [E P].
  unfold widen. rewrite wrap_sub0 by lia. unfold cyc_gt. rewrite wrap_sub, HALF_eq by lia.
  replace (wrap w (-1) + 1) with (2 ^ w)
    by (rewrite (wrap_unique w (-1) (-1) (2 ^ w - 1)); lia).
  destruct (Z.ltb_spec x ref) as [C|C].
  - rewrite (wrap_unique w (ref - x - 1) 0 (ref - x - 1)) by lia.
    rewrite (wrap_unique w (x - ref) (-1) (x - ref + 2 ^ w)) by lia.
    destruct (Z.ltb_spec (ref - x - 1) (2 ^ (w - 1) - 1)); lia.
  - rewrite (wrap_unique w (ref - x - 1) (-1) (ref - x - 1 + 2 ^ w)) by lia.
    rewrite (wrap_unique w (x - ref) 0 (x - ref)) by lia.
    destruct (Z.ltb_spec (ref - x - 1 + 2 ^ w) (2 ^ (w - 1) - 1)); lia.
Qed.

Lemma wrap_eq_iff w x y : 1 <= w -> Z.abs (x - y) < 2 ^ w -> (wrap w x = wrap w y <-> x = y).
Proof.
  intros Hw H. split; [|congruence]. intros E.
  assert (wrap w (x - y) = 0).
  { unfold wrap in *. rewrite Zminus_mod, E, Z.sub_diag. apply Z.mod_0_l. apply Z.pow_nonzero; lia. }
  destruct (Z.lt_trichotomy (x - y) 0) as [C|[C|C]]; [|lia|].
  - rewrite (wrap_unique w (x-y) (-1) (x - y + 2^w)) in H0 by lia. lia.
  - rewrite (wrap_unique w (x-y) 0 (x - y)) in H0 by lia. lia.
Qed.

Lemma wrap_range w x : 1 <= w -> 0 <= wrap w x < 2 ^ w.
Proof. intros. apply Z.mod_pos_bound. apply Z.pow_pos_nonneg; lia. Qed.
