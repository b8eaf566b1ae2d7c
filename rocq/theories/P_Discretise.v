From Coq Require Import Reals ZArith List Bool Lia Lra.
From Verif Require Import M_Base M_Double M_Discretise P_Double.
Import ListNotations.
Local Open Scope R_scope.

Lemma Rabs_le_inv : forall x a, Rabs x <= a -> - a <= x <= a.
Proof. intros x a. unfold Rabs. destruct (Rcase_abs x); lra. Qed.
Lemma round_near : forall x, Rabs (IZR (round x) - x) <= / 2.
Proof.
  intros x. unfold round. destruct (Rle_dec 0 x) as [H|H].
  - destruct (base_Int_part (x + / 2)) as [H1 H2]. apply Rabs_le. lra.
  - destruct (base_Int_part (- x + / 2)) as [H1 H2]. rewrite opp_IZR. apply Rabs_le. lra.
Qed.
Lemma round_IZR : forall k, round (IZR k) = k.
Proof.
  intros k. pose proof (round_near (IZR k)) as H. rewrite <- minus_IZR in H. apply Rabs_le_inv in H.
  assert (-1 < round (IZR k) - k < 1)%Z by (split; apply lt_IZR; lra). lia.
Qed.
Lemma round_bound : forall x K, Rabs x <= IZR K -> (Z.abs (round x) <= K)%Z.
Proof.
  intros x K H. pose proof (round_near x) as N. apply Rabs_le_inv in N. apply Rabs_le_inv in H.
  assert (- IZR K = IZR (- K)) by (rewrite opp_IZR; reflexivity).
  assert (round x < K + 1)%Z by (apply lt_IZR; rewrite plus_IZR; lra).
  assert (- K - 1 < round x)%Z by (apply lt_IZR; rewrite minus_IZR, opp_IZR; lra). lia.
Qed.
Lemma is_integral_spec : forall x, is_integral x = true <-> exists k, x = IZR k.
Proof.
  intros x. unfold is_integral. destruct (Req_EM_T (IZR (round x)) x) as [E|E]; split; intros H; try discriminate; auto.
  - exists (round x). now symmetry.
  - destruct H as [k ->]. rewrite round_IZR in E. congruence.
Qed.
Lemma max_abs_fold : forall ws m, m <= fold_left (fun m w => if Rlt_dec m (Rabs w) then Rabs w else m) ws m /\
  (forall w, In w ws -> Rabs w <= fold_left (fun m w => if Rlt_dec m (Rabs w) then Rabs w else m) ws m) /\
  (fold_left (fun m w => if Rlt_dec m (Rabs w) then Rabs w else m) ws m = m \/ exists w, In w ws /\ fold_left (fun m w => if Rlt_dec m (Rabs w) then Rabs w else m) ws m = Rabs w).
Proof.
  induction ws as [|w ws IH]; intros m; cbn [fold_left]; [split; [lra|split; [intros w []|now left]]|].
  destruct (IH (if Rlt_dec m (Rabs w) then Rabs w else m)) as (H1 & H2 & H3). split; [|split].
  - destruct (Rlt_dec m (Rabs w)); lra.
  - intros x [->|Hx]; [|now apply H2]. destruct (Rlt_dec m (Rabs x)); lra.
  - destruct H3 as [H3|(x & Hx & H3)]; [|right; exists x; split; [now right|exact H3]].
    destruct (Rlt_dec m (Rabs w)); [right; exists w; split; [now left|exact H3]|now left].
Qed.

Lemma scaled : forall K m w, 0 < m -> 0 <= K -> Rabs w <= m -> Rabs (w * (K / m)) <= K.
Proof.
  intros K m w Hm HK Hw. rewrite Rabs_mult. rewrite (Rabs_pos_eq (K / m)) by (apply Rmult_le_pos; [exact HK|left; now apply Rinv_0_lt_compat]).
  apply Rmult_le_reg_r with m; [exact Hm|]. replace (Rabs w * (K / m) * m) with (Rabs w * K) by (field; lra).
  rewrite (Rmult_comm K). now apply Rmult_le_compat_r.
Qed.

Lemma round_below : forall x K, Rabs x < IZR K + / 2 -> (Z.abs (round x) <= K)%Z.
Proof.
  intros x K H. assert (X : - (IZR K + / 2) < x < IZR K + / 2) by (unfold Rabs in H; destruct (Rcase_abs x); lra).
  unfold round. destruct (Rle_dec 0 x) as [P|P].
  - destruct (base_Int_part (x + / 2)) as [H1 H2]. assert (Int_part (x + / 2) < K + 1)%Z by (apply lt_IZR; rewrite plus_IZR; lra).
    assert (-1 < Int_part (x + / 2))%Z by (apply lt_IZR; lra). lia.
  - destruct (base_Int_part (- x + / 2)) as [H1 H2]. assert (Int_part (- x + / 2) < K + 1)%Z by (apply lt_IZR; rewrite plus_IZR; lra).
    assert (-1 < Int_part (- x + / 2))%Z by (apply lt_IZR; lra). lia.
Qed.
(** The constant: one and all weights integers, or nearly 2^24 - 1 divided by the largest weight. *)
Lemma constant_value : forall ws c, normalising_constant ws = Ok c ->
  (c = 1 /\ (forall w, In w ws -> (exists k, w = IZR k) /\ Rabs w <= IZR (2 ^ 24 - 1))) \/
  (0 < max_abs ws <= IZR (2 ^ 24 - 1) /\ 2 * c < IZR (2 ^ 1024) /\
   Rabs (c - 16777215 / max_abs ws) <= / 9007199254740992 * (16777215 / max_abs ws)).
Proof.
  intros ws c Hc. unfold normalising_constant in Hc. destruct (max_abs_fold ws 0) as (M1 & M2 & _). fold (max_abs ws) in *.
  destruct (Rlt_dec (IZR max_user_edge_weight) (max_abs ws)) as [|HM]; [discriminate|].
  destruct (forallb is_integral ws) eqn:Ei.
  - injection Hc as <-. left. split; [reflexivity|]. intros w Hw. split; [apply is_integral_spec; rewrite forallb_forall in Ei; now apply Ei|].
    specialize (M2 w Hw). change (2 ^ 24 - 1)%Z with max_user_edge_weight. lra.
  - destruct (Rle_dec _ _) as [|HI]; [discriminate|]. injection Hc as <-. right.
    assert (P : 0 < max_abs ws).
    { destruct (Rle_lt_or_eq_dec 0 (max_abs ws) M1) as [L|E]; [exact L|]. exfalso.
      assert (forallb is_integral ws = true); [|congruence]. apply forallb_forall. intros x Hx. apply is_integral_spec. exists 0%Z.
      specialize (M2 x Hx). rewrite <- E in M2. pose proof (Rabs_pos x). destruct (Req_dec x 0) as [->|N]; [reflexivity|]. apply Rabs_pos_lt in N. lra. }
    change (2 ^ 24 - 1)%Z with max_user_edge_weight. split; [lra|]. split; [exact (Rnot_le_lt _ _ HI)|]. change (num_distinct_weights - 1)%Z with 16777215%Z.
    assert (Q : 1 <= 16777215 / max_abs ws).
    { apply Rmult_le_reg_r with (max_abs ws); [exact P|]. replace (16777215 / max_abs ws * max_abs ws) with 16777215 by (field; lra).
      change (IZR max_user_edge_weight) with 16777215 in HM. lra. }
    pose proof (fl_normal (16777215 / max_abs ws)) as E. rewrite (Rabs_pos_eq (16777215 / max_abs ws)) in E by lra. now apply E.
Qed.
Lemma product_bound : forall ws c w, normalising_constant ws = Ok c -> In w ws -> Rabs (w * c) <= 16777215 * (1 + / 9007199254740992) /\ 0 < c.
Proof.
  intros ws c w Hc Hw. destruct (max_abs_fold ws 0) as (_ & M2 & _). fold (max_abs ws) in *. specialize (M2 w Hw).
  destruct (constant_value ws c Hc) as [[-> HI]|((P & L) & _ & E)].
  - rewrite Rmult_1_r. destruct (HI w Hw) as [_ H]. change (2 ^ 24 - 1)%Z with 16777215%Z in H. lra.
  - set (q := 16777215 / max_abs ws) in *. assert (Q : 0 < q) by (apply Rdiv_lt_0_compat; lra). apply Rabs_le_inv in E.
    assert (C : 0 < c <= q * (1 + / 9007199254740992)) by lra. split; [|lra]. rewrite Rabs_mult, (Rabs_pos_eq c) by lra.
    apply Rle_trans with (max_abs ws * (q * (1 + / 9007199254740992))); [apply Rmult_le_compat; try lra; apply Rabs_pos|].
    unfold q. right. field. lra.
Qed.
Lemma product_error : forall ws c w, normalising_constant ws = Ok c -> In w ws -> Rabs (fl (w * c) - w * c) <= / IZR (2 ^ 29).
Proof.
  intros ws c w Hc Hw. destruct (product_bound ws c w Hc Hw) as [B _]. pose proof (fl_error' (w * c)) as E. change (IZR (2 ^ 29)) with 536870912. lra.
Qed.
Lemma discretise_spec : forall ws c, normalising_constant ws = Ok c -> forall w, In w ws ->
  Z.even (discretise c w) = true /\ (Z.abs (discretise c w) <= 2 * (2 ^ 24 - 1))%Z /\
  Rabs (IZR (discretise c w) / 2 - w * c) <= / 2 + / IZR (2 ^ 29) /\ 0 < c.
Proof.
  intros ws c Hc w Hw. destruct (product_bound ws c w Hc Hw) as [B Kc]. pose proof (product_error ws c w Hc Hw) as E.
  unfold discretise. split; [rewrite Z.even_mul; reflexivity|]. split; [|split; [|exact Kc]].
  - assert (K : Rabs (fl (w * c)) < IZR (2 ^ 24 - 1) + / 2).
    { pose proof (Rabs_triang (fl (w * c) - w * c) (w * c)) as T. replace (fl (w * c) - w * c + w * c) with (fl (w * c)) in T by ring.
      change (2 ^ 24 - 1)%Z with 16777215%Z. change (IZR (2 ^ 29)) with 536870912 in E. lra. }
    apply round_below in K. rewrite Z.abs_mul. change (Z.abs 2) with 2%Z. lia.
  - rewrite mult_IZR. replace (2 * IZR (round (fl (w * c))) / 2 - w * c) with (IZR (round (fl (w * c))) - w * c) by field.
    exact (triangle _ _ _ _ _ (round_near (fl (w * c))) E).
Qed.
Lemma normalising_integral : forall ws c, normalising_constant ws = Ok c -> (forall w, In w ws -> exists k, w = IZR k) -> c = 1.
Proof.
  intros ws c Hc Hi. unfold normalising_constant in Hc. destruct (Rlt_dec _ _); [discriminate|].
  assert (E : forallb is_integral ws = true) by (apply forallb_forall; intros x Hx; apply is_integral_spec; auto). rewrite E in Hc. now injection Hc as <-.
Qed.
Lemma discretise_integral : forall ws c, normalising_constant ws = Ok c -> (forall w, In w ws -> exists k, w = IZR k) ->
  forall w k, In w ws -> w = IZR k -> discretise c w = (2 * k)%Z.
Proof.
  intros ws c Hc Hi w k Hw ->. pose proof (normalising_integral ws c Hc Hi) as E1. destruct (product_bound ws c (IZR k) Hc Hw) as [B _].
  rewrite E1 in *. unfold discretise. rewrite Rmult_1_r in *. rewrite fl_IZR, round_IZR; [reflexivity|].
  assert (Z.abs k < 16777217)%Z; [|lia]. apply lt_IZR. rewrite abs_IZR. lra.
Qed.
Lemma normalising_throws : forall ws, normalising_constant ws = Throw <-> exists w, In w ws /\ IZR (2 ^ 24 - 1) < Rabs w.
Proof.
  intros ws. unfold normalising_constant. destruct (max_abs_fold ws 0) as (M1 & M2 & M3). fold (max_abs ws) in *. change (2 ^ 24 - 1)%Z with max_user_edge_weight.
  destruct (Rlt_dec (IZR max_user_edge_weight) (max_abs ws)) as [H|H].
  - split; [|reflexivity]. intros _. destruct M3 as [E|(w & Hw & E)]; [|exists w; split; [exact Hw|lra]]. exfalso. rewrite E in H.
    assert (0 < IZR max_user_edge_weight) by (apply IZR_lt; reflexivity). lra.
  - split; [destruct (forallb is_integral ws); [discriminate|destruct (Rle_dec _ _); discriminate]|]. intros (w & Hw & L). specialize (M2 w Hw). lra.
Qed.
(** The order of total weights of integral selections is unchanged. *)
Fixpoint rsum (l : list R) : R := match l with [] => 0 | w :: l' => w + rsum l' end.
Fixpoint zsum_of (c : R) (l : list R) : Z := match l with [] => 0%Z | w :: l' => (discretise c w + zsum_of c l')%Z end.
Lemma order_unchanged : forall ws c, normalising_constant ws = Ok c -> (forall w, In w ws -> exists k, w = IZR k) ->
  forall F F', (forall w, In w F -> In w ws) -> (forall w, In w F' -> In w ws) -> (rsum F <= rsum F' <-> (zsum_of c F <= zsum_of c F')%Z).
Proof.
  intros ws c Hc Hi.
  assert (X : forall F, (forall w, In w F -> In w ws) -> IZR (zsum_of c F) = 2 * rsum F).
  { induction F as [|w F IH]; intros H; simpl; [lra|]. rewrite plus_IZR, IH by (intros x Hx; apply H; now right).
    destruct (Hi w (H w (or_introl eq_refl))) as [k Ek]. rewrite (discretise_integral ws c Hc Hi w k (H w (or_introl eq_refl)) Ek), mult_IZR. rewrite Ek. lra. }
  intros F F' HF HF'. pose proof (X F HF). pose proof (X F' HF'). split; intros H1; [apply le_IZR; lra|apply IZR_le in H1; lra].
Qed.
(** It is defined unless all weights are minute. *)
Definition visible (ws : list R) : Prop := (forall w, In w ws -> w = 0) \/ exists w, In w ws /\ / IZR (2 ^ 999) <= Rabs w.
Lemma normalising_defined : forall ws, visible ws -> normalising_constant ws <> UB.
Proof.
  intros ws H. unfold normalising_constant. destruct (max_abs_fold ws 0) as (M1 & M2 & M3). fold (max_abs ws) in *.
  destruct (Rlt_dec _ _); [discriminate|]. destruct (forallb is_integral ws) eqn:Ei; [discriminate|]. destruct (Rle_dec _ _) as [HI|]; [|discriminate]. exfalso.
  destruct H as [H|(w & Hw & L)].
  - assert (forallb is_integral ws = true); [|congruence]. apply forallb_forall. intros x Hx. apply is_integral_spec. exists 0%Z. now apply H.
  - specialize (M2 w Hw). change (num_distinct_weights - 1)%Z with 16777215%Z in HI.
    assert (P : 0 < / IZR (2 ^ 999)) by (apply Rinv_0_lt_compat; apply IZR_lt; reflexivity).
    assert (Q : 16777215 / max_abs ws <= 16777215 * IZR (2 ^ 999)).
    { unfold Rdiv. apply Rmult_le_compat_l; [lra|]. rewrite <- (Rinv_inv (IZR (2 ^ 999))). apply Rinv_le_contravar; lra. }
    rewrite <- mult_IZR in Q. apply fl_le in Q. rewrite fl_large in Q.
    assert (2 * IZR (16777215 * 2 ^ 999) < IZR (2 ^ 1024)); [|lra]. rewrite <- mult_IZR. apply IZR_lt. reflexivity.
Qed.
Lemma normalising_undefined : forall w, 0 < Rabs w < / IZR (2 ^ 1001) -> normalising_constant [w] = UB.
Proof.
  intros w H. assert (B : IZR (2 ^ 1) <= IZR (2 ^ 1001)) by (apply IZR_le; discriminate). change (IZR (2 ^ 1)) with 2 in B.
  assert (HB : / IZR (2 ^ 1001) <= / 2) by (apply Rinv_le_contravar; lra).
  assert (M : max_abs [w] = Rabs w) by (unfold max_abs; cbn [fold_left]; destruct (Rlt_dec 0 (Rabs w)); lra).
  unfold normalising_constant. rewrite M. destruct (Rlt_dec _ _) as [L|_]; [change (IZR max_user_edge_weight) with 16777215 in L; lra|].
  assert (N : forallb is_integral [w] = false).
  { cbn [forallb]. destruct (is_integral w) eqn:E; [|reflexivity]. apply is_integral_spec in E as [k ->]. exfalso. rewrite <- abs_IZR in H.
    assert (0 < Z.abs k < 1)%Z; [|lia]. split; apply lt_IZR; lra. }
  rewrite N. destruct (Rle_dec _ _) as [|HI]; [reflexivity|]. exfalso. apply HI. change (num_distinct_weights - 1)%Z with 16777215%Z.
  assert (Q : IZR (16777215 * 2 ^ 1001) <= 16777215 / Rabs w).
  { rewrite mult_IZR. unfold Rdiv. apply Rmult_le_compat_l; [lra|]. rewrite <- (Rinv_inv (IZR (2 ^ 1001))). apply Rinv_le_contravar; lra. }
  apply fl_le in Q. rewrite fl_large in Q. apply Rle_trans with (2 * IZR (16777215 * 2 ^ 1001)); [rewrite <- mult_IZR; apply IZR_le; discriminate|lra].
Qed.
(** Otherwise a selection of [n] edges is off by at most [n]/2 units, and a little more for the rounding of doubles. *)
Lemma error_bound : forall ws c, normalising_constant ws = Ok c -> forall F, (forall w, In w F -> In w ws) ->
  Rabs (IZR (zsum_of c F) / 2 - c * rsum F) <= INR (length F) * (/ 2 + / IZR (2 ^ 29)).
Proof.
  intros ws c Hc. induction F as [|w F IH]; intros H.
  - simpl. rewrite Rmult_0_r. replace (0 / 2 - 0) with 0 by field. rewrite Rabs_R0. lra.
  - cbn [zsum_of rsum length]. rewrite S_INR, plus_IZR. destruct (discretise_spec ws c Hc w (H w (or_introl eq_refl))) as (_ & _ & E & _).
    specialize (IH (fun x Hx => H x (or_intror Hx))). apply Rabs_le. apply Rabs_le_inv in E. apply Rabs_le_inv in IH. split; lra.
Qed.
