(** Proofs about bit conversions. *)
From Coq Require Import ZArith List Bool Lia Sorted.
From Verif Require Import M_Base M_Cyclic M_Bits S_Bits.
Import ListNotations.
Open Scope Z_scope.

Lemma store_ok : forall buf i f, (i < length buf)%nat ->
  exists buf', store buf i f = Ok buf' /\ length buf' = length buf /\
    (forall j, nth j buf' 0 = if (j =? i)%nat then f (nth i buf 0) else nth j buf 0).
Proof.
  induction buf as [|b buf IH]; intros i f Hi; [simpl in Hi; lia|].
  destruct i as [|i]; simpl.
  - eexists; split; [reflexivity|]; split; [reflexivity|]. intros [|j]; reflexivity.
  - destruct (IH i f) as (r & Hr & Hl & Hn); [simpl in Hi; lia|].
    rewrite Hr; simpl. eexists; split; [reflexivity|]; split; [simpl; lia|].
    intros [|j]; simpl; [reflexivity|]. rewrite Hn. reflexivity.
Qed.

Lemma land_pow_shift : forall m k, 0 <= k -> Z.shiftr (Z.land m (Z.shiftl 1 k)) k = Z.b2z (Z.testbit m k).
Proof.
  intros m k Hk. apply Z.bits_inj'. intros n Hn.
  rewrite Z.shiftr_spec, Z.land_spec, Z.shiftl_spec by lia.
  replace (n + k - k) with n by lia.
  destruct (Z.eq_dec n 0) as [->|Hne].
  - rewrite Z.b2z_bit0. simpl. replace (0+k) with k by lia. apply andb_true_r.
  - replace (Z.testbit 1 n) with false.
    2:{ symmetry. change 1 with (2^0). rewrite Z.pow2_bits_eqb by lia. apply Z.eqb_neq; lia. }
    rewrite andb_false_r. destruct (Z.testbit m k); simpl Z.b2z.
    + symmetry. change 1 with (2^0). rewrite Z.pow2_bits_eqb by lia. apply Z.eqb_neq; lia.
    + symmetry. apply Z.bits_0.
Qed.

Lemma land_pow_zero : forall m k, 0 <= k -> (Z.land m (Z.shiftl 1 k) =? 0) = negb (Z.testbit m k).
Proof.
  intros m k Hk. destruct (Z.testbit m k) eqn:E; simpl.
  - apply Z.eqb_neq. intros H. pose proof (land_pow_shift m k Hk) as Hs. rewrite H, E in Hs.
    rewrite Z.shiftr_0_l in Hs. discriminate.
  - apply Z.eqb_eq. apply Z.bits_inj'. intros n Hn.
    rewrite Z.land_spec, Z.bits_0.
    destruct (Z.eq_dec n k) as [->|Hne]; [rewrite E; reflexivity|].
    rewrite Z.shiftl_1_l, Z.pow2_bits_eqb by lia.
    replace (k =? n) with false by (symmetry; apply Z.eqb_neq; lia). apply andb_false_r.
Qed.

Lemma lxor_bit_u8 : forall b c, is_bit b -> u8 (Z.lxor b (Z.b2z c)) = Z.b2z (xorb (b =? 1) c).
Proof. intros b c [-> | ->]; destruct c; reflexivity. Qed.

Lemma fill_loop_ok : forall mask n k buf,
  (forall b, In b buf -> is_bit b) -> (k + n <= length buf)%nat ->
  exists buf', fill_loop mask buf k n = Ok buf' /\ length buf' = length buf /\
    (forall j, nth j buf' 0 =
       if ((k <=? j) && (j <? k + n))%nat
       then Z.b2z (xorb (nth j buf 0 =? 1) (Z.testbit mask (Z.of_nat j))) else nth j buf 0).
Proof.
  induction n as [|n IH]; intros k buf Hb Hl.
  - exists buf. split; [reflexivity|]; split; [reflexivity|].
    intros j. destruct (Nat.leb_spec k j), (Nat.ltb_spec j (k+0)); simpl; try reflexivity; lia.
  - cbn [fill_loop].
    destruct (store_ok buf k (fun b => u8 (Z.lxor b (Z.shiftr (Z.land mask (Z.shiftl 1 (Z.of_nat k))) (Z.of_nat k)))))
      as (b1 & H1 & L1 & N1); [lia|].
    rewrite H1. cbn [bindO].
    rewrite land_pow_shift in N1 by lia.
    assert (Hk : is_bit (nth k buf 0)).
    { apply Hb, nth_In; lia. }
    rewrite lxor_bit_u8 in N1 by exact Hk.
    destruct (IH (S k) b1) as (b2 & H2 & L2 & N2).
    + intros b Hin. destruct (In_nth b1 b 0 Hin) as (j & Hj & <-). rewrite N1.
      destruct (j =? k)%nat; [|apply Hb, nth_In; lia].
      destruct (xorb _ _); [right|left]; reflexivity.
    + lia.
    + exists b2. split; [exact H2|]; split; [lia|].
      intros j. rewrite N2, N1.
      destruct (Nat.leb_spec (S k) j), (Nat.ltb_spec j (S k + n)), (Nat.leb_spec k j), (Nat.ltb_spec j (k + S n));
        simpl; try lia; destruct (Nat.eqb_spec j k); try subst j; try lia; reflexivity.
Qed.

Lemma fill_ok : forall mask n buf,
  (n <= 64)%nat -> (forall b, In b buf -> is_bit b) -> (n <= length buf)%nat ->
  exists buf', fill_bit_vector_from_obs_mask mask buf n = Ok buf' /\ length buf' = length buf /\
    (forall j, nth j buf' 0 =
       if (j <? n)%nat then Z.b2z (xorb (nth j buf 0 =? 1) (Z.testbit mask (Z.of_nat j))) else nth j buf 0).
Proof.
  intros mask n buf Hn Hb Hl. unfold fill_bit_vector_from_obs_mask.
  destruct (Nat.ltb_spec 64 n); [lia|].
  destruct (fill_loop_ok mask n 0 buf Hb) as (b & H1 & H2 & H3); [lia|].
  exists b. split; [exact H1|]; split; [exact H2|]. exact H3.
Qed.

Lemma fill_throws : forall mask n buf, (64 < n)%nat -> fill_bit_vector_from_obs_mask mask buf n = Throw.
Proof. intros. unfold fill_bit_vector_from_obs_mask. destruct (Nat.ltb_spec 64 n); [reflexivity|lia]. Qed.

Lemma int32_small : forall x, 0 <= x < 2 ^ 31 -> int32_of x = x.
Proof. intros x H. unfold int32_of. rewrite Z.mod_small by lia. lia. Qed.

Lemma testbit_b2z_shift : forall c i j, 0 <= i -> 0 <= j ->
  Z.testbit (Z.shiftl (Z.b2z c) i) j = c && (i =? j).
Proof.
  intros c i j Hi Hj. destruct c; simpl Z.b2z.
  - rewrite Z.shiftl_1_l, Z.pow2_bits_eqb by lia. reflexivity.
  - rewrite Z.shiftl_0_l, Z.bits_0. reflexivity.
Qed.

Lemma bit_b2z : forall b, is_bit b -> b = Z.b2z (b =? 1).
Proof. intros b [-> | ->]; reflexivity. Qed.

Lemma obs_mask_loop_ok : forall bits i m,
  (forall b, In b bits -> is_bit b) -> (i + length bits <= 31)%nat ->
  exists m', obs_mask_loop bits i m = Ok m' /\
    forall j, (0 <= j)%nat -> Z.testbit m' (Z.of_nat j) =
      xorb (Z.testbit m (Z.of_nat j)) ((i <=? j)%nat && (nth (j - i) bits 0 =? 1)).
Proof.
  induction bits as [|b bits IH]; intros i m Hb Hl.
  - exists m. split; [reflexivity|]. intros j _.
    replace (nth (j - i) [] 0) with 0 by (destruct (j-i)%nat; reflexivity).
    rewrite andb_false_r, xorb_false_r. reflexivity.
  - cbn [obs_mask_loop]. unfold shift_as_int. simpl in Hl.
    destruct (Nat.leb_spec 32 i); [lia|]. cbn [bindO].
    assert (Hbb : is_bit b) by (apply Hb; left; reflexivity).
    assert (Hsz : 0 <= Z.shiftl b (Z.of_nat i) < 2 ^ 31).
    { rewrite Z.shiftl_mul_pow2 by lia.
      assert (0 < 2 ^ Z.of_nat i) by (apply Z.pow_pos_nonneg; lia).
      assert (2 ^ Z.of_nat i <= 2 ^ 30) by (apply Z.pow_le_mono_r; lia).
      destruct Hbb as [-> | ->]; lia. }
    rewrite int32_small by exact Hsz.
    rewrite Z.mod_small by lia.
    destruct (IH (S i) (Z.lxor m (Z.shiftl b (Z.of_nat i)))) as (m' & H1 & H2).
    + intros x Hx; apply Hb; right; exact Hx.
    + lia.
    + exists m'. split; [exact H1|]. intros j Hj. rewrite H2 by lia.
      rewrite Z.lxor_spec. rewrite (bit_b2z b Hbb) at 1. rewrite testbit_b2z_shift by lia.
      destruct (Nat.leb_spec (S i) j).
      * destruct (Nat.leb_spec i j); [|lia].
        replace (j - i)%nat with (S (j - S i)) by lia. cbn [nth].
        replace (Z.of_nat i =? Z.of_nat j) with false by (symmetry; apply Z.eqb_neq; lia).
        rewrite andb_false_r, xorb_false_r. reflexivity.
      * destruct (Nat.leb_spec i j).
        -- replace j with i by lia. replace (i - i)%nat with 0%nat by lia. cbn [nth].
           rewrite Z.eqb_refl, andb_true_r. simpl. rewrite xorb_false_r. reflexivity.
        -- replace (Z.of_nat i =? Z.of_nat j) with false by (symmetry; apply Z.eqb_neq; lia).
           rewrite andb_false_r. simpl. rewrite !xorb_false_r. reflexivity.
Qed.

Lemma obs_mask_loop_nonneg : forall bits i m m', 0 <= m -> obs_mask_loop bits i m = Ok m' -> 0 <= m'.
Proof.
  induction bits as [|b bits IH]; intros i m m' Hm H; simpl in H.
  - injection H as <-. exact Hm.
  - unfold shift_as_int in H. destruct (32 <=? i)%nat; [discriminate|]. cbn [bindO] in H.
    eapply IH; [|exact H]. apply Z.lxor_nonneg.
    pose proof (Z.mod_pos_bound (int32_of (Z.shiftl b (Z.of_nat i))) (2^64)). lia.
Qed.

Lemma bit_vector_to_obs_mask_ok : forall bits,
  (forall b, In b bits -> is_bit b) -> (length bits <= 31)%nat ->
  exists m, bit_vector_to_obs_mask bits = Ok m /\ 0 <= m /\
    forall j, Z.testbit m (Z.of_nat j) = (nth j bits 0 =? 1).
Proof.
  intros bits Hb Hl. unfold bit_vector_to_obs_mask.
  destruct (Nat.ltb_spec 64 (length bits)); [lia|].
  destruct (obs_mask_loop_ok bits 0 0 Hb) as (m & H1 & H2); [lia|].
  exists m. split; [exact H1|]. split; [eapply obs_mask_loop_nonneg; [|exact H1]; lia|].
  intros j. rewrite H2 by lia. rewrite Z.bits_0. simpl. rewrite Nat.sub_0_r.
  destruct (nth j bits 0 =? 1); reflexivity.
Qed.

Lemma fill_then_collect : forall m n, 0 <= m < 2 ^ Z.of_nat n -> (n <= 31)%nat ->
  exists bits, fill_bit_vector_from_obs_mask m (repeat 0 n) n = Ok bits /\ bit_vector_to_obs_mask bits = Ok m.
Proof.
  intros m n Hm Hn.
  destruct (fill_ok m n (repeat 0 n)) as (bits & H1 & H2 & H3); [lia| | rewrite repeat_length; lia |].
  { intros b Hb. apply repeat_spec in Hb. left; exact Hb. }
  rewrite repeat_length in H2.
  assert (H3' : forall j, nth j bits 0 = if (j <? n)%nat then Z.b2z (Z.testbit m (Z.of_nat j)) else 0).
  { intros j. rewrite H3. replace (nth j (repeat 0 n) 0) with 0.
    - simpl. destruct (j <? n)%nat; [|reflexivity]. destruct (Z.testbit _ _); reflexivity.
    - destruct (Nat.lt_ge_cases j n).
      + symmetry. apply (repeat_spec n). apply nth_In. rewrite repeat_length. exact H.
      + rewrite nth_overflow; [reflexivity|rewrite repeat_length; exact H]. }
  exists bits. split; [exact H1|].
  destruct (bit_vector_to_obs_mask_ok bits) as (m' & G1 & G2 & G3).
  - intros b Hin. destruct (In_nth _ _ 0 Hin) as (j & _ & <-). rewrite H3'.
    destruct (j <? n)%nat; [|left; reflexivity]. destruct (Z.testbit _ _); [right|left]; reflexivity.
  - lia.
  - rewrite G1. f_equal. apply Z.bits_inj'. intros k Hk.
    rewrite <- (Z2Nat.id k) by exact Hk. rewrite G3, H3'.
    destruct (Nat.ltb_spec (Z.to_nat k) n).
    + destruct (Z.testbit _ _); reflexivity.
    + simpl. symmetry.
      destruct (Z.eq_dec m 0) as [->|Hm0]; [apply Z.bits_0|].
      apply Z.bits_above_log2; [lia|]. rewrite Z2Nat.id by lia.
      apply Z.log2_lt_pow2; [lia|].
      apply Z.lt_le_trans with (2 ^ Z.of_nat n); [lia|]. apply Z.pow_le_mono_r; lia.
Qed.

(** Unpacking *)

Lemma SS_app : forall (l1 l2 : list nat), StronglySorted lt l1 -> StronglySorted lt l2 ->
  (forall x y, In x l1 -> In y l2 -> (x < y)%nat) -> StronglySorted lt (l1 ++ l2).
Proof.
  induction l1 as [|a l1 IH]; intros l2 H1 H2 H; [exact H2|].
  simpl. apply StronglySorted_inv in H1. destruct H1 as [H1 Ha].
  constructor.
  - apply IH; auto. intros x y Hx Hy; apply H; [right; exact Hx|exact Hy].
  - apply Forall_app; split; [exact Ha|]. apply Forall_forall. intros y Hy. apply H; [left; reflexivity|exact Hy].
Qed.

Lemma SS_filter_flat : forall (p : nat -> bool) (g : nat -> nat), (forall a b, (a < b)%nat -> (g a < g b)%nat) ->
  forall n s, StronglySorted lt (flat_map (fun r => if p r then [] else [g r]) (seq s n)).
Proof.
  intros p g Hg. induction n as [|n IH]; intros s; [constructor|].
  cbn [seq flat_map]. apply SS_app; [destruct (p s); repeat constructor|apply IH|].
  intros x y Hx Hy. destruct (p s); [destruct Hx|]. destruct Hx as [<-|[]].
  apply in_flat_map in Hy. destruct Hy as (r & Hr & Hy). apply in_seq in Hr.
  destruct (p r); [destruct Hy|]. destruct Hy as [<-|[]]. apply Hg. lia.
Qed.

Lemma byte_events_in : forall j b i, In i (byte_events j b) <->
  Nat.div i 8 = j /\ Z.testbit b (Z.of_nat (Nat.modulo i 8)) = true.
Proof.
  intros j b i. unfold byte_events. rewrite in_flat_map. split.
  - intros (r & Hr & Hi). apply in_seq in Hr. rewrite land_pow_zero in Hi by lia.
    destruct (Z.testbit b (Z.of_nat r)) eqn:E; cbn [negb] in Hi; [|destruct Hi].
    destruct Hi as [<-|[]].
    assert (Hd : ((8 * j + r) / 8 = j)%nat) by (symmetry; apply (Nat.div_unique _ 8 j r); lia).
    assert (Hm : ((8 * j + r) mod 8 = r)%nat) by (symmetry; apply (Nat.mod_unique _ 8 j r); lia).
    rewrite Hd, Hm. split; [reflexivity|exact E].
  - intros [H1 H2]. exists (Nat.modulo i 8).
    pose proof (Nat.mod_upper_bound i 8 ltac:(discriminate)). pose proof (Nat.div_mod i 8 ltac:(discriminate)).
    split; [apply in_seq; lia|].
    rewrite land_pow_zero by lia. rewrite H2. cbn [negb In]. left. lia.
Qed.

Lemma packed_events_in : forall bytes j i, In i (packed_events j bytes) <->
  (j <= Nat.div i 8 < j + length bytes)%nat /\
  Z.testbit (nth (Nat.div i 8 - j) bytes 0) (Z.of_nat (Nat.modulo i 8)) = true.
Proof.
  induction bytes as [|b bytes IH]; intros j i; cbn [packed_events length].
  - split; [intros []|intros [H _]; lia].
  - rewrite in_app_iff, byte_events_in, IH.
    split.
    + intros [[H1 H2]|[H1 H2]].
      * split; [lia|]. replace (i / 8 - j)%nat with 0%nat by lia. exact H2.
      * split; [lia|]. replace (i / 8 - j)%nat with (S (i / 8 - S j)) by lia. exact H2.
    + intros [H1 H2]. destruct (Nat.eq_dec (i / 8) j) as [E|E].
      * left. split; [exact E|]. replace (i / 8 - j)%nat with 0%nat in H2 by lia. exact H2.
      * right. split; [lia|]. replace (i / 8 - j)%nat with (S (i / 8 - S j)) in H2 by lia. exact H2.
Qed.

Lemma packed_events_sorted : forall bytes j, StronglySorted lt (packed_events j bytes).
Proof.
  induction bytes as [|b bytes IH]; intros j; cbn [packed_events]; [constructor|].
  apply SS_app; [|apply IH|].
  - unfold byte_events. apply (SS_filter_flat _ (fun r => (8 * j + r)%nat)). intros; lia.
  - intros x y Hx Hy. apply byte_events_in in Hx. apply packed_events_in in Hy.
    destruct Hx as [Hx _], Hy as [Hy _].
    pose proof (Nat.div_mod x 8 ltac:(discriminate)). pose proof (Nat.div_mod y 8 ltac:(discriminate)).
    pose proof (Nat.mod_upper_bound x 8 ltac:(discriminate)). lia.
Qed.

Lemma nonzero_positions_in : forall l j i, In i (nonzero_positions j l) <->
  (j <= i)%nat /\ nth (i - j) l 0 <> 0.
Proof.
  induction l as [|b l IH]; intros j i; cbn [nonzero_positions].
  - split; [intros []|]. intros [_ H]. destruct (i - j)%nat; contradiction.
  - rewrite in_app_iff, IH. split.
    + intros [H|[H1 H2]].
      * destruct (Z.eqb_spec b 0); [destruct H|]. destruct H as [<-|[]].
        split; [lia|]. rewrite Nat.sub_diag. exact n.
      * split; [lia|]. replace (i - j)%nat with (S (i - S j)) by lia. exact H2.
    + intros [H1 H2]. destruct (Nat.eq_dec i j) as [->|E].
      * left. rewrite Nat.sub_diag in H2. cbn [nth] in H2. destruct (Z.eqb_spec b 0); [contradiction|left; reflexivity].
      * right. split; [lia|]. replace (i - j)%nat with (S (i - S j)) in H2 by lia. exact H2.
Qed.

Lemma nonzero_positions_sorted : forall l j, StronglySorted lt (nonzero_positions j l).
Proof.
  induction l as [|b l IH]; intros j; cbn [nonzero_positions]; [constructor|].
  apply SS_app; [destruct (b =? 0); repeat constructor|apply IH|].
  intros x y Hx Hy. destruct (b =? 0); [destruct Hx|]. destruct Hx as [<-|[]].
  apply nonzero_positions_in in Hy. lia.
Qed.

Lemma SS_unique : forall l1 l2, StronglySorted lt l1 -> StronglySorted lt l2 ->
  (forall x, In x l1 <-> In x l2) -> l1 = l2.
Proof.
  induction l1 as [|a l1 IH]; intros [|b l2] H1 H2 H.
  - reflexivity.
  - exfalso. apply (H b). left; reflexivity.
  - exfalso. apply (H a). left; reflexivity.
  - apply StronglySorted_inv in H1, H2. destruct H1 as [S1 F1], H2 as [S2 F2].
    rewrite Forall_forall in F1, F2.
    assert (a = b).
    { destruct (proj1 (H a) (or_introl eq_refl)) as [E|E]; [congruence|].
      destruct (proj2 (H b) (or_introl eq_refl)) as [E'|E']; [congruence|].
      specialize (F1 _ E'). specialize (F2 _ E). lia. }
    subst b. f_equal. apply IH; auto.
    intros x. split; intros Hx.
    + destruct (proj1 (H x) (or_intror Hx)) as [->|E]; [|exact E].
      specialize (F1 _ Hx). lia.
    + destruct (proj2 (H x) (or_intror Hx)) as [->|E]; [|exact E].
      specialize (F2 _ Hx). lia.
Qed.

Lemma packed_bit_in : forall bytes i, In i (packed_events 0 bytes) <-> packed_bit bytes i = true.
Proof.
  intros. rewrite packed_events_in. unfold packed_bit. rewrite Nat.sub_0_r. split; [tauto|].
  intros H. split; [|exact H]. split; [lia|].
  destruct (Nat.lt_ge_cases (i/8) (length bytes)) as [L|L]; [lia|].
  rewrite nth_overflow in H by exact L. rewrite Z.bits_0 in H. discriminate.
Qed.

Lemma packed_lists : forall bytes, lists_exactly (packed_events 0 bytes) (fun i => packed_bit bytes i = true).
Proof. intros. split; [apply packed_events_sorted|intros; apply packed_bit_in]. Qed.

Lemma unpacked_lists : forall l, lists_exactly (nonzero_positions 0 l) (fun i => nth i l 0 <> 0).
Proof.
  intros. split; [apply nonzero_positions_sorted|]. intros i. rewrite nonzero_positions_in, Nat.sub_0_r.
  split; [tauto|]. intros; split; [lia|assumption].
Qed.

Lemma packed_eq_unpacked : forall bytes l, packs bytes l -> packed_events 0 bytes = nonzero_positions 0 l.
Proof.
  intros bytes l H. apply SS_unique; [apply packed_events_sorted|apply nonzero_positions_sorted|].
  intros i. rewrite packed_bit_in, H, nonzero_positions_in, Nat.sub_0_r.
  destruct (Z.eqb_spec (nth i l 0) 0); simpl; split; intros; try discriminate; try tauto.
  split; [lia|assumption].
Qed.

(** Packing *)

Lemma testbit_above8 : forall b k, 0 <= b < 256 -> 8 <= k -> Z.testbit b k = false.
Proof.
  intros b k Hb Hk. destruct (Z.eq_dec b 0) as [->|]; [apply Z.bits_0|].
  apply Z.bits_above_log2; [lia|]. assert (Z.log2 b < 8); [|lia]. apply Z.log2_lt_pow2; lia.
Qed.

Lemma u8_lxor_bit : forall b p r k, 0 <= b < 256 -> is_bit p -> 0 <= r < 8 -> 0 <= k ->
  Z.testbit (u8 (Z.lxor b (Z.shiftl p r))) k = xorb (Z.testbit b k) ((p =? 1) && (r =? k)).
Proof.
  intros b p r k Hb Hp Hr Hk. unfold u8. change 256 with (2 ^ 8).
  destruct (Z.lt_ge_cases k 8).
  - rewrite Z.mod_pow2_bits_low by lia. rewrite Z.lxor_spec.
    rewrite (bit_b2z p Hp) at 1. rewrite testbit_b2z_shift by lia. reflexivity.
  - rewrite Z.mod_pow2_bits_high by lia. rewrite testbit_above8 by lia.
    replace (r =? k) with false by (symmetry; apply Z.eqb_neq; lia). rewrite andb_false_r. reflexivity.
Qed.

Lemma pack_loop_ok : forall preds k row,
  (forall p, In p preds -> is_bit p) -> bytes_ok row -> (k + length preds <= 8 * length row)%nat ->
  exists row', pack_loop k preds row = Ok row' /\ length row' = length row /\ bytes_ok row' /\
    forall i, packed_bit row' i = xorb (packed_bit row i) ((k <=? i)%nat && (nth (i - k) preds 0 =? 1)).
Proof.
  induction preds as [|p preds IH]; intros k row Hp Hr Hl.
  - exists row. split; [reflexivity|]; split; [reflexivity|]; split; [exact Hr|].
    intros i. replace (nth (i - k) [] 0) with 0 by (destruct (i-k)%nat; reflexivity).
    rewrite andb_false_r, xorb_false_r. reflexivity.
  - cbn [pack_loop]. simpl in Hl.
    pose proof (Nat.div_mod k 8 ltac:(discriminate)). pose proof (Nat.mod_upper_bound k 8 ltac:(discriminate)).
    destruct (store_ok row (k / 8) (fun b => u8 (Z.lxor b (Z.shiftl p (Z.of_nat (k mod 8)))))) as (r1 & E1 & L1 & N1); [lia|].
    rewrite E1. cbn [bindO].
    assert (Hpb : is_bit p) by (apply Hp; left; reflexivity).
    destruct (IH (S k) r1) as (r2 & E2 & L2 & B2 & N2).
    + intros; apply Hp; right; assumption.
    + intros b Hin. destruct (In_nth _ _ 0 Hin) as (j & Hj & <-). rewrite N1.
      destruct (j =? k/8)%nat; [|apply Hr, nth_In; lia]. unfold u8. apply Z.mod_pos_bound. lia.
    + lia.
    + exists r2. split; [exact E2|]; split; [lia|]; split; [exact B2|].
      intros i. rewrite N2.
      assert (Hbit : packed_bit r1 i = xorb (packed_bit row i) ((p =? 1) && (k =? i)%nat)).
      { unfold packed_bit. rewrite N1.
        pose proof (Nat.div_mod i 8 ltac:(discriminate)). pose proof (Nat.mod_upper_bound i 8 ltac:(discriminate)).
        destruct (Nat.eqb_spec (i/8) (k/8)) as [E|E].
        - rewrite u8_lxor_bit; [|apply Hr, nth_In; lia|exact Hpb|lia|lia].
          rewrite E. f_equal. f_equal.
          destruct (Z.eqb_spec (Z.of_nat (k mod 8)) (Z.of_nat (i mod 8))); destruct (Nat.eqb_spec k i); try reflexivity; lia.
        - destruct (Nat.eqb_spec k i); [subst; congruence|]. rewrite andb_false_r, xorb_false_r. reflexivity. }
      rewrite Hbit.
      destruct (Nat.leb_spec (S k) i).
      * destruct (Nat.leb_spec k i); [|lia]. destruct (Nat.eqb_spec k i); [lia|].
        rewrite andb_false_r, xorb_false_r. replace (i - k)%nat with (S (i - S k)) by lia. reflexivity.
      * destruct (Nat.leb_spec k i).
        -- replace i with k by lia. rewrite Nat.eqb_refl, Nat.sub_diag. cbn [nth].
           rewrite andb_true_r. simpl. rewrite xorb_false_r. reflexivity.
        -- destruct (Nat.eqb_spec k i); [lia|]. rewrite andb_false_r. simpl. rewrite !xorb_false_r. reflexivity.
Qed.

Lemma packed_bit_zero : forall n i, packed_bit (repeat 0 n) i = false.
Proof.
  intros. unfold packed_bit. replace (nth (i/8) (repeat 0 n) 0) with 0; [apply Z.bits_0|].
  destruct (Nat.lt_ge_cases (i/8) n).
  - symmetry. apply (repeat_spec n). apply nth_In. rewrite repeat_length. assumption.
  - rewrite nth_overflow; [reflexivity|rewrite repeat_length; assumption].
Qed.

Lemma pack_ok : forall preds, (forall p, In p preds -> is_bit p) ->
  exists row, pack_loop 0 preds (repeat 0 (packed_len (length preds))) = Ok row /\
    length row = packed_len (length preds) /\ bytes_ok row /\ packs row preds.
Proof.
  intros preds Hp.
  destruct (pack_loop_ok preds 0 (repeat 0 (packed_len (length preds)))) as (row & E & L & B & N).
  - exact Hp.
  - intros b Hb. apply repeat_spec in Hb. lia.
  - rewrite repeat_length. unfold packed_len.
    pose proof (Nat.div_mod (length preds + 7) 8 ltac:(discriminate)). pose proof (Nat.mod_upper_bound (length preds + 7) 8 ltac:(discriminate)). lia.
  - rewrite repeat_length in L. exists row. split; [exact E|]; split; [exact L|]; split; [exact B|].
    intros i. rewrite N, packed_bit_zero, Nat.sub_0_r. simpl.
    destruct (Nat.lt_ge_cases i (length preds)) as [H|H].
    + destruct (Hp (nth i preds 0) (nth_In _ _ H)) as [-> | ->]; reflexivity.
    + rewrite nth_overflow by exact H. reflexivity.
Qed.

(** Batches *)
Section Batch.
Variables S W : Type.
Variable dec : S -> list nat -> list Z -> outcome (S * list Z * W).
Variable idle : S -> Prop.
Variable result : list nat -> list Z * W.
Variable num_obs : nat.
Hypothesis dec_result : forall s ev, idle s ->
  exists s', dec s ev (repeat 0 num_obs) = Ok (s', fst (result ev), snd (result ev)) /\ idle s'.
Hypothesis result_bits : forall ev, length (fst (result ev)) = num_obs /\ forall p, In p (fst (result ev)) -> is_bit p.

Lemma batch_ok : forall (ps pp : bool) shots s, idle s ->
  exists s' rows, decode_batch S dec num_obs ps pp s shots = Ok (s', rows) /\ idle s' /\
    Forall2 (fun shot (r : list Z * W) =>
      let ev := if ps then packed_events 0 shot else nonzero_positions 0 shot in
      snd r = snd (result ev) /\
      if pp then length (fst r) = packed_len num_obs /\ bytes_ok (fst r) /\ packs (fst r) (fst (result ev))
      else fst r = fst (result ev)) shots rows.
Proof.
  intros ps pp. induction shots as [|shot shots IH]; intros s Hs.
  - exists s, []. split; [reflexivity|]; split; [exact Hs|constructor].
  - cbn [decode_batch]. unfold decode_one.
    set (ev := if ps then packed_events 0 shot else nonzero_positions 0 shot).
    destruct (dec_result s ev Hs) as (s1 & E1 & I1).
    destruct (IH s1 I1) as (s2 & rows & E2 & I2 & F2).
    destruct (result_bits ev) as [Lr Br].
    destruct pp.
    + rewrite E1. cbn [bindO].
      destruct (pack_ok (fst (result ev)) Br) as (row & Ep & Lp & Bp & Pp).
      rewrite Lr in Ep, Lp. rewrite Ep. cbn [bindO]. rewrite E2. cbn [bindO].
      exists s2, ((row, snd (result ev)) :: rows). split; [reflexivity|]; split; [exact I2|].
      constructor; [|exact F2]. cbn [fst snd]. fold ev. auto.
    + rewrite E1. cbn [bindO]. rewrite E2. cbn [bindO].
      exists s2, ((fst (result ev), snd (result ev)) :: rows). split; [reflexivity|]; split; [exact I2|].
      constructor; [|exact F2]. cbn [fst snd]. fold ev. auto.
Qed.
End Batch.

(** Syndrome arrays *)
Lemma syn1_ok : forall nd nb z,
  (nd <= length z <= nd + nb)%nat ->
  exists ev, syndrome_to_detection_events nd nb (Syn1 z) = Ok ev /\
    lists_exactly ev (fun i => nth i z 0 <> 0).
Proof.
  intros nd nb z H. simpl.
  destruct (Nat.leb_spec nd (length z)); [|lia].
  destruct (Nat.leb_spec (length z) (nd + nb)); [|lia]. simpl.
  eexists; split; [reflexivity|apply unpacked_lists].
Qed.

Lemma column_nth : forall rows t c, nth c (column t rows) 0 = nth t (nth c rows []) 0.
Proof.
  intros. unfold column.
  replace 0 with ((fun row : list Z => nth t row 0) []) at 1.
  - rewrite (map_nth (fun row : list Z => nth t row 0)). reflexivity.
  - destruct t; reflexivity.
Qed.

Lemma SS_map_add : forall a l, StronglySorted lt l -> StronglySorted lt (map (fun c => (a + c)%nat) l).
Proof.
  induction l as [|x l IH]; intros H; [constructor|].
  apply StronglySorted_inv in H. destruct H as [H1 H2]. simpl. constructor; [apply IH; exact H1|].
  apply Forall_forall. intros y Hy. apply in_map_iff in Hy. destruct Hy as (z & <- & Hz).
  rewrite Forall_forall in H2. specialize (H2 z Hz). lia.
Qed.

Lemma syn2_ok : forall nd nb ncols rows,
  (length rows * ncols)%nat = nd ->
  exists ev, syndrome_to_detection_events nd nb (Syn2 ncols rows) = Ok ev /\
    lists_exactly ev (fun i => exists t c, (t < ncols /\ c < length rows /\ i = t * length rows + c)%nat /\
                                 nth t (nth c rows []) 0 <> 0).
Proof.
  intros nd nb ncols rows H. cbn [syndrome_to_detection_events].
  rewrite (proj2 (Nat.eqb_eq _ _) H).
  eexists; split; [reflexivity|].
  assert (Hin : forall s n i,
     In i (flat_map (fun t => map (fun c => (t * length rows + c)%nat) (nonzero_positions 0 (column t rows))) (seq s n)) <->
     exists t c, (s <= t < s + n /\ c < length rows /\ i = t * length rows + c)%nat /\ nth t (nth c rows []) 0 <> 0).
  { intros s n i. rewrite in_flat_map. split.
    - intros (t & Ht & Hi). apply in_seq in Ht. apply in_map_iff in Hi. destruct Hi as (c & <- & Hc).
      apply nonzero_positions_in in Hc. destruct Hc as [_ Hc]. rewrite Nat.sub_0_r, column_nth in Hc.
      exists t, c. split; [|exact Hc]. split; [exact Ht|]. split; [|reflexivity].
      destruct (Nat.lt_ge_cases c (length rows)) as [L|L]; [exact L|].
      rewrite (nth_overflow rows) in Hc by exact L. destruct t; contradiction.
    - intros (t & c & (Ht & Hc & ->) & Hn). exists t. split; [apply in_seq; exact Ht|].
      apply in_map_iff. exists c. split; [reflexivity|]. apply nonzero_positions_in.
      rewrite Nat.sub_0_r, column_nth. split; [lia|exact Hn]. }
  split.
  - assert (HS : forall n s, StronglySorted lt
      (flat_map (fun t => map (fun c => (t * length rows + c)%nat) (nonzero_positions 0 (column t rows))) (seq s n)));
      [|apply HS].
    induction n as [|n IH]; intros s; [constructor|].
    cbn [seq flat_map]. apply SS_app; [apply SS_map_add, nonzero_positions_sorted|apply IH|].
    intros x y Hx Hy. apply Hin in Hy. destruct Hy as (t & c & (Ht & Hc & ->) & _).
    apply in_map_iff in Hx. destruct Hx as (c' & <- & Hc').
    apply nonzero_positions_in in Hc'. destruct Hc' as [_ Hc']. rewrite Nat.sub_0_r in Hc'.
    assert (c' < length rows)%nat.
    { destruct (Nat.lt_ge_cases c' (length rows)) as [L|L]; [exact L|].
      rewrite nth_overflow in Hc'; [contradiction|]. unfold column. rewrite map_length. exact L. }
    nia.
  - intros i. rewrite Hin. split; intros (t & c & (Ht & Hc & Hi) & Hn); exists t, c; (split; [|exact Hn]); repeat split; try lia.
Qed.

Lemma syn_reject1 : forall nd nb z, ~ (nd <= length z <= nd + nb)%nat ->
  syndrome_to_detection_events nd nb (Syn1 z) = Throw.
Proof.
  intros nd nb z H. simpl.
  destruct (Nat.leb_spec nd (length z)); [|reflexivity].
  destruct (Nat.leb_spec (length z) (nd + nb)); [lia|reflexivity].
Qed.

Lemma syn_reject2 : forall nd nb ncols rows, (length rows * ncols)%nat <> nd ->
  syndrome_to_detection_events nd nb (Syn2 ncols rows) = Throw.
Proof. intros. cbn [syndrome_to_detection_events]. rewrite (proj2 (Nat.eqb_neq _ _) H). reflexivity. Qed.
