From Coq Require Import ZArith List Permutation Sorted Lia Bool.
From Verif Require Import M_Base M_Cyclic P_Cyclic M_RadixHeap S_RadixHeap.
Import ListNotations.
Open Scope Z_scope.

Lemma upd_eq {A} (f : nat -> A) k v : upd f k v k = v.
Proof. unfold upd. now rewrite Nat.eqb_refl. Qed.
Lemma upd_neq {A} (f : nat -> A) k v i : i <> k -> upd f k v i = f i.
Proof. intros H. unfold upd. destruct (Nat.eqb_spec i k); congruence. Qed.

Section Bits.
Variable w : Z.
Hypothesis Hw : 1 <= w.

Lemma div_window n t j : 0 <= j <= w - 1 -> n <= t < n + 2 ^ (w - 1) ->
  0 <= t / 2 ^ j - n / 2 ^ j <= 2 ^ (w - 1 - j).
Proof.
  intros Hj Ht.
  assert (P : 0 < 2 ^ j) by (apply Z.pow_pos_nonneg; lia).
  assert (E : 2 ^ (w - 1) = 2 ^ (w - 1 - j) * 2 ^ j).
  { rewrite <- Z.pow_add_r by lia. f_equal. lia. }
  split.
  - assert (n / 2 ^ j <= t / 2 ^ j) by (apply Z.div_le_mono; lia). lia.
  - assert (t / 2 ^ j <= (n + 2 ^ (w - 1 - j) * 2 ^ j) / 2 ^ j) by (apply Z.div_le_mono; lia).
    rewrite Z.div_add in H by lia. lia.
Qed.

Lemma testbit_wrap t i : 0 <= i < w -> Z.testbit (wrap w t) i = Z.testbit t i.
Proof. intros. unfold wrap. apply Z.mod_pow2_bits_low. lia. Qed.

Lemma high_bits_eq n t j : 0 <= j < w -> n <= t < n + 2 ^ (w - 1) ->
  (forall i, j <= i < w -> Z.testbit t i = Z.testbit n i) -> t / 2 ^ j = n / 2 ^ j.
Proof.
  intros Hj Ht Hb.
  pose proof (div_window n t j ltac:(lia) Ht) as D.
  assert (E : (t / 2 ^ j) mod 2 ^ (w - j) = (n / 2 ^ j) mod 2 ^ (w - j)).
  { rewrite <- !Z.shiftr_div_pow2 by lia. apply Z.bits_inj'. intros i Hi.
    destruct (Z.ltb_spec i (w - j)).
    - rewrite !Z.mod_pow2_bits_low by lia. rewrite !Z.shiftr_spec by lia. apply Hb. lia.
    - rewrite !Z.mod_pow2_bits_high by lia. reflexivity. }
  assert (P : 2 ^ (w - j) = 2 * 2 ^ (w - 1 - j)).
  { replace (w - j) with (Z.succ (w - 1 - j)) by lia. rewrite Z.pow_succ_r by lia. reflexivity. }
  assert (P' : 0 < 2 ^ (w - 1 - j)) by (apply Z.pow_pos_nonneg; lia).
  rewrite !Z.mod_eq in E by lia.
  set (a := t / 2 ^ j) in *. set (b := n / 2 ^ j) in *.
  set (qa := a / 2 ^ (w - j)) in *. set (qb := b / 2 ^ (w - j)) in *.
  assert (a - b = 2 ^ (w - j) * (qa - qb)) by lia.
  rewrite P in H. assert (qa - qb = 0) by nia. nia.
Qed.

Lemma bucket_char n t : n <= t < n + 2 ^ (w - 1) ->
  (bucket_for w n (wrap w t) = 0%nat /\ t = n) \/
  (exists k, 0 <= k < w /\ bucket_for w n (wrap w t) = S (Z.to_nat k) /\
     t / 2 ^ k = n / 2 ^ k + 1 /\ forall j, k < j < w -> t / 2 ^ j = n / 2 ^ j).
Proof.
  intros Ht. unfold bucket_for, bit_width.
  destruct (pow_split w Hw) as [E P].
  set (x := Z.lxor (wrap w t) (wrap w n)).
  destruct (Z.eqb_spec x 0) as [Ex|Ex].
  - left. split; [reflexivity|]. apply Z.lxor_eq in Ex. apply wrap_eq_iff in Ex; lia.
  - right. exists (Z.log2 x).
    pose proof (wrap_range w t Hw). pose proof (wrap_range w n Hw).
    assert (Hx0 : 0 <= x) by (apply Z.lxor_nonneg; lia).
    assert (Hxhi : forall i, w <= i -> Z.testbit x i = false).
    { intros i Hi. unfold x. rewrite Z.lxor_spec. unfold wrap.
      rewrite !Z.mod_pow2_bits_high by lia. reflexivity. }
    assert (Hlog : 0 <= Z.log2 x < w).
    { split; [apply Z.log2_nonneg|].
      destruct (Z.ltb_spec (Z.log2 x) w); [assumption|].
      specialize (Hxhi _ H1). rewrite Z.bit_log2 in Hxhi by lia. discriminate. }
    set (k := Z.log2 x) in *.
    assert (Hhi : forall j, k < j < w -> t / 2 ^ j = n / 2 ^ j).
    { intros j Hj. apply high_bits_eq; [lia|assumption|]. intros i Hi.
      assert (Z.testbit x i = false) by (apply Z.bits_above_log2; lia).
      unfold x in H1. rewrite Z.lxor_spec, !testbit_wrap in H1 by lia.
      destruct (Z.testbit t i), (Z.testbit n i); try reflexivity; discriminate. }
    repeat split; try lia; [|exact Hhi].
    assert (Hb : Z.testbit t k <> Z.testbit n k).
    { assert (Z.testbit x k = true) by (apply Z.bit_log2; lia).
      unfold x in H1. rewrite Z.lxor_spec, !testbit_wrap in H1 by lia.
      destruct (Z.testbit t k), (Z.testbit n k); try discriminate; congruence. }
    rewrite !Z.testbit_odd, !Z.shiftr_div_pow2 in Hb by lia.
    pose proof (div_window n t k ltac:(lia) Ht) as D.
    assert (D1 : t / 2 ^ k - n / 2 ^ k <= 1).
    { destruct (Z.eq_dec k (w - 1)) as [Ek|Ek].
      - rewrite Ek in *. replace (w - 1 - (w - 1)) with 0 in D by lia. simpl in D. lia.
      - specialize (Hhi (k + 1) ltac:(lia)).
        rewrite Z.pow_add_r in Hhi by lia. change (2 ^ 1) with 2 in Hhi.
        assert (0 < 2 ^ k) by (apply Z.pow_pos_nonneg; lia).
        rewrite <- !Z.div_div in Hhi by lia. 
        pose proof (Z.div_mod (t / 2 ^ k) 2 ltac:(lia)).
        pose proof (Z.div_mod (n / 2 ^ k) 2 ltac:(lia)).
        pose proof (Z.mod_pos_bound (t / 2 ^ k) 2 ltac:(lia)).
        pose proof (Z.mod_pos_bound (n / 2 ^ k) 2 ltac:(lia)). lia. }
    assert (t / 2 ^ k - n / 2 ^ k <> 0).
    { intros Z0. apply Hb. f_equal. lia. }
    lia.
Qed.

Lemma div_le_shift a b k j : 0 <= k <= j -> a / 2 ^ k = b / 2 ^ k -> a / 2 ^ j = b / 2 ^ j.
Proof.
  intros Hk H. replace j with (k + (j - k)) by lia.
  rewrite Z.pow_add_r by lia.
  assert (0 < 2 ^ k) by (apply Z.pow_pos_nonneg; lia).
  assert (0 < 2 ^ (j - k)) by (apply Z.pow_pos_nonneg; lia).
  rewrite <- !Z.div_div by lia. now rewrite H.
Qed.

Lemma bucket_zero n : bucket_for w n (wrap w n) = 0%nat.
Proof. unfold bucket_for. now rewrite Z.lxor_nilpotent. Qed.

Lemma bucket_le n t : n <= t < n + 2 ^ (w - 1) -> (bucket_for w n (wrap w t) <= Z.to_nat w)%nat.
Proof. intros H. destruct (bucket_char n t H) as [[-> _]|(k & ? & -> & _)]; lia. Qed.

Lemma bucket_lt_lt n t1 t2 :
  n <= t1 < n + 2 ^ (w - 1) -> n <= t2 < n + 2 ^ (w - 1) ->
  (bucket_for w n (wrap w t1) < bucket_for w n (wrap w t2))%nat -> t1 < t2.
Proof.
  intros H1 H2 Hb.
  destruct (bucket_char n t2 H2) as [[E2 ->]|(k2 & ? & E2 & D2 & U2)]; [lia|].
  destruct (bucket_char n t1 H1) as [[E1 ->]|(k1 & ? & E1 & D1 & U1)].
  - destruct (Z.lt_trichotomy n t2) as [|[<-|]]; try lia; try (rewrite bucket_zero in E2; lia).
  - rewrite E1, E2 in Hb. specialize (U1 k2 ltac:(lia)).
    destruct (Z.ltb_spec t1 t2); [assumption|].
    assert (t2 / 2 ^ k2 <= t1 / 2 ^ k2) by (apply Z.div_le_mono; [apply Z.pow_pos_nonneg; lia|lia]). lia.
Qed.

(** Advancing the clock to [m], a time in bucket [S k], keeps the events of higher buckets in place. *)
Lemma bucket_higher n m t :
  n <= m < n + 2 ^ (w - 1) -> n <= t < n + 2 ^ (w - 1) -> m <= t ->
  (bucket_for w n (wrap w m) < bucket_for w n (wrap w t))%nat ->
  bucket_for w m (wrap w t) = bucket_for w n (wrap w t).
Proof.
  intros Hm Ht Hmt Hb.
  destruct (bucket_char n t Ht) as [[Et _]|(kt & Hkt & Et & Dt & Ut)]; [lia|].
  destruct (bucket_char n m Hm) as [[Em ->]|(km & Hkm & Em & Dm & Um)]; [congruence|].
  rewrite Et, Em in *. assert (km < kt) by lia.
  assert (A : m / 2 ^ kt = n / 2 ^ kt) by (apply Um; lia).
  assert (Hwin : m <= t < m + 2 ^ (w - 1)) by lia.
  destruct (bucket_char m t Hwin) as [[_ ->]|(k & Hk & E & D & U)].
  - lia.
  - rewrite E. f_equal. f_equal. clear E Et Em Hb.
    destruct (Z.lt_trichotomy k kt) as [C|[C|C]]; [| lia |].
    + specialize (U kt ltac:(lia)). lia.
    + assert (t / 2 ^ k = n / 2 ^ k) by (apply Ut; lia).
      assert (m / 2 ^ k = n / 2 ^ k) by (apply Um; lia). lia.
Qed.

(** Advancing the clock to the earliest time of its own bucket moves the events of this bucket strictly down. *)
Lemma bucket_same n m t :
  n <= m < n + 2 ^ (w - 1) -> n <= t < n + 2 ^ (w - 1) -> m <= t ->
  bucket_for w n (wrap w m) = bucket_for w n (wrap w t) -> (0 < bucket_for w n (wrap w t))%nat ->
  (bucket_for w m (wrap w t) < bucket_for w n (wrap w t))%nat.
Proof.
  intros Hm Ht Hmt Hb Hpos.
  destruct (bucket_char n t Ht) as [[Et _]|(kt & Hkt & Et & Dt & Ut)]; [lia|].
  destruct (bucket_char n m Hm) as [[Em _]|(km & Hkm & Em & Dm & Um)]; [lia|].
  rewrite Et, Em in *. assert (km = kt) by lia. subst km.
  assert (Hwin : m <= t < m + 2 ^ (w - 1)) by lia.
  destruct (bucket_char m t Hwin) as [[-> _]|(k & Hk & E & D & U)]; [lia|].
  rewrite E. destruct (Z.ltb_spec k kt); [lia|].
  assert (t / 2 ^ k = m / 2 ^ k) by (apply div_le_shift with kt; lia). lia.
Qed.

(** Within a bucket the raw order of the truncated times is the order of the times. *)
Lemma bucket_same_raw n a b :
  n <= a < n + 2 ^ (w - 1) -> n <= b < n + 2 ^ (w - 1) ->
  bucket_for w n (wrap w a) = bucket_for w n (wrap w b) -> (0 < bucket_for w n (wrap w b))%nat ->
  wrap w b - wrap w a = b - a.
Proof.
  intros Ha Hb E Hpos.
  destruct (bucket_char n b Hb) as [[Et _]|(kt & Hkt & Et & Dt & Ut)]; [lia|].
  destruct (bucket_char n a Ha) as [[Em _]|(km & Hkm & Em & Dm & Um)]; [lia|].
  assert (km = kt) by lia. subst km.
  assert (a / 2 ^ w = b / 2 ^ w) by (apply div_le_shift with kt; lia).
  unfold wrap. rewrite !Z.mod_eq by (apply Z.pow_nonzero; lia). rewrite H. ring.
Qed.

Lemma bucket_one n t : n <= t < n + 2 ^ (w - 1) -> bucket_for w n (wrap w t) = 1%nat -> t = n + 1.
Proof.
  intros Ht E. destruct (bucket_char n t Ht) as [[E' _]|(k & Hk & E' & D & _)]; [lia|].
  assert (k = 0) by lia. subst k. rewrite !Z.div_1_r in D. lia.
Qed.

Section Rep.
Variable D : Type.

Definition trunc (x : Z * D) : event D := mkEv (wrap w (fst x)) (snd x).
Definition range := seq 0 (Z.to_nat w + 1).

Definition Rep (q : queue D) (s : pq D) : Prop :=
  cur_time q = now s /\
  exists A : nat -> list (Z * D),
    (forall b, buckets q b = map trunc (A b)) /\
    (forall b t d, In (t, d) (A b) -> now s <= t < now s + 2 ^ (w - 1) /\ bucket_for w (now s) (wrap w t) = b) /\
    Permutation (pending s) (flat_map A range) /\
    num_enqueued q = Z.of_nat (length (pending s)).

Lemma flat_map_ext_in {X Y} (f g : X -> list Y) l : (forall x, In x l -> f x = g x) -> flat_map f l = flat_map g l.
Proof. induction l; simpl; intros H; [reflexivity|]. rewrite IHl, H; auto. Qed.

Lemma flat_map_upd {X} (A : nat -> list X) l b v :
  NoDup l -> In b l ->
  Permutation (A b ++ flat_map (upd A b v) l) (v ++ flat_map A l).
Proof.
  induction l as [|x l IH]; simpl; intros ND HI; [tauto|]. inversion ND; subst.
  destruct (Nat.eq_dec x b) as [->|N].
  - rewrite upd_eq. rewrite (flat_map_ext_in (upd A b v) A).
    + rewrite !app_assoc. apply Permutation_app_tail. apply Permutation_app_comm.
    + intros y Hy. apply upd_neq. congruence.
  - rewrite upd_neq by congruence. destruct HI as [|HI]; [congruence|]. specialize (IH H2 HI).
    rewrite !app_assoc. rewrite (Permutation_app_comm (A b)), (Permutation_app_comm v).
    rewrite <- !app_assoc. now apply Permutation_app_head.
Qed.

Lemma flat_map_push (A : nat -> list (Z * D)) b x :
  In b range -> Permutation (flat_map (upd A b (x :: A b)) range) (x :: flat_map A range).
Proof.
  intros H. pose proof (flat_map_upd A range b (x :: A b) (seq_NoDup _ _) H) as P.
  apply (Permutation_app_inv_l (A b)). rewrite P. simpl.
  apply Permutation_middle.
Qed.

Lemma flat_map_clear (A : nat -> list (Z * D)) b :
  In b range -> Permutation (A b ++ flat_map (upd A b []) range) (flat_map A range).
Proof. intros H. exact (flat_map_upd A range b [] (seq_NoDup _ _) H). Qed.

Lemma in_range b : (b <= Z.to_nat w)%nat -> In b range.
Proof. intros. apply in_seq. lia. Qed.

Lemma flat_map_nil {X Y} (f : X -> list Y) l : (forall x, In x l -> f x = []) -> flat_map f l = [].
Proof. induction l; simpl; intros H; [reflexivity|]. rewrite H, IHl; auto. Qed.

Lemma rep_empty : Rep (empty_queue D) (mkPQ 0 []).
Proof.
  split; [reflexivity|]. exists (fun _ => []).
  split; [reflexivity|]. split; [intros b t d []|]. split; [|reflexivity].
  rewrite flat_map_nil; auto.
Qed.

Lemma rep_enqueue q s t d : Rep q s -> now s <= t < now s + 2 ^ (w - 1) ->
  exists q', enqueue w D q (mkEv (wrap w t) d) = Ok q' /\ Rep q' (mkPQ (now s) ((t, d) :: pending s)).
Proof.
  intros (Hc & A & HA & Hin & HP & Hn) Ht. unfold enqueue. simpl. rewrite Hc.
  pose proof (bucket_le _ _ Ht) as Hle.
  destruct (Nat.ltb_spec (Z.to_nat w) (bucket_for w (now s) (wrap w t))); [lia|].
  eexists; split; [reflexivity|]. split; [reflexivity|]. simpl.
  set (b := bucket_for w (now s) (wrap w t)) in *.
  exists (upd A b ((t, d) :: A b)). repeat split.
  - intros b'. unfold push, upd. destruct (Nat.eqb_spec b' b) as [->|]; [simpl; now rewrite HA|apply HA].
  - unfold upd in H0. destruct (Nat.eqb_spec b0 b) as [->|]; [destruct H0 as [E|H0]; [inversion E; subst; lia|]|];
      now apply Hin in H0.
  - unfold upd in H0. destruct (Nat.eqb_spec b0 b) as [->|]; [destruct H0 as [E|H0]; [inversion E; subst; lia|]|];
      now apply Hin in H0.
  - unfold upd in H0. destruct (Nat.eqb_spec b0 b) as [->|]; [destruct H0 as [E|H0]; [inversion E; subst; reflexivity|]|];
      now apply Hin in H0.
  - rewrite flat_map_push by (now apply in_range). now apply perm_skip.
  - rewrite Hn. lia.
Qed.

Lemma first_nonempty_spec (bs : nat -> list (event D)) k b :
  match first_nonempty D bs b k with
  | Some b' => (b <= b' < b + k)%nat /\ bs b' <> [] /\ (forall j, (b <= j < b')%nat -> bs j = [])
  | None => forall j, (b <= j < b + k)%nat -> bs j = []
  end.
Proof.
  revert b. induction k; simpl; intros b; [intros; lia|].
  destruct (bs b) eqn:E.
  - specialize (IHk (S b)). destruct (first_nonempty D bs (S b) k).
    + destruct IHk as (?&?&Hj). repeat split; try lia; auto. intros j ?.
      destruct (Nat.eq_dec j b) as [->|]; [assumption|apply Hj; lia].
    + intros j ?. destruct (Nat.eq_dec j b) as [->|]; [assumption|apply IHk; lia].
  - repeat split; try lia. congruence.
Qed.

Lemma min_time_spec (l : list (event D)) x :
  (min_time D x l <= x /\ forall e, In e l -> min_time D x l <= ev_time e) /\
  (min_time D x l = x \/ exists e, In e l /\ min_time D x l = ev_time e).
Proof.
  unfold min_time. revert x. induction l as [|e l IH]; simpl; intros x.
  - split; [split; [lia|tauto]|now left].
  - destruct (IH (Z.min x (ev_time e))) as [[H1 H2] H3]. split.
    + split; [lia|]. intros e' [->|Hi]; [lia|auto].
    + destruct H3 as [H3|(e' & ? & ?)]; [|right; eauto].
      rewrite H3. destruct (Z.min_spec x (ev_time e)) as [[_ ->]|[_ ->]]; [now left|right; eauto].
Qed.

(** Redistribution on lists annotated with unbounded times. *)
Definition redistA (m : Z) (l : list (Z * D)) (A : nat -> list (Z * D)) :=
  fold_left (fun A x => upd A (bucket_for w m (wrap w (fst x))) (x :: A (bucket_for w m (wrap w (fst x))))) l A.

Lemma redist_map m l : forall (bs : nat -> list (event D)) A, (forall b, bs b = map trunc (A b)) ->
  forall b, redistribute w D m (map trunc l) bs b = map trunc (redistA m l A b).
Proof.
  unfold redistribute, redistA. induction l as [|x l IH]; simpl; intros bs A H b; [apply H|].
  apply IH. intros b'. unfold push, upd.
  destruct (Nat.eqb b' (bucket_for w m (wrap w (fst x)))) eqn:E; simpl; rewrite ?H; reflexivity.
Qed.

Lemma redistA_in m l A b x : In x (redistA m l A b) ->
  In x (A b) \/ (In x l /\ bucket_for w m (wrap w (fst x)) = b).
Proof.
  unfold redistA. revert A. induction l as [|y l IH]; simpl; intros A H; [now left|].
  apply IH in H. destruct H as [H|[H E]]; [|right; auto].
  unfold upd in H. destruct (Nat.eqb_spec b (bucket_for w m (wrap w (fst y)))) as [->|]; [|now left].
  destruct H as [->|H]; [right; auto|now left].
Qed.

Lemma redistA_untouched m l A b : (forall x, In x l -> bucket_for w m (wrap w (fst x)) <> b) ->
  redistA m l A b = A b.
Proof.
  unfold redistA. revert A. induction l as [|y l IH]; simpl; intros A H; [reflexivity|].
  rewrite IH by auto. apply upd_neq. intros E. exact (H y (or_introl eq_refl) (eq_sym E)).
Qed.

Lemma redistA_perm m l A : (forall x, In x l -> In (bucket_for w m (wrap w (fst x))) range) ->
  Permutation (flat_map (redistA m l A) range) (l ++ flat_map A range).
Proof.
  unfold redistA. revert A. induction l as [|y l IH]; simpl; intros A H; [reflexivity|].
  rewrite IH by auto. rewrite flat_map_push by auto. apply Permutation_sym, Permutation_middle.
Qed.

Lemma rep_refill q s : Rep q s -> pending s <> [] ->
  exists q1 m, refill w D q = Ok q1 /\ Rep q1 (mkPQ m (pending s)) /\ buckets q1 0%nat <> [] /\
    (forall t d, In (t, d) (pending s) -> m <= t).
Proof.
  intros (Hc & A & HA & Hin & HP & Hn) Hne. unfold refill.
  assert (Hmem : forall t d, In (t, d) (pending s) -> exists b, In (t, d) (A b)).
  { intros t d H. eapply Permutation_in in H; [|exact HP]. apply in_flat_map in H. destruct H as (b & _ & H). eauto. }
  assert (Hge : forall t d, In (t, d) (pending s) -> now s <= t).
  { intros t d H. destruct (Hmem _ _ H) as [b Hb]. apply Hin in Hb. lia. }
  destruct (buckets q 0%nat) as [|e l] eqn:B0.
  2:{ exists q, (now s). split; [reflexivity|]. split.
      - split; [assumption|]. exists A. auto.
      - split; [rewrite B0; discriminate|exact Hge]. }
  pose proof (first_nonempty_spec (buckets q) (Z.to_nat w) 1) as F.
  destruct (first_nonempty D (buckets q) 1 (Z.to_nat w)) as [b|].
  2:{ exfalso. apply Hne. apply Permutation_nil. symmetry. rewrite HP.
      rewrite flat_map_nil; [reflexivity|]. intros x Hx. apply in_seq in Hx.
      assert (buckets q x = []) by (destruct x; [assumption|apply F; lia]).
      rewrite HA in H. now apply map_eq_nil in H. }
  destruct F as (Hb & Hbne & Hlow).
  assert (Alow : forall j, (j < b)%nat -> A j = []).
  { intros j Hj. assert (buckets q j = []) by (destruct j; [assumption|apply Hlow; lia]).
    rewrite HA in H. now apply map_eq_nil in H. }
  assert (Hbk : forall t d, In (t, d) (pending s) -> (b <= bucket_for w (now s) (wrap w t))%nat).
  { intros t d H. destruct (Hmem _ _ H) as [b' Hb']. destruct (Hin _ _ _ Hb') as [_ ->].
    destruct (Nat.leb_spec b b'); [assumption|]. rewrite Alow in Hb' by assumption. destruct Hb'. }
  destruct (Nat.eqb_spec b 1) as [->|Nb1].
  - (* bucket 1 *)
    assert (H1 : forall t d, In (t, d) (A 1%nat) -> t = now s + 1).
    { intros t d H. apply Hin in H. apply bucket_one; tauto. }
    assert (HAne : A 1%nat <> []).
    { intros E. apply Hbne. now rewrite HA, E. }
    exists (mkQ (upd (upd (buckets q) 0 (buckets q 1%nat)) 1 []) (cur_time q + 1) (num_enqueued q)), (now s + 1).
    assert (Hge1 : forall t d, In (t, d) (pending s) -> now s + 1 <= t).
    { intros t d H. destruct (Hmem _ _ H) as [b' Hb']. destruct (Hin _ _ _ Hb') as [Hr Hb'e].
      pose proof (Hbk _ _ H). destruct (Z.eq_dec t (now s)) as [->|]; [|lia].
      rewrite bucket_zero in H0. lia. }
    split; [reflexivity|]. split; [|split].
    + split; [simpl; lia|]. exists (upd (upd A 0 (A 1%nat)) 1 []). simpl. repeat split.
      * intros b'. unfold upd. destruct (Nat.eqb b' 1); [reflexivity|].
        destruct (Nat.eqb b' 0); apply HA.
      * unfold upd in H. destruct (Nat.eqb_spec b 1); [destruct H|].
        destruct (Nat.eqb_spec b 0); [apply H1 in H; lia|].
        destruct (Hin _ _ _ H) as [Hr Hbb]. 
        destruct (Z.eq_dec t (now s)) as [->|]; [rewrite bucket_zero in Hbb; lia|]. lia.
      * unfold upd in H. destruct (Nat.eqb_spec b 1); [destruct H|].
        destruct (Nat.eqb_spec b 0).
        -- apply H1 in H. pose proof (proj2 (pow_split w Hw)). lia.
        -- destruct (Hin _ _ _ H) as [Hr Hbb]. lia.
      * unfold upd in H. destruct (Nat.eqb_spec b 1); [destruct H|].
        destruct (Nat.eqb_spec b 0).
        -- apply H1 in H. subst. apply bucket_zero.
        -- destruct (Hin _ _ _ H) as [Hr Hbb].
           destruct (A 1%nat) as [|[t1 d1] rest] eqn:EA; [congruence|].
           assert (Ht1 : In (t1, d1) (A 1%nat)) by (rewrite EA; now left).
           destruct (Hin _ _ _ Ht1) as [Hr1 Hb1e].
           assert (t1 = now s + 1) by (apply (H1 t1 d1); now left). subst t1.
           rewrite <- Hbb.
           assert (now s + 1 <= t).
           { destruct (Z.eq_dec t (now s)) as [->|]; [rewrite bucket_zero in Hbb; lia|]. lia. }
           apply bucket_higher; try lia.
      * rewrite HP.
        assert (R0 : In 0%nat range) by (apply in_range; lia).
        assert (R1 : In 1%nat range) by (apply in_range; lia).
        assert (P1 := flat_map_upd A range 0%nat (A 1%nat) (seq_NoDup _ _) R0).
        rewrite (Alow 0%nat) in P1 by lia. simpl in P1.
        assert (P2 := flat_map_clear (upd A 0 (A 1%nat)) 1 R1).
        rewrite (upd_neq A 0 (A 1%nat) 1) in P2 by lia.
        apply (Permutation_app_inv_l (A 1%nat)). rewrite P2. symmetry. exact P1.
      * assumption.
    + simpl. rewrite upd_neq, upd_eq by lia. assumption.
    + exact Hge1.
  - (* general case *)
    rewrite HA, <- map_rev.
    assert (HAne : A b <> []).
    { intros E. apply Hbne. now rewrite HA, E. }
    destruct (rev (A b)) as [|x0 rest] eqn:ER.
    { exfalso. apply HAne. rewrite <- (rev_involutive (A b)), ER. reflexivity. }
    simpl.
    assert (Hrev : forall x, In x (x0 :: rest) <-> In x (A b)).
    { intros x. rewrite <- ER. symmetry. apply in_rev. }
    assert (Hwinb : forall t d, In (t, d) (A b) -> now s <= t < now s + 2 ^ (w - 1) /\ bucket_for w (now s) (wrap w t) = b)
      by (intros t d H; exact (Hin b t d H)).
    destruct (min_time_spec (map trunc rest) (wrap w (fst x0))) as [[M1 M2] M3].
    set (m0 := min_time D (wrap w (fst x0)) (map trunc rest)) in *.
    assert (exists tm dm, In (tm, dm) (A b) /\ m0 = wrap w tm /\ forall t d, In (t, d) (A b) -> tm <= t) as (tm & dm & Htm & Em & Hmin).
    { assert (Hall : forall t d, In (t, d) (A b) -> m0 <= wrap w t).
      { intros t d H. apply Hrev in H. destruct H as [->|H]; [exact M1|].
        apply (M2 (trunc (t, d))). apply in_map. exact H. }
      assert (exists tm dm, In (tm, dm) (A b) /\ m0 = wrap w tm) as (tm & dm & H1 & H2).
      { destruct M3 as [M3|(e & He & M3)].
        - exists (fst x0), (snd x0). split; [apply Hrev; left; now destruct x0|exact M3].
        - apply in_map_iff in He. destruct He as ([t d] & <- & He).
          exists t, d. split; [apply Hrev; now right|exact M3]. }
      exists tm, dm. repeat split; auto. intros t d H.
      pose proof (Hall _ _ H). destruct (Hwinb _ _ H) as [W1 B1]. destruct (Hwinb _ _ H1) as [W2 B2].
      pose proof (bucket_same_raw (now s) tm t W2 W1 ltac:(congruence) ltac:(lia)). lia. }
    destruct (Hwinb _ _ Htm) as [Wm Bm].
    assert (Ew : widen w m0 (cur_time q) = tm).
    { rewrite Em, Hc. apply widen_exact; [assumption|]. pose proof (proj2 (pow_split w Hw)). lia. }
    rewrite Ew.
    assert (Hgem : forall t d, In (t, d) (pending s) -> tm <= t).
    { intros t d H. pose proof (Hbk _ _ H) as Hle.
      destruct (Hmem _ _ H) as [b' Hb']. destruct (Hin _ _ _ Hb') as [W B'].
      destruct (Nat.eq_dec b' b) as [->|N]; [now apply (Hmin t d)|].
      assert (tm < t); [|lia]. apply (bucket_lt_lt (now s)); auto. rewrite Bm. lia. }
    exists (mkQ (upd (redistribute w D tm (trunc x0 :: map trunc rest) (buckets q)) b []) tm (num_enqueued q)), tm.
    split; [reflexivity|].
    assert (Hdown : forall x, In x (x0 :: rest) -> (bucket_for w tm (wrap w (fst x)) < b)%nat).
    { intros [t d] H. apply Hrev in H. destruct (Hwinb _ _ H) as [W B]. simpl. rewrite <- B.
      apply bucket_same; auto; try congruence; [now apply (Hmin t d)|lia]. }
    assert (Rb : In b range) by (apply in_range; lia).
    split; [|split].
    + split; [reflexivity|]. exists (upd (redistA tm (x0 :: rest) A) b []). simpl. repeat split.
      * intros b'. destruct (Nat.eq_dec b' b) as [->|N]; [now rewrite !upd_eq|].
        rewrite !upd_neq by exact N. apply (redist_map tm (x0 :: rest)). exact HA.
      * unfold upd in H. destruct (Nat.eqb_spec b0 b); [destruct H|].
        apply (redistA_in tm (x0 :: rest)) in H. destruct H as [H|[H _]].
        -- eapply Hgem. eapply Permutation_in; [symmetry; exact HP|]. apply in_flat_map. exists b0. split; [|exact H].
           apply in_range. destruct (Hin _ _ _ H) as [W <-]. now apply bucket_le.
        -- apply Hrev in H. exact (Hmin _ _ H).
      * unfold upd in H. destruct (Nat.eqb_spec b0 b); [destruct H|].
        apply (redistA_in tm (x0 :: rest)) in H. destruct H as [H|[H _]].
        -- apply Hin in H. lia.
        -- apply Hrev in H. apply Hwinb in H. lia.
      * unfold upd in H. destruct (Nat.eqb_spec b0 b); [destruct H|].
        apply (redistA_in tm (x0 :: rest)) in H. destruct H as [H|[H E]]; [|exact E].
        destruct (Hin _ _ _ H) as [W B].
        assert (b < b0)%nat.
        { destruct (Nat.ltb_spec b b0); [assumption|]. rewrite Alow in H by lia. destruct H. }
        rewrite <- B. apply bucket_higher; auto; [|lia].
        eapply Hgem. eapply Permutation_in; [symmetry; exact HP|]. apply in_flat_map. exists b0. split; [|exact H].
        apply in_range. rewrite <- B. now apply bucket_le.
      * rewrite HP.
        assert (P1 := redistA_perm tm (x0 :: rest) A). 
        assert (P2 := flat_map_clear (redistA tm (x0 :: rest) A) b Rb).
        rewrite (redistA_untouched tm (x0 :: rest) A b) in P2.
        2:{ intros x Hx E. apply Hdown in Hx. lia. }
        apply (Permutation_app_inv_l (A b)). rewrite P2. rewrite P1.
        -- apply Permutation_app_tail. rewrite <- ER. apply Permutation_rev.
        -- intros x Hx. apply in_range. apply Hdown in Hx. lia.
      * assumption.
    + cbn [buckets]. rewrite upd_neq by lia.
      pose proof (redist_map tm (x0 :: rest) (buckets q) A HA 0%nat) as RM. cbn [map] in RM. rewrite RM.
      intros E. apply map_eq_nil in E.
      assert (In (tm, dm) (redistA tm (x0 :: rest) A 0%nat)); [|rewrite E in H; destruct H].
      assert (G : forall l A0, In (tm, dm) l \/ In (tm, dm) (A0 0%nat) -> In (tm, dm) (redistA tm l A0 0%nat)).
      { induction l as [|y l IH]; simpl; intros A0 [H|H]; try tauto.
        - apply IH. destruct H as [->|H]; [right|now left]. simpl. rewrite bucket_zero, upd_eq. now left.
        - apply IH. right. unfold upd. destruct (Nat.eqb_spec 0 (bucket_for w tm (wrap w (fst y)))) as [E0|]; [|exact H].
          right. rewrite <- E0. exact H. }
      apply G. left. apply Hrev. exact Htm.
    + exact Hgem.
Qed.

Lemma rep_dequeue q s : Rep q s -> 
  match pending s with
  | [] => dequeue w D q = Ok (None, q)
  | _ => exists q' t d rest, dequeue w D q = Ok (Some (mkEv (wrap w t) d), q') /\
           Permutation (pending s) ((t, d) :: rest) /\
           (forall t' d', In (t', d') (pending s) -> t <= t') /\ Rep q' (mkPQ t rest)
  end.
Proof.
  intros R. assert (Hn : num_enqueued q = Z.of_nat (length (pending s))) by (destruct R as (_ & A & _ & _ & _ & H); exact H).
  unfold dequeue. destruct (pending s) eqn:Ep.
  - rewrite Hn. reflexivity.
  - rewrite <- Ep in *. assert (Hne : pending s <> []) by (rewrite Ep; discriminate).
    destruct (Z.eqb_spec (num_enqueued q) 0) as [E0|_].
    { rewrite Hn, Ep in E0. simpl in E0. lia. }
    destruct (rep_refill q s R Hne) as (q1 & m & -> & R1 & Hb0 & Hmin). simpl.
    destruct R1 as (Hc & A & HA & Hin & HP & Hn1). simpl in *.
    destruct (buckets q1 0%nat) as [|e1 l1] eqn:B0; [congruence|].
    rewrite HA in B0. destruct (A 0%nat) as [|[t d] rest0] eqn:EA; [discriminate|].
    simpl in B0. inversion B0; subst e1 l1.
    assert (Hbt : t = m).
    { destruct (Hin 0%nat t d ltac:(rewrite EA; now left)) as [W B].
      destruct (bucket_char m t W) as [[_ ->]|(k & ? & E & _)]; [reflexivity|]. rewrite E in B. discriminate. }
    subst t.
    assert (R0 : In 0%nat range) by (apply in_range; lia).
    exists (mkQ (upd (buckets q1) 0 (map trunc rest0)) (cur_time q1) (num_enqueued q1 - 1)), m, d,
           (flat_map (upd A 0 rest0) range).
    assert (HPm : Permutation (pending s) ((m, d) :: flat_map (upd A 0 rest0) range)).
    { rewrite HP. pose proof (flat_map_push (upd A 0 rest0) 0%nat (m, d) R0) as P.
      rewrite upd_eq in P. rewrite <- P. 
      rewrite (flat_map_ext_in (upd (upd A 0 rest0) 0 ((m, d) :: rest0)) A); [reflexivity|].
      intros x _. unfold upd. destruct (Nat.eqb_spec x 0) as [->|]; [now rewrite EA|reflexivity]. }
    split; [reflexivity|]. split; [exact HPm|]. split; [exact Hmin|].
    split; [exact Hc|]. simpl. exists (upd A 0 rest0). repeat split.
    + intros b. unfold upd. destruct (Nat.eqb b 0); [reflexivity|apply HA].
    + unfold upd in H. destruct (Nat.eqb_spec b 0) as [->|]; [|now apply Hin in H].
      apply (Hin 0%nat t d0). rewrite EA. now right.
    + unfold upd in H. destruct (Nat.eqb_spec b 0) as [->|]; [|now apply Hin in H].
      apply (Hin 0%nat t d0). rewrite EA. now right.
    + unfold upd in H. destruct (Nat.eqb_spec b 0) as [->|]; [|now apply Hin in H].
      apply (Hin 0%nat t d0). rewrite EA. now right.
    + reflexivity.
    + rewrite Hn1. apply Permutation_length in HPm. simpl in HPm. rewrite HPm. lia.
Qed.

Lemma length_flat_map_upd (A : nat -> list (Z * D)) b : In b range ->
  (length (flat_map A range) = length (A b) + length (flat_map (upd A b []) range))%nat.
Proof. intros H. rewrite <- app_length. symmetry. apply Permutation_length, flat_map_clear. exact H. Qed.

Lemma clear_from_spec k : forall b q A, (b + k = Z.to_nat w + 1)%nat ->
  (forall j, buckets q j = map trunc (A j)) -> (forall j, (j < b)%nat -> A j = []) ->
  (forall j, (Z.to_nat w < j)%nat -> A j = []) ->
  num_enqueued q = Z.of_nat (length (flat_map A range)) ->
  exists q', clear_from D q b k = Ok q' /\ cur_time q' = cur_time q /\ num_enqueued q' = 0 /\ forall j, buckets q' j = [].
Proof.
  induction k; intros b q A Hbk HA Hlow Hhigh Hn.
  - assert (E : flat_map A range = []).
    { apply flat_map_nil. intros x Hx. apply in_seq in Hx. apply Hlow. lia. }
    rewrite E in Hn. simpl in *. rewrite Hn. simpl. eexists; repeat split; auto.
    intros j. rewrite HA. destruct (Nat.leb_spec j (Z.to_nat w)); [rewrite Hlow by lia|rewrite Hhigh by lia]; reflexivity.
  - simpl. destruct (Z.eqb_spec (num_enqueued q) 0) as [E|E].
    + eexists; repeat split; auto. intros j. rewrite HA.
      destruct (Nat.leb_spec j (Z.to_nat w)); [|rewrite Hhigh by lia; reflexivity].
      rewrite E in Hn. assert (flat_map A range = []) by (destruct (flat_map A range); [reflexivity|simpl in Hn; lia]).
      destruct (A j) eqn:EA; [reflexivity|]. exfalso.
      assert (In p (flat_map A range)). { apply in_flat_map. exists j. split; [now apply in_range|rewrite EA; now left]. }
      rewrite H0 in H1. destruct H1.
    + destruct (IHk (S b) (mkQ (upd (buckets q) b []) (cur_time q) (num_enqueued q - Z.of_nat (length (buckets q b)))) (upd A b []))
        as (q' & E1 & E2 & E3 & E4).
      * lia.
      * intros j. simpl. unfold upd. destruct (Nat.eqb j b); [reflexivity|apply HA].
      * intros j Hj. unfold upd. destruct (Nat.eqb_spec j b); [reflexivity|apply Hlow; lia].
      * intros j Hj. unfold upd. destruct (Nat.eqb_spec j b); [reflexivity|apply Hhigh; lia].
      * simpl. rewrite Hn, HA, map_length. rewrite (length_flat_map_upd A b) by (apply in_range; lia). lia.
      * exists q'. auto.
Qed.

Lemma rep_all_empty q : (forall j, buckets q j = []) -> num_enqueued q = 0 -> Rep q (mkPQ (cur_time q) []).
Proof.
  intros H1 H2. split; [reflexivity|]. exists (fun _ => []).
  split; [exact H1|]. split; [intros b t d []|]. split; [|exact H2].
  rewrite flat_map_nil; auto.
Qed.

Lemma rep_clear q s : Rep q s ->
  exists q', clear w D q = Ok q' /\ Rep q' (mkPQ (now s) []) /\ num_enqueued q' = 0 /\ (forall b, buckets q' b = []).
Proof.
  intros (Hc & A & HA & Hin & HP & Hn). unfold clear.
  destruct (clear_from_spec (Z.to_nat w + 1) 0 q A) as (q' & E1 & E2 & E3 & E4); auto.
  - intros j Hj. lia.
  - intros j Hj. destruct (A j) as [|[t d] l] eqn:EA; [reflexivity|]. exfalso.
    destruct (Hin j t d ltac:(rewrite EA; now left)) as [W B]. pose proof (bucket_le _ _ W). lia.
  - rewrite Hn. f_equal. now apply Permutation_length.
  - exists q'. split; [exact E1|]. split; [|auto].
    pose proof (rep_all_empty q' E4 E3). rewrite E2, Hc in H. exact H.
Qed.

Lemma rep_reset q s : Rep q s ->
  exists q', reset w D q = Ok q' /\ Rep q' (mkPQ 0 []) /\ num_enqueued q' = 0 /\ cur_time q' = 0.
Proof.
  intros R. destruct (rep_clear q s R) as (q' & E & R' & N & B). unfold reset. rewrite E. simpl.
  eexists; split; [reflexivity|]. split; [|auto].
  exact (rep_all_empty (mkQ (buckets q') 0 (num_enqueued q')) B N).
Qed.

Lemma exec_refines ops : forall q s, Rep q s -> contract w (2 ^ (w - 1)) q ops ->
  exists outs q' s', exec w D q ops = Ok (outs, q') /\ pq_run (2 ^ (w - 1)) s ops outs s' /\ Rep q' s'.
Proof.
  induction ops as [|o ops IH]; intros q s R C.
  - exists [], q, s. repeat split; try constructor; apply R.
  - destruct o as [t d| | |]; cbn [exec contract] in *.
    + destruct C as [Ht C]. assert (Hc : cur_time q = now s) by apply R. rewrite Hc in Ht.
      destruct (rep_enqueue q s t d R Ht) as (q1 & E & R1). fold (wrap w t) in C. rewrite E in C |- *. simpl.
      destruct (IH q1 _ R1 C) as (outs & q' & s' & E' & P & R').
      exists outs, q', s'. repeat split; auto; try apply R'. now constructor.
    + pose proof (rep_dequeue q s R) as Hd. destruct (pending s) eqn:Ep.
      * rewrite Hd in C |- *. simpl. destruct (IH q s R C) as (outs & q' & s' & E' & P & R').
        rewrite E'. simpl. exists ((None, cur_time q) :: outs), q', s'.
        split; [reflexivity|]. split; [|assumption]. 
        replace (cur_time q) with (now s) by (symmetry; apply R). now constructor.
      * destruct Hd as (q1 & t & d & rest & E & HP & Hmin & R1). rewrite E in C |- *. simpl.
        destruct (IH q1 _ R1 C) as (outs & q' & s' & E' & P & R').
        rewrite E'. simpl. exists ((Some d, cur_time q1) :: outs), q', s'.
        split; [reflexivity|]. split; [|assumption].
        replace (cur_time q1) with t by (symmetry; apply R1). 
        eapply run_deq_some; eauto; rewrite Ep; eauto.
    + destruct (rep_clear q s R) as (q1 & E & R1 & _ & _). rewrite E in C |- *. simpl.
      destruct (IH q1 _ R1 C) as (outs & q' & s' & E' & P & R').
      exists outs, q', s'. repeat split; auto; try apply R'. now constructor.
    + destruct (rep_reset q s R) as (q1 & E & R1 & _ & _). rewrite E in C |- *. simpl.
      destruct (IH q1 _ R1 C) as (outs & q' & s' & E' & P & R').
      exists outs, q', s'. repeat split; auto; try apply R'. now constructor.
Qed.

Lemma queue_correct ops : contract w (2 ^ (w - 1)) (empty_queue D) ops ->
  exists outs q' s', exec w D (empty_queue D) ops = Ok (outs, q') /\
    pq_run (2 ^ (w - 1)) (mkPQ 0 []) ops outs s' /\
    cur_time q' = now s' /\ q_size D q' = Z.of_nat (length (pending s')).
Proof.
  intros C. destruct (exec_refines ops _ _ rep_empty C) as (outs & q' & s' & E & P & R).
  exists outs, q', s'. repeat split; auto; [apply R|]. destruct R as (_ & A & _ & _ & _ & H). exact H.
Qed.

Lemma queue_clear_correct ops : contract w (2 ^ (w - 1)) (empty_queue D) ops ->
  exists outs q' q'', exec w D (empty_queue D) ops = Ok (outs, q') /\ clear w D q' = Ok q'' /\
    q_size D q'' = 0 /\ (forall b, buckets q'' b = []) /\ cur_time q'' = cur_time q'.
Proof.
  intros C. destruct (exec_refines ops _ _ rep_empty C) as (outs & q' & s' & E & P & R).
  destruct (rep_clear q' s' R) as (q'' & E' & R' & N & B). exists outs, q', q''. repeat split; auto.
  destruct R as [-> _]. destruct R' as [-> _]. reflexivity.
Qed.

End Rep.

Lemma pq_run_sorted {D} h (s s' : pq D) ops outs : pq_run h s ops outs s' -> ~ In Reset ops ->
  (forall t d, In (t, d) (pending s) -> now s <= t) ->
  Forall (fun o => now s <= snd o) outs /\ StronglySorted (fun a b => snd a <= snd b) outs.
Proof.
  induction 1 as [s|s t d ops outs s' Ht R IH|s ops outs s' Hp R IH|s t d rest ops outs s' HP Hmin R IH
                 |s ops outs s' R IH|s ops outs s' R IH]; intros NR Hge.
  - split; constructor.
  - apply IH; [intros HI; apply NR; now right|]. simpl. intros t' d' [E|H]; [inversion E; subst; lia|eauto].
  - destruct IH as [F S]; [intros HI; apply NR; now right|exact Hge|].
    split; constructor; auto. simpl. lia.
  - destruct IH as [F S]; [intros HI; apply NR; now right| |].
    { simpl. intros t' d' H. apply (Hmin t' d'). eapply Permutation_in; [symmetry; exact HP|]. now right. }
    simpl in F.
    assert (now s <= t) by (apply (Hge t d); eapply Permutation_in; [symmetry; exact HP|now left]).
    split; constructor; auto. eapply Forall_impl; [|exact F]. simpl. intros. lia.
  - apply IH; [intros HI; apply NR; now right|]. simpl. tauto.
  - exfalso. apply NR. now left.
Qed.

Lemma queue_monotone {D} ops outs q' : contract w (2 ^ (w - 1)) (empty_queue D) ops ->
  ~ In Reset ops -> exec w D (empty_queue D) ops = Ok (outs, q') ->
  StronglySorted (fun a b => snd a <= snd b) outs.
Proof.
  intros C NR E. destruct (exec_refines D ops _ _ (rep_empty D) C) as (outs1 & q1 & s1 & E1 & P & R).
  rewrite E in E1. inversion E1; subst. eapply (pq_run_sorted _ _ _ _ _ P NR). simpl. tauto.
Qed.
End Bits.
