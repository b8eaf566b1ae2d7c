(** Loading a check matrix from Python. *)
From Coq Require Import Arith ZArith List Bool Lia.
From Verif Require Import M_Base M_Bits M_UserGraph M_CheckMatrix P_CheckMatrix M_MatrixArgs S_MatrixArgs.
Import ListNotations.
Local Open Scope outcome_scope.
Local Open Scope nat_scope.

(** ** The arrays *)
Definition solid (A : csc) : Prop :=
  length (indptr A) = csc_cols A + 1 /\ (forall c, c < csc_cols A -> nth c (indptr A) 0 <= nth (S c) (indptr A) 0 <= length (indices A)) /\ length (data A) = length (indices A).
Definition rows_at (A : csc) (c : nat) : list nat := map fst (stored A c).

Lemma mono_le : forall (f : nat -> nat) n, (forall c, c < n -> f c <= f (S c)) -> forall c, c <= n -> f c <= f n.
Proof. intros f n H c Hc. replace n with (c + (n - c)) by lia. assert (E : c + (n - c) <= n) by lia. revert E. generalize (n - c). intros d. induction d as [|d IH]; intros E; [rewrite Nat.add_0_r; lia|]. specialize (H (c + d) ltac:(lia)). rewrite Nat.add_succ_r. specialize (IH ltac:(lia)). lia. Qed.
Lemma formed_solid : forall A, well_formed A -> solid A.
Proof.
  intros A (H1 & _ & H3 & H4 & H5 & _). split; [exact H1|]. split; [|exact H5]. intros c Hc. split; [now apply H3|]. rewrite <- H4. apply (mono_le (fun c => nth c (indptr A) 0) (csc_cols A) H3). lia.
Qed.
Lemma nth_offsets : forall l k c, c <= length l -> nth c (offsets k l) 0 = k + length (concat (firstn c l)).
Proof.
  induction l as [|x l IH]; intros k c Hc; [cbn in Hc; replace c with 0 by lia; cbn; lia|]. destruct c as [|c]; [cbn; lia|]. cbn [offsets nth firstn concat]. rewrite IH by (cbn in Hc; lia). rewrite app_length. lia.
Qed.
Lemma length_offsets : forall l k, length (offsets k l) = length l + 1.
Proof. induction l as [|x l IH]; intros k; [reflexivity|]. cbn [offsets length]. rewrite IH. reflexivity. Qed.
Lemma stored_of_columns : forall rows l c, c < length l -> stored (of_columns rows l) c = nth c l [].
Proof.
  intros rows l c Hc. unfold stored, of_columns. cbn [indptr indices data]. rewrite !nth_offsets by lia. rewrite !Nat.add_0_l.
  assert (E : forall (m : list (nat * Z)), combine (map fst m) (map snd m) = m) by (induction m as [|[a b] m IH]; [reflexivity|]; cbn; now rewrite IH). rewrite E. clear E.
  revert c Hc. induction l as [|x l IH]; intros c Hc; [cbn in Hc; lia|]. destruct c as [|c].
  - cbn [firstn concat nth length skipn]. rewrite app_length. cbn [length]. rewrite Nat.add_0_r, Nat.sub_0_r. rewrite firstn_app, firstn_all, Nat.sub_diag, firstn_O. apply app_nil_r.
  - cbn [length] in Hc. cbn [nth]. rewrite <- (IH c) by lia. cbn [firstn concat]. rewrite !app_length. cbn [firstn] in *.
    rewrite skipn_app. rewrite (skipn_all2 x) by lia. cbn [app]. f_equal; [lia|]. f_equal. lia.
Qed.
Lemma of_columns_solid : forall rows l, solid (of_columns rows l).
Proof.
  intros rows l. unfold solid, of_columns. cbn [indptr indices data csc_cols]. rewrite length_offsets. split; [reflexivity|]. split; [|now rewrite !map_length]. intros c Hc. rewrite !nth_offsets by lia. rewrite map_length.
  assert (L : forall c, c <= length l -> length (concat (firstn c l)) <= length (concat l)).
  { intros d Hd. rewrite <- (firstn_skipn d l) at 2. rewrite concat_app, app_length. lia. }
  split; [|apply L; lia]. clear L. revert c Hc. induction l as [|x l IH]; intros c Hc; [cbn in Hc; lia|]. destruct c as [|c]; [cbn; lia|]. cbn [firstn concat]. cbn [length] in Hc. specialize (IH c ltac:(lia)). rewrite !app_length. cbn [firstn] in IH. lia.
Qed.
Lemma firstn_nth : forall {X} (l : list X) a n, a + n <= length l -> read_all l (seq a n) = Ok (firstn n (skipn a l)).
Proof.
  intros X l a n. revert a. induction n as [|n IH]; intros a H; [reflexivity|]. cbn [seq read_all]. unfold read_at. destruct (nth_error l a) as [x|] eqn:E; [|apply nth_error_None in E; lia]. cbn [bindO]. rewrite IH by lia. cbn [bindO].
  assert (S : skipn a l = x :: skipn (S a) l). { clear -E. revert l E. induction a as [|a IH]; intros [|y l] E; try discriminate; cbn in *; [congruence|]. rewrite (IH l E). reflexivity. }
  rewrite S. reflexivity.
Qed.
Lemma rows_at_eq : forall A c, solid A -> c < csc_cols A -> rows_at A c = firstn (nth (S c) (indptr A) 0 - nth c (indptr A) 0) (skipn (nth c (indptr A) 0) (indices A)).
Proof.
  intros A c (_ & _ & L) Hc. unfold rows_at, stored. rewrite <- firstn_map, <- skipn_map. f_equal. f_equal. revert L. generalize (data A) (indices A). intros d i. revert d. induction i as [|x i IH]; intros [|y d] L; try discriminate; [reflexivity|]. cbn. f_equal. apply IH. cbn in L. lia.
Qed.
Lemma read_nth : forall {X} (l : list X) i d, i < length l -> read_at l i = Ok (nth i l d).
Proof. intros X l i d H. unfold read_at. destruct (nth_error l i) as [x|] eqn:E; [rewrite (nth_error_nth l i d E); reflexivity|apply nth_error_None in E; lia]. Qed.

(** ** Reading the columns *)
Section Load.
Context {N : numops}.
Notation num := (num N).
Lemma load_column_bind : forall rows reps rep virtual s (o : outcome (ugraph N)) x, load_column rows reps rep virtual s o x = bindO o (fun g => load_column rows reps rep virtual s (Ok g) x).
Proof. intros rows reps rep virtual s o [[[rs fs] w] p]. destruct o as [g| | |]; [reflexivity| | |]; (destruct rs as [|r1 [|r2 [|r3 rs]]]; destruct virtual; reflexivity). Qed.
Lemma load_timelike_bind : forall rows rep s (o : outcome (ugraph N)) x, load_timelike rows rep s o x = bindO o (fun g => load_timelike rows rep s (Ok g) x).
Proof. intros rows rep s o [row [w p]]. destruct o; reflexivity. Qed.
Lemma foldO_index : forall {A B} (F : outcome A -> B -> outcome A) (f : A -> nat -> outcome A) (L : list B) d,
  (forall o x, F o x = bindO o (fun g => F (Ok g) x)) -> (forall g c, c < length L -> f g c = F (Ok g) (nth c L d)) ->
  forall o, fold_left (fun o c => bindO o (fun g => f g c)) (seq 0 (length L)) o = fold_left F L o.
Proof.
  intros A B F f L d HF Hf o. assert (G : forall k (L' : list B) o, (forall g c, c < length L' -> f g (k + c) = F (Ok g) (nth c L' d)) -> fold_left (fun o c => bindO o (fun g => f g c)) (seq k (length L')) o = fold_left F L' o).
  { intros k L'. revert k. induction L' as [|x L' IH]; intros k o' H; [reflexivity|]. cbn [length seq fold_left]. rewrite IH.
    - f_equal. rewrite HF. destruct o'; try reflexivity. cbn [bindO]. specialize (H a 0 ltac:(cbn; lia)). rewrite Nat.add_0_r in H. exact H.
    - intros g c Hc. specialize (H g (S c) ltac:(cbn; lia)). rewrite Nat.add_succ_r in H. exact H. }
  apply (G 0 L o). exact Hf.
Qed.
Lemma foldO_bind : forall {A B} (f : A -> B -> outcome A) l o, fold_left (fun o b => bindO o (fun a => f a b)) l o = bindO o (fun a => foldO f l a).
Proof. intros A B f l o. unfold foldO. destruct o as [a| | |]; [reflexivity| | |]; cbn [bindO]; (induction l as [|b l IH]; [reflexivity|exact IH]). Qed.

Definition zipped (H F : csc) (ws ps : list num) : list column :=
  map (fun '((c, f), (w, p)) => (c, f, w, p)) (combine (combine (map (rows_at H) (seq 0 (csc_cols H))) (map (rows_at F) (seq 0 (csc_cols F)))) (combine ws ps)).
Lemma zipped_nth : forall H F ws ps c d, length ws = csc_cols H -> length ps = csc_cols H -> csc_cols F = csc_cols H -> c < csc_cols H ->
  nth_error (zipped H F ws ps) c = Some (rows_at H c, rows_at F c, nth c ws d, nth c ps d).
Proof.
  intros H F ws ps c d L1 L2 L3 Hc. unfold zipped. rewrite L3. rewrite nth_error_map.
  assert (E : nth_error (combine (combine (map (rows_at H) (seq 0 (csc_cols H))) (map (rows_at F) (seq 0 (csc_cols H)))) (combine ws ps)) c = Some ((rows_at H c, rows_at F c), (nth c ws d, nth c ps d))); [|rewrite E; reflexivity].
  assert (C : forall {A B} (l : list A) (m : list B) i a b, nth_error l i = Some a -> nth_error m i = Some b -> nth_error (combine l m) i = Some (a, b)).
  { intros A B. induction l as [|x l IH]; intros [|y m] [|i] a b Ha Hb; cbn in *; try discriminate; [congruence|now apply IH]. }
  assert (S : forall (G : csc), nth_error (map (rows_at G) (seq 0 (csc_cols H))) c = Some (rows_at G c)).
  { intros G. rewrite nth_error_map. rewrite (nth_error_nth' (seq 0 (csc_cols H)) 0) by (rewrite seq_length; exact Hc). rewrite seq_nth by exact Hc. reflexivity. }
  apply C; apply C; try apply S; apply nth_error_nth'; lia.
Qed.
Lemma zipped_length : forall H F ws ps, length ws = csc_cols H -> length ps = csc_cols H -> csc_cols F = csc_cols H -> length (zipped H F ws ps) = csc_cols H.
Proof. intros H F ws ps L1 L2 L3. unfold zipped. rewrite map_length, !combine_length, !map_length, !seq_length. lia. Qed.

Lemma sparse_column : forall H F reps virtual s (ws ps : list num) rep g c, solid H -> solid F -> csc_cols F = csc_cols H -> length ws = csc_cols H -> length ps = csc_cols H -> c < csc_cols H ->
  load_sparse_column H F reps virtual s ws ps rep g c = load_column (csc_rows H) reps rep virtual s (Ok g) (nth c (zipped H F ws ps) ([], [], p_none N, p_none N)).
Proof.
  intros H F reps virtual s ws ps rep g c SH SF EC L1 L2 Hc. rewrite (nth_error_nth _ _ _ (zipped_nth H F ws ps c (p_none N) L1 L2 EC Hc)). rewrite (rows_at_eq H c SH Hc), (rows_at_eq F c SF ltac:(lia)).
  pose proof SH as (H1 & H2 & _). pose proof SF as (F1 & F2 & _). specialize (H2 c Hc). specialize (F2 c ltac:(lia)). unfold load_sparse_column.
  rewrite (read_nth (indptr H) c 0) by lia. rewrite (read_nth (indptr H) (S c) 0) by lia. rewrite (read_nth (indptr F) c 0) by lia. rewrite (read_nth (indptr F) (S c) 0) by lia. cbn [bindO].
  set (a := nth c (indptr H) 0) in *. set (b := nth (S c) (indptr H) 0) in *. set (fa := nth c (indptr F) 0) in *. set (fb := nth (S c) (indptr F) 0) in *.
  assert (X : (length (indices H) <=? a) && negb (a =? b) = false) by (destruct (Nat.leb_spec (length (indices H)) a), (Nat.eqb_spec a b); try reflexivity; lia). rewrite X.
  assert (Y : (fb <? fa) = false) by (apply Nat.ltb_ge; lia). rewrite Y. assert (Z : (b <? a) = false) by (apply Nat.ltb_ge; lia). rewrite Z.
  rewrite firstn_nth by lia. cbn [bindO]. set (fs := firstn (fb - fa) (skipn fa (indices F))).
  assert (LR : length (firstn (b - a) (skipn a (indices H))) = b - a) by (rewrite firstn_length, skipn_length; lia).
  assert (NR : forall i, i < b - a -> nth i (firstn (b - a) (skipn a (indices H))) 0 = nth (a + i) (indices H) 0).
  { intros i Hi. rewrite <- (firstn_skipn a (indices H)) at 2. rewrite app_nth2; rewrite firstn_length; [|lia]. replace (a + i - Nat.min a (length (indices H))) with i by lia.
    rewrite <- (firstn_skipn (b - a) (skipn a (indices H))) at 2. rewrite app_nth1; [reflexivity|lia]. }
  destruct (b - a) as [|[|[|n]]] eqn:E.
  - reflexivity.
  - destruct (firstn 1 (skipn a (indices H))) as [|r [|? ?]] eqn:ER; try discriminate LR. specialize (NR 0 ltac:(lia)). rewrite Nat.add_0_r in NR. cbn [nth] in NR.
    rewrite (read_nth (indices H) a 0) by lia. rewrite (read_nth ws c (p_none N)), (read_nth ps c (p_none N)) by lia. cbn [bindO]. rewrite <- NR. unfold load_column. destruct virtual; reflexivity.
  - destruct (firstn 2 (skipn a (indices H))) as [|r [|r2 [|? ?]]] eqn:ER; try discriminate LR. pose proof (NR 0 ltac:(lia)) as N0. pose proof (NR 1 ltac:(lia)) as N1. rewrite Nat.add_0_r in N0. cbn [nth] in N0, N1.
    rewrite (read_nth (indices H) a 0), (read_nth (indices H) (a + 1) 0) by lia. rewrite (read_nth ws c (p_none N)), (read_nth ps c (p_none N)) by lia. cbn [bindO]. rewrite <- N0, <- N1. reflexivity.
  - destruct (firstn (S (S (S n))) (skipn a (indices H))) as [|r [|r2 [|r3 l]]]; try discriminate LR. reflexivity.
Qed.
Lemma sparse_timelike : forall H s (tws mes : list num) rep g row, length tws = csc_rows H -> length mes = csc_rows H -> row < csc_rows H ->
  load_sparse_timelike H s tws mes rep g row = load_timelike (csc_rows H) rep s (Ok g) (nth row (combine (seq 0 (csc_rows H)) (combine tws mes)) (0, (p_none N, p_none N))).
Proof.
  intros H s tws mes rep g row L1 L2 Hr. unfold load_sparse_timelike. rewrite (read_nth tws row (p_none N)), (read_nth mes row (p_none N)) by lia. cbn [bindO].
  rewrite combine_nth by (rewrite seq_length, combine_length; lia). rewrite combine_nth by lia. rewrite seq_nth by exact Hr. reflexivity.
Qed.
Lemma load_sparse_is : forall H F ws ps s virtual reps tws mes, solid H -> solid (match F with Some F => F | None => identity_matrix (csc_cols H) end) ->
  let F' := match F with Some F => F | None => identity_matrix (csc_cols H) end in
  load_sparse (N := N) H ws ps (Some s) virtual reps tws mes F =
  if forallb (fun x => u8 x =? 1)%Z (data H) && forallb (fun x => u8 x =? 1)%Z (data F')
  then load_check_matrix (csc_rows H) (map (rows_at H) (seq 0 (csc_cols H))) (map (rows_at F') (seq 0 (csc_cols F'))) (csc_rows F') ws ps s virtual reps tws mes
  else Throw.
Proof.
  intros H F ws ps s virtual reps tws mes SH. unfold load_sparse, load_check_matrix. set (F' := match F with Some F => F | None => identity_matrix (csc_cols H) end). intros SF. cbv zeta.
  pose proof SH as (H1 & _ & H3). pose proof SF as (F1 & _ & F3). unfold matrix_ok. rewrite H1, H3, F1, F3, !Nat.eqb_refl. cbn [andb].
  destruct (forallb _ (data H)); [|reflexivity]. destruct (forallb _ (data F')); [|reflexivity]. cbn [negb orb andb]. rewrite !map_length, !seq_length.
  destruct (Nat.eqb_spec (length ws) (csc_cols H)) as [E1|]; [|reflexivity]. destruct (Nat.eqb_spec (length ps) (csc_cols H)) as [E2|]; [|reflexivity]. destruct (Nat.eqb_spec (csc_cols H) (csc_cols F')) as [E3|]; [|reflexivity]. cbn [negb].
  fold (zipped H F' ws ps).
  assert (G1 : forall g, foldO (fun g rep => foldO (load_sparse_column H F' reps virtual s ws ps rep) (seq 0 (csc_cols H)) g) (seq 0 reps) g =
    fold_left (fun o rep => fold_left (load_column (csc_rows H) reps rep virtual s) (zipped H F' ws ps) o) (seq 0 reps) (Ok g)).
  { intros g. unfold foldO at 1. generalize (Ok g). induction (seq 0 reps) as [|rep l IH]; intros o; [reflexivity|]. cbn [fold_left]. rewrite IH. f_equal. rewrite <- foldO_bind.
    rewrite <- (foldO_index (load_column (csc_rows H) reps rep virtual s) (load_sparse_column H F' reps virtual s ws ps rep) (zipped H F' ws ps) ([], [], p_none N, p_none N)).
    - rewrite zipped_length by congruence. reflexivity.
    - apply load_column_bind.
    - intros g' c Hc. rewrite zipped_length in Hc by congruence. apply sparse_column; auto. }
  rewrite G1. set (g1 := fold_left _ (seq 0 reps) _). destruct (1 <? reps).
  - destruct tws as [t|], mes as [m|]; try (destruct g1; reflexivity). destruct g1 as [g1| | |]; try reflexivity. cbn [bindO].
    destruct (Nat.eqb_spec (length t) (csc_rows H)) as [E4|]; [|reflexivity]. destruct (Nat.eqb_spec (length m) (csc_rows H)) as [E5|]; [|reflexivity]. cbn [negb].
    assert (G2 : foldO (fun g rep => foldO (load_sparse_timelike H s t m rep) (seq 0 (csc_rows H)) g) (seq 0 (reps - 1)) g1 =
      fold_left (fun g rep => fold_left (load_timelike (csc_rows H) rep s) (combine (seq 0 (csc_rows H)) (combine t m)) g) (seq 0 (reps - 1)) (Ok g1)).
    { unfold foldO at 1. generalize (Ok g1). induction (seq 0 (reps - 1)) as [|rep l IH]; intros o; [reflexivity|]. cbn [fold_left]. rewrite IH. f_equal. rewrite <- foldO_bind.
      assert (LC : length (combine (seq 0 (csc_rows H)) (combine t m)) = csc_rows H) by (rewrite !combine_length, seq_length; lia).
      rewrite <- (foldO_index (load_timelike (csc_rows H) rep s) (load_sparse_timelike H s t m rep) (combine (seq 0 (csc_rows H)) (combine t m)) (0, (p_none N, p_none N))).
      - rewrite LC. reflexivity.
      - apply load_timelike_bind.
      - intros g' c Hc. rewrite LC in Hc. apply sparse_timelike; auto. }
    rewrite G2. reflexivity.
  - destruct g1; reflexivity.
Qed.
End Load.
