(** Loading a check matrix from Python: what the arguments stand for. *)
From Coq Require Import Arith ZArith List Bool Lia.
From Verif Require Import M_Base M_Bits M_UserGraph M_CheckMatrix P_CheckMatrix P_CheckMatrix2 S_CheckMatrix M_MatrixArgs S_MatrixArgs P_MatrixArgs.
Import ListNotations.
Local Open Scope outcome_scope.
Local Open Scope nat_scope.

Lemma in_slice : forall {X} (l : list X) a n x, In x (firstn n (skipn a l)) <-> exists i, a <= i < a + n /\ nth_error l i = Some x.
Proof.
  intros X l a n x. split.
  - intros H. apply In_nth_error in H as (j & H). assert (J : j < n). { destruct (Nat.lt_ge_cases j n) as [G|G]; [exact G|]. assert (E : nth_error (firstn n (skipn a l)) j = None) by (apply nth_error_None; rewrite firstn_length; lia). congruence. }
    exists (a + j). split; [lia|]. clear -H J. revert a l H. induction n as [|n IH] in j, J |- *; intros a l H; [lia|]. destruct (skipn a l) as [|y m] eqn:E; [destruct j; discriminate|]. 
    assert (S : nth_error l a = Some y /\ skipn (S a) l = m). { clear -E. revert l E. induction a as [|a IH]; intros [|z l] E; try discriminate; cbn in *; [split; congruence|now apply IH]. }
    destruct S as [S1 S2]. destruct j as [|j]; [rewrite Nat.add_0_r; cbn in H; congruence|]. cbn in H. rewrite <- S2 in H. rewrite Nat.add_succ_r. apply (IH j ltac:(lia) (S a) l H).
  - intros (i & Hi & H). revert a l Hi H. induction n as [|n IH]; intros a l Hi H; [lia|]. destruct (skipn a l) as [|y m] eqn:E.
    + assert (L : length l <= a). { assert (L : length (skipn a l) = 0) by (rewrite E; reflexivity). rewrite skipn_length in L. lia. } assert (nth_error l i <> None) as L2 by congruence. apply nth_error_Some in L2. lia.
    + assert (S : nth_error l a = Some y /\ skipn (S a) l = m). { clear -E. revert l E. induction a as [|a IH]; intros [|z l] E; try discriminate; cbn in *; [split; congruence|now apply IH]. }
      destruct S as [S1 S2]. destruct (Nat.eq_dec i a) as [->|]; [left; congruence|]. right. rewrite <- S2. apply (IH (S a) l); [lia|exact H].
Qed.
Lemma combine_nth_error : forall {A B} (l : list A) (m : list B) i x, nth_error (combine l m) i = Some x <-> nth_error l i = Some (fst x) /\ nth_error m i = Some (snd x).
Proof. intros A B. induction l as [|a l IH]; intros [|b m] [|i] [x y]; cbn; split; try intros [H1 H2]; try intros H; try discriminate; try (split; congruence); try congruence; try (destruct (IH m i (x, y)) as [K1 K2]; cbn [fst snd] in *; solve [auto]); destruct H1 || destruct H2 || idtac; congruence. Qed.
Lemma stored_holds : forall A r c k, c < csc_cols A -> (In (r, k) (stored A c) <-> holds A r c k).
Proof.
  intros A r c k Hc. unfold stored. rewrite in_slice. unfold holds, holds_at. split.
  - intros (i & Hi & H). apply combine_nth_error in H as [H1 H2]. exists i. split; [exact Hc|]. split; [lia|auto].
  - intros (i & _ & Hi & H1 & H2). exists i. split; [lia|]. apply combine_nth_error. auto.
Qed.
Lemma slice_nth : forall {X} (l : list X) a n i, i < n -> nth_error (firstn n (skipn a l)) i = nth_error l (a + i).
Proof.
  intros X l a n i Hi. revert l a n Hi. induction i as [|i IH]; intros l a [|n] Hi; try lia.
  - rewrite Nat.add_0_r. clear Hi. revert l. induction a as [|a IHa]; intros [|x l]; try reflexivity. cbn [skipn]. rewrite IHa. reflexivity.
  - destruct (skipn a l) as [|y m] eqn:E.
    + cbn. symmetry. apply nth_error_None. assert (L : length (skipn a l) = 0) by (rewrite E; reflexivity). rewrite skipn_length in L. lia.
    + assert (S : skipn (S a) l = m). { clear -E. revert l E. induction a as [|a IHa]; intros [|z l] E; try discriminate; cbn in *; [congruence|now apply IHa]. }
      cbn. rewrite <- S. rewrite IH by lia. f_equal. lia.
Qed.
Lemma rows_NoDup : forall A c, well_formed A -> c < csc_cols A -> NoDup (rows_at A c).
Proof.
  intros A c WF Hc. pose proof (formed_solid A WF) as SA. destruct WF as (_ & _ & _ & _ & LD & _ & U). rewrite (rows_at_eq A c SA Hc). apply NoDup_nth_error. intros i j Hi E.
  set (a := nth c (indptr A) 0) in *. set (b := nth (S c) (indptr A) 0) in *. rewrite firstn_length in Hi. rewrite slice_nth in E by lia.
  assert (Hj : j < b - a). { destruct (Nat.lt_ge_cases j (b - a)) as [G|G]; [exact G|]. assert (X : nth_error (firstn (b - a) (skipn a (indices A))) j = None) by (apply nth_error_None; rewrite firstn_length; lia). rewrite X in E. apply nth_error_None in E. rewrite skipn_length in Hi. lia. }
  rewrite slice_nth in E by lia. rewrite skipn_length in Hi. destruct (nth_error (indices A) (a + i)) as [r|] eqn:E1; [|apply nth_error_None in E1; lia]. symmetry in E.
  destruct (nth_error (data A) (a + i)) as [k|] eqn:E2; [|apply nth_error_None in E2; lia]. destruct (nth_error (data A) (a + j)) as [k'|] eqn:E3; [|apply nth_error_None in E3; pose proof (nth_error_Some (indices A) (a + j)) as X; rewrite E in X; assert (a + j < length (indices A)) by (apply X; discriminate); lia].
  assert (X : a + i = a + j); [|lia]. apply (U (a + i) (a + j) r c k k'); (split; [exact Hc|split; [lia|auto]]).
Qed.
Lemma holds_rows : forall A r c k, well_formed A -> holds A r c k -> r < csc_rows A /\ c < csc_cols A.
Proof. intros A r c k (_ & _ & _ & _ & _ & HR & _) (i & Hc & _ & H & _). split; [|exact Hc]. apply HR. exact (nth_error_In _ _ H). Qed.
Lemma holds_one : forall A r c k k', well_formed A -> holds A r c k -> holds A r c k' -> k = k'.
Proof. intros A r c k k' (_ & _ & _ & _ & _ & _ & U) (i & Hi) (j & Hj). pose proof (U i j r c k k' Hi Hj). subst j. destruct Hi as (_ & _ & _ & E1), Hj as (_ & _ & _ & E2). congruence. Qed.

(** The columns that the loader reads. *)
Definition like (rows cols : nat) (B : nat -> nat -> bool) (L : list (list nat)) : Prop :=
  length L = cols /\ forall c, c < cols -> NoDup (nth c L []) /\ forall r, In r (nth c L []) <-> r < rows /\ B r c = true.
Lemma nth_map_seq : forall {X} (f : nat -> X) n c d, c < n -> nth c (map f (seq 0 n)) d = f c.
Proof. intros X f n c d Hc. rewrite (nth_indep _ d (f 0)) by (rewrite map_length, seq_length; exact Hc). rewrite map_nth, seq_nth by exact Hc. reflexivity. Qed.
Lemma ones_like : forall rows cols B, like rows cols B (ones_of rows cols B).
Proof.
  intros rows cols B. split; [unfold ones_of; now rewrite map_length, seq_length|]. intros c Hc. unfold ones_of. rewrite nth_map_seq by exact Hc. split; [apply NoDup_filter, seq_NoDup|]. intros r. rewrite filter_In, in_seq. split; intros [X1 X2]; split; (exact X2 || lia).
Qed.
Definition nonzero (x : nat * Z) : bool := negb (snd x =? 0)%Z.
Lemma elim_stored : forall H c, c < csc_cols H -> stored (eliminate_zeros H) c = filter nonzero (stored H c).
Proof. intros H c Hc. unfold eliminate_zeros. rewrite stored_of_columns by (rewrite map_length, seq_length; exact Hc). now rewrite nth_map_seq. Qed.
Lemma elim_cols : forall H, csc_cols (eliminate_zeros H) = csc_cols H.
Proof. intros H. unfold eliminate_zeros, of_columns. cbn [csc_cols]. now rewrite map_length, seq_length. Qed.
Lemma elim_values : forall H k, In k (data (eliminate_zeros H)) <-> k <> 0%Z /\ exists r c, holds H r c k.
Proof.
  intros H k. unfold eliminate_zeros, of_columns. cbn [data]. rewrite in_map_iff. split.
  - intros ([r k'] & <- & Hx). apply in_concat in Hx as (l & Hl & Hx). apply in_map_iff in Hl as (c & <- & Hc). apply in_seq in Hc. apply filter_In in Hx as [H1 H2]. cbn [snd] in *. split; [intros ->; discriminate|]. exists r, c. apply stored_holds; [lia|exact H1].
  - intros (HK & r & c & HH). exists (r, k). split; [reflexivity|]. assert (Hc : c < csc_cols H) by (destruct HH as (i & Hi & _); exact Hi). apply in_concat. exists (filter nonzero (stored H c)). split; [apply in_map_iff; exists c; split; [reflexivity|apply in_seq; lia]|].
    apply filter_In. split; [now apply stored_holds|]. unfold nonzero. cbn [snd]. destruct (Z.eqb_spec k 0); [congruence|reflexivity].
Qed.
Lemma map_filter_NoDup : forall {X Y} (f : X -> Y) (p : X -> bool) l, NoDup (map f l) -> NoDup (map f (filter p l)).
Proof.
  intros X Y f p. induction l as [|x l IH]; intros H; [constructor|]. cbn [map] in H. apply NoDup_cons_iff in H as [H1 H2]. cbn [filter]. destruct (p x); [|now apply IH]. cbn [map]. constructor; [|now apply IH].
  intros HI. apply H1. apply in_map_iff in HI as (y & <- & Hy). apply filter_In in Hy as [Hy _]. now apply in_map.
Qed.
Lemma check_like : forall H B, represents H B -> like (csc_rows H) (csc_cols H) B (map (rows_at (eliminate_zeros H)) (seq 0 (csc_cols H))) /\ forallb (fun x => u8 x =? 1)%Z (data (eliminate_zeros H)) = true.
Proof.
  intros H B [WF HB]. split; [split; [now rewrite map_length, seq_length|]; intros c Hc; rewrite nth_map_seq by exact Hc; unfold rows_at; rewrite elim_stored by exact Hc; split|].
  - apply map_filter_NoDup. exact (rows_NoDup H c WF Hc).
  - intros r. rewrite in_map_iff. split.
    + intros ([r' k] & <- & Hx). apply filter_In in Hx as [Hx NZ]. apply stored_holds in Hx; [|exact Hc]. cbn [fst]. destruct (holds_rows H r' c k WF Hx) as [Hr _]. split; [exact Hr|]. specialize (HB r' c Hr Hc). destruct (B r' c); [reflexivity|]. rewrite (HB k Hx) in NZ. discriminate.
    + intros [Hr E]. specialize (HB r c Hr Hc). rewrite E in HB. exists (r, 1%Z). split; [reflexivity|]. apply filter_In. split; [now apply stored_holds|reflexivity].
  - apply forallb_forall. intros k Hk. apply elim_values in Hk as (NZ & r & c & HH). destruct (holds_rows H r c k WF HH) as [Hr Hc]. specialize (HB r c Hr Hc). destruct (B r c); [|elim NZ; now apply HB]. rewrite (holds_one H r c k 1%Z WF HH HB). reflexivity.
Qed.
Lemma in_data : forall A k, well_formed A -> In k (data A) -> exists r c, holds A r c k.
Proof.
  intros A k WF HI. pose proof WF as (H1 & H2 & H3 & H4 & H5 & _). apply In_nth_error in HI as (i & E). assert (L : i < length (indices A)). { rewrite <- H5. apply nth_error_Some. congruence. }
  assert (X : exists c, c < csc_cols A /\ nth c (indptr A) 0 <= i < nth (S c) (indptr A) 0).
  { rewrite <- H4 in L. clear -L H2. revert L. generalize (csc_cols A). induction n as [|n IH]; intros L; [lia|]. destruct (Nat.lt_ge_cases i (nth n (indptr A) 0)) as [G|G]; [destruct (IH G) as (c & Hc & X); exists c; split; [lia|exact X]|]. exists n. split; [lia|]. lia. }
  destruct X as (c & Hc & X). destruct (nth_error (indices A) i) as [r|] eqn:E1; [|apply nth_error_None in E1; lia]. exists r, c, i. split; [exact Hc|]. split; [exact X|]. auto.
Qed.
Lemma faults_like : forall A F, represents A F -> ~ In 0%Z (data A) -> like (csc_rows A) (csc_cols A) F (map (rows_at A) (seq 0 (csc_cols A))) /\ forallb (fun x => u8 x =? 1)%Z (data A) = true.
Proof.
  intros A F [WF HB] NZ. assert (V : forall r c k, holds A r c k -> k <> 0%Z) by (intros r c k (i & _ & _ & _ & E) ->; exact (NZ (nth_error_In _ _ E))).
  split; [split; [now rewrite map_length, seq_length|]; intros c Hc; rewrite nth_map_seq by exact Hc; split|].
  - exact (rows_NoDup A c WF Hc).
  - intros r. unfold rows_at. rewrite in_map_iff. split.
    + intros ([r' k] & <- & Hx). apply stored_holds in Hx; [|exact Hc]. cbn [fst]. destruct (holds_rows A r' c k WF Hx) as [Hr _]. split; [exact Hr|]. specialize (HB r' c Hr Hc). destruct (F r' c); [reflexivity|]. elim (V _ _ _ Hx). now apply HB.
    + intros [Hr E]. specialize (HB r c Hr Hc). rewrite E in HB. exists (r, 1%Z). split; [reflexivity|]. now apply stored_holds.
  - apply forallb_forall. intros k Hk. destruct (in_data A k WF Hk) as (r & c & HH). destruct (holds_rows A r c k WF HH) as [Hr Hc]. specialize (HB r c Hr Hc). destruct (F r c); [|elim (V _ _ _ HH); now apply HB]. rewrite (holds_one A r c k 1%Z WF HH HB). reflexivity.
Qed.
Lemma identity_like : forall n F, (forall i j, F i j = (i =? j)) -> like n n F (map (rows_at (identity_matrix n)) (seq 0 n)) /\ forallb (fun x => u8 x =? 1)%Z (data (identity_matrix n)) = true.
Proof.
  intros n F HF. split; [split; [now rewrite map_length, seq_length|]; intros c Hc; rewrite nth_map_seq by exact Hc|].
  - unfold rows_at, identity_matrix. rewrite stored_of_columns by (rewrite map_length, seq_length; exact Hc). rewrite nth_map_seq by exact Hc. cbn [map fst]. split; [constructor; [intros []|constructor]|]. intros r. rewrite HF. cbn [In]. rewrite Nat.eqb_eq. split; [intros [<-|[]]; auto|intros [_ ->]; auto].
  - apply forallb_forall. intros k Hk. unfold identity_matrix, of_columns in Hk. cbn [data] in Hk. apply in_map_iff in Hk as (x & <- & Hx). apply in_concat in Hx as (l & Hl & Hx). apply in_map_iff in Hl as (i & <- & _). destruct Hx as [<-|[]]. reflexivity.
Qed.

Section Args.
Context {N : numops}.
Lemma means_broadcast : forall n (d : num N) a b l, means n d a b l -> exists x, either a b = Ok x /\ broadcast n d x = Ok l.
Proof. intros n d a b l H. destruct a, b; cbn in H; try contradiction; subst l; (eexists; split; [reflexivity|reflexivity]). Qed.
Lemma broadcast_means : forall n (d : num N) a b x l, either a b = Ok x -> broadcast n d x = Ok l -> means n d a b l.
Proof. intros n d a b x l H1 H2. destruct a, b; cbn in H1; try discriminate; injection H1 as <-; cbn in H2; try discriminate; injection H2 as <-; reflexivity. Qed.

Lemma elim_solid : forall H, solid (eliminate_zeros H).
Proof. intros H. apply of_columns_solid. Qed.
Lemma call_is : forall (one : num N) a rows cols B ws ps reps tws mes s nf F, call_means one a rows cols B ws ps reps tws mes s nf F ->
  exists Lc Lf, py_load_check_matrix one a = load_check_matrix rows Lc Lf nf ws ps s (a_virtual a) reps tws mes /\ like rows cols B Lc /\ like nf cols F Lf.
Proof.
  intros one a rows cols B ws ps reps tws mes s nf F ((H & HC & <- & <- & RH) & MW & MP & ER & MT & ES & MF).
  destruct (means_broadcast _ _ _ _ _ MW) as (w & W1 & W2). destruct (means_broadcast _ _ _ _ _ MP) as (p & P1 & P2). destruct (check_like H B RH) as [LC DH].
  assert (PE : p = a_errors a) by (destruct (a_errors a); cbn in P1; congruence). subst p.
  assert (FX : exists Lf, like nf (csc_cols H) F Lf /\ forall tws' mes', load_sparse (eliminate_zeros H) ws ps (Some s) (a_virtual a) reps tws' mes' (a_faults a) =
    load_check_matrix (csc_rows H) (map (rows_at (eliminate_zeros H)) (seq 0 (csc_cols H))) Lf nf ws ps s (a_virtual a) reps tws' mes').
  { unfold faults_are in MF. destruct (a_faults a) as [A|] eqn:EA.
    - destruct MF as (E1 & E2 & RF & NZ). destruct (faults_like A F RF NZ) as [LF DF]. exists (map (rows_at A) (seq 0 (csc_cols A))). split; [rewrite <- E1, <- E2; exact LF|]. intros tws' mes'.
      rewrite (load_sparse_is (eliminate_zeros H) (Some A) ws ps s (a_virtual a) reps tws' mes' (elim_solid H) (formed_solid A (proj1 RF))). rewrite DH, DF, elim_cols, E1. reflexivity.
    - destruct MF as [-> HF]. destruct (identity_like (csc_cols H) F HF) as [LF DF]. exists (map (rows_at (identity_matrix (csc_cols H))) (seq 0 (csc_cols H))). split; [exact LF|]. intros tws' mes'.
      rewrite (load_sparse_is (eliminate_zeros H) None ws ps s (a_virtual a) reps tws' mes' (elim_solid H)); [|apply of_columns_solid]. rewrite !elim_cols, DH, DF. cbn [andb].
      assert (EI : csc_cols (identity_matrix (csc_cols H)) = csc_cols H) by (unfold identity_matrix, of_columns; cbn [csc_cols]; now rewrite map_length, seq_length). rewrite EI. reflexivity. }
  destruct FX as (Lf & LF & EL). exists (map (rows_at (eliminate_zeros H)) (seq 0 (csc_cols H))), Lf. split; [|split; [exact LC|exact LF]]. unfold py_load_check_matrix.
  assert (EH : match a_matrix a, a_H a with Some H, _ | None, Some H => Ok H | None, None => Throw end = Ok H) by (destruct HC as [->|[-> ->]]; reflexivity). rewrite EH. cbn [bindO].
  rewrite W1. cbn [bindO]. rewrite W2, P2. cbn [bindO]. fold (rounds a). unfold rounds in *. rewrite ER, ES, Nat2Z.id. destruct (Nat.ltb_spec 1 reps) as [L|L].
  - destruct (Z.ltb_spec 1 (Z.of_nat reps)) as [_|G]; [|lia]. destruct MT as (t & m & -> & -> & MT & MM). destruct (means_broadcast _ _ _ _ _ MT) as (t' & T1 & T2). destruct (means_broadcast _ _ _ _ _ MM) as (m' & M1 & M2).
    assert (TE : t' = a_timelike a) by (destruct (a_timelike a); cbn in T1; congruence). subst t'. change (csc_rows (eliminate_zeros H)) with (csc_rows H). rewrite T2. cbn [bindO]. rewrite M1. cbn [bindO]. rewrite M2. cbn [bindO]. apply EL.
  - destruct (Z.ltb_spec 1 (Z.of_nat reps)) as [G|_]; [lia|]. destruct (Z.ltb_spec (Z.of_nat reps) 0) as [G|_]; [lia|]. destruct MT as [-> ->]. apply EL.
Qed.

(** Two ways of listing the ones. *)
Lemma like_length : forall rows cols B L c, like rows cols B L -> c < cols -> length (nth c L []) = length (filter (fun r => B r c) (seq 0 rows)).
Proof.
  intros rows cols B L c [_ H] Hc. destruct (H c Hc) as [N1 H1]. destruct (ones_like rows cols B) as [_ H']. destruct (H' c Hc) as [N2 H2]. unfold ones_of in N2, H2. rewrite nth_map_seq in N2, H2 by exact Hc.
  apply Nat.le_antisymm; apply NoDup_incl_length; auto; intros r Hr; [apply H2, H1|apply H1, H2]; exact Hr.
Qed.
Lemma count_NoDup : forall l i, NoDup l -> count_occ Nat.eq_dec l i = if in_dec Nat.eq_dec i l then 1 else 0.
Proof.
  intros l i N0. destruct (in_dec Nat.eq_dec i l) as [H|H]; [|now apply count_occ_not_In]. pose proof (proj1 (NoDup_count_occ Nat.eq_dec l) N0 i). apply (count_occ_In Nat.eq_dec) in H. lia.
Qed.
Lemma like_odd : forall rows cols B L L' i r, like rows cols B L -> like rows cols B L' -> odd_count r (nth i L []) = odd_count r (nth i L' []).
Proof.
  intros rows cols B L L' i r [E1 H] [E2 H']. destruct (Nat.lt_ge_cases i cols) as [Hi|Hi]; [|rewrite !nth_overflow by lia; reflexivity]. destruct (H i Hi) as [N1 H1], (H' i Hi) as [N2 H2]. unfold odd_count. rewrite !count_NoDup by assumption.
  destruct (in_dec Nat.eq_dec r (nth i L [])) as [X|X], (in_dec Nat.eq_dec r (nth i L' [])) as [Y|Y]; try reflexivity; exfalso; [apply Y, H2, H1, X|apply X, H1, H2, Y].
Qed.

(** Accepted and refused. *)
Lemma call_loads : forall (one : num N) a rows cols B ws ps reps tws mes s nf F, call_means one a rows cols B ws ps reps tws mes s nf F -> s <> DISALLOW -> length ws = cols -> length ps = cols ->
  (forall t m, tws = Some t -> mes = Some m -> length t = rows /\ length m = rows) -> (forall c, c < cols -> length (filter (fun r => B r c) (seq 0 rows)) <= 2) -> exists g, py_load_check_matrix one a = Ok g.
Proof.
  intros one a rows cols B ws ps reps tws mes s nf F CM NS LW LP LT L2. pose proof CM as (_ & _ & _ & _ & MT & _). destruct (call_is _ _ _ _ _ _ _ _ _ _ _ _ _ CM) as (Lc & Lf & -> & LC & LF).
  apply check_matrix_accepts; [rewrite (proj1 LC)|rewrite (proj1 LC)|rewrite (proj1 LC), (proj1 LF)| | |exact NS]; auto.
  - intros c Hc. apply In_nth with (d := []) in Hc as (i & Hi & <-). rewrite (proj1 LC) in Hi. rewrite (like_length rows cols B Lc i LC Hi). now apply L2.
  - intros HR. apply Nat.ltb_lt in HR. rewrite HR in MT. destruct MT as (t & m & -> & -> & _). exists t, m. destruct (LT t m eq_refl eq_refl). auto.
Qed.
Lemma load_conditions : forall (one : num N) a g H, py_load_check_matrix one a = Ok g -> check_matrix a H -> (forall F, a_faults a = Some F -> well_formed F) ->
  (0 <= rounds a)%Z /\ a_strategy a <> None /\
  (exists ws, means (csc_cols H) one (a_weights a) (a_spacelike a) ws /\ length ws = csc_cols H) /\
  (exists ps, means (csc_cols H) (p_none N) (a_errors a) NotGiven ps /\ length ps = csc_cols H) /\
  ((1 < rounds a)%Z -> exists t m, means (csc_rows H) one (a_timelike a) NotGiven t /\ means (csc_rows H) (p_none N) (a_measurement a) (a_measurement_old a) m /\ length t = csc_rows H /\ length m = csc_rows H) /\
  (forall r c k, holds H r c k -> k = 0%Z \/ (k mod 256 = 1)%Z) /\
  ((0 < rounds a)%Z -> forall c, c < csc_cols H -> length (rows_at (eliminate_zeros H) c) <= 2) /\
  (forall F, a_faults a = Some F -> csc_cols F = csc_cols H /\ forall k, In k (data F) -> (k mod 256 = 1)%Z).
Proof.
  intros one a g H LD HC WF. unfold py_load_check_matrix in LD. assert (EH : match a_matrix a, a_H a with Some H, _ | None, Some H => Ok H | None, None => Throw end = Ok H) by (destruct HC as [->|[-> ->]]; reflexivity). rewrite EH in LD. cbn [bindO] in LD.
  destruct (either (a_weights a) (a_spacelike a)) as [w| | |] eqn:W1; cbn [bindO] in LD; try discriminate. destruct (broadcast (csc_cols H) one w) as [ws| | |] eqn:W2; cbn [bindO] in LD; try discriminate.
  destruct (broadcast (csc_cols H) (p_none N) (a_errors a)) as [ps| | |] eqn:P2; cbn [bindO] in LD; try discriminate. change (match a_repetitions a with None => 1%Z | Some z => z end) with (rounds a) in LD. change (csc_rows (eliminate_zeros H)) with (csc_rows H) in LD.
  pose proof (broadcast_means _ _ _ _ _ _ W1 W2) as MW. assert (P1 : either (a_errors a) NotGiven = Ok (a_errors a)) by (destruct (a_errors a); reflexivity). pose proof (broadcast_means _ _ _ _ _ _ P1 P2) as MP.
  assert (K : forall tws mes, load_sparse (eliminate_zeros H) ws ps (a_strategy a) (a_virtual a) (Z.to_nat (rounds a)) tws mes (a_faults a) = Ok g -> a_strategy a <> None /\
    length ws = csc_cols H /\ length ps = csc_cols H /\ (forall r c k, holds H r c k -> k = 0%Z \/ (k mod 256 = 1)%Z) /\ ((0 < rounds a)%Z -> forall c, c < csc_cols H -> length (rows_at (eliminate_zeros H) c) <= 2) /\
    (forall F, a_faults a = Some F -> csc_cols F = csc_cols H /\ forall k, In k (data F) -> (k mod 256 = 1)%Z) /\ ((1 < rounds a)%Z -> exists t m, tws = Some t /\ mes = Some m /\ length t = csc_rows H /\ length m = csc_rows H)).
  { clear LD. intros tws mes LD. destruct (a_strategy a) as [s|] eqn:ES; [|exfalso; unfold load_sparse in LD; repeat (match type of LD with context [if ?b then _ else _] => destruct b; try discriminate LD end)].
    rewrite (load_sparse_is (eliminate_zeros H) (a_faults a) ws ps s (a_virtual a) (Z.to_nat (rounds a)) tws mes (elim_solid H)) in LD; [|destruct (a_faults a) as [F|]; [apply formed_solid; now apply WF|apply of_columns_solid]].
    set (F' := match a_faults a with Some F => F | None => identity_matrix (csc_cols (eliminate_zeros H)) end) in *.
    destruct (forallb _ (data (eliminate_zeros H))) eqn:DH; [|discriminate]. destruct (forallb _ (data F')) eqn:DF; [|discriminate]. cbn [andb] in LD. rewrite elim_cols in LD.
    split; [discriminate|]. assert (PR : (0 < rounds a)%Z -> 0 < Z.to_nat (rounds a)) by lia.
    assert (RJ : length ws = csc_cols H /\ length ps = csc_cols H /\ csc_cols F' = csc_cols H /\ ((0 < rounds a)%Z -> forall c, c < csc_cols H -> length (rows_at (eliminate_zeros H) c) <= 2) /\ (1 < Z.to_nat (rounds a) -> exists t m, tws = Some t /\ mes = Some m /\ length t = csc_rows H /\ length m = csc_rows H)).
    { destruct (load_check_matrix_calls _ _ _ _ _ _ _ _ _ _ _ _ LD) as (A1 & A2 & A3 & A5 & A4 & _). rewrite !map_length, !seq_length in *. split; [exact A1|]. split; [exact A2|]. split; [exact A3|]. split; [|exact A5].
      intros HR c Hc. apply (A4 (PR HR)). apply in_map_iff. exists c. split; [reflexivity|]. apply in_seq. lia. }
    split; [exact (proj1 RJ)|]. split; [exact (proj1 (proj2 RJ))|]. split; [|split; [exact (proj1 (proj2 (proj2 (proj2 RJ))))|split]].
    - intros r c k HH. destruct (Z.eq_dec k 0) as [->|NZ]; [now left|]. right. rewrite forallb_forall in DH. apply Z.eqb_eq. apply DH. apply elim_values. eauto.
    - intros F EF. subst F'. rewrite EF in *. split; [exact (proj1 (proj2 (proj2 RJ)))|]. intros k Hk. rewrite forallb_forall in DF. apply Z.eqb_eq. now apply DF.
    - intros HR. apply (proj2 (proj2 (proj2 (proj2 RJ)))). lia. }
  destruct (Z.ltb_spec 1 (rounds a)) as [L|L].
  - destruct (broadcast (csc_rows H) one (a_timelike a)) as [t| | |] eqn:T2; cbn [bindO] in LD; try discriminate. destruct (either (a_measurement a) (a_measurement_old a)) as [m| | |] eqn:M1; cbn [bindO] in LD; try discriminate.
    destruct (broadcast (csc_rows H) (p_none N) m) as [me| | |] eqn:M2; cbn [bindO] in LD; try discriminate. assert (T1 : either (a_timelike a) NotGiven = Ok (a_timelike a)) by (destruct (a_timelike a); reflexivity).
    pose proof (broadcast_means _ _ _ _ _ _ T1 T2) as MT. pose proof (broadcast_means _ _ _ _ _ _ M1 M2) as MM. destruct (K _ _ LD) as (K1 & K2 & K3 & K4 & K5 & K6 & K7).
    split; [lia|]. split; [exact K1|]. split; [exists ws; auto|]. split; [exists ps; auto|]. split; [|auto]. intros HR. destruct (K7 HR) as (t' & m' & E1 & E2 & E3 & E4). injection E1 as <-. injection E2 as <-. exists t, me. auto.
  - destruct (Z.ltb_spec (rounds a) 0) as [|G]; [discriminate|]. destruct (K _ _ LD) as (K1 & K2 & K3 & K4 & K5 & K6 & K7). split; [exact G|]. split; [exact K1|]. split; [exists ws; auto|]. split; [exists ps; auto|]. split; [lia|auto].
Qed.
End Args.
