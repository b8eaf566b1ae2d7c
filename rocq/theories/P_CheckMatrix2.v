(** Check-matrix loading: exactness. *)
From Coq Require Import Arith List Bool Lia.
From Verif Require Import M_Base M_UserGraph S_UserGraph P_UserGraph S_GraphMap P_GraphMap M_CheckMatrix S_CheckMatrix P_CheckMatrix.
Import ListNotations.

Section Proofs.
Context {N : numops}.

Lemma amo_app : forall {A} (P : A -> bool) l l', length (filter P l) <= 1 -> length (filter P l') <= 1 ->
  (forall a b, In a l -> In b l' -> P a = true -> P b = true -> False) -> length (filter P (l ++ l')) <= 1.
Proof.
  intros A P l l' H H' HD. rewrite filter_app, app_length.
  destruct (filter P l) as [|a k] eqn:E; [cbn; exact H'|]. destruct (filter P l') as [|b k'] eqn:E'; [cbn [length] in *; lia|].
  exfalso. assert (Ha : In a (filter P l)) by (rewrite E; left; reflexivity). assert (Hb : In b (filter P l')) by (rewrite E'; left; reflexivity).
  apply filter_In in Ha, Hb. apply (HD a b); tauto.
Qed.

Lemma amo_flat_map : forall {A B} (P : B -> bool) (f : A -> list B) l,
  (forall a, In a l -> length (filter P (f a)) <= 1) ->
  (forall i j a b c d, nth_error l i = Some a -> nth_error l j = Some b -> In c (f a) -> In d (f b) -> P c = true -> P d = true -> i = j) ->
  length (filter P (flat_map f l)) <= 1.
Proof.
  induction l as [|a l IH]; intros H HU; [cbn; lia|]. cbn [flat_map]. apply amo_app.
  - apply H. left. reflexivity.
  - apply IH; [intros; apply H; right; assumption|]. intros i j a' b' c d Hi Hj Hc Hd Pc Pd.
    specialize (HU (S i) (S j) a' b' c d Hi Hj Hc Hd Pc Pd). lia.
  - intros c d Hc Hd Pc Pd. apply in_flat_map in Hd. destruct Hd as (b & Hb & Hd). apply In_nth_error in Hb. destruct Hb as [j Hj].
    specialize (HU 0 (S j) a b c d eq_refl Hj Hc Hd Pc Pd). discriminate.
Qed.

Lemma amo_unique : forall {A} (P : A -> bool) l, length (filter P l) <= 1 ->
  forall i j c d, nth_error l i = Some c -> nth_error l j = Some d -> P c = true -> P d = true -> i = j.
Proof.
  induction l as [|a l IH]; intros H i j c d Hi Hj Hc Hd; [destruct i; discriminate|].
  cbn [filter] in H. destruct i as [|i], j as [|j]; cbn in Hi, Hj.
  - reflexivity.
  - injection Hi as ->. rewrite Hc in H. cbn in H. exfalso. assert (In d (filter P l)) by (apply filter_In; split; [eapply nth_error_In; eauto|exact Hd]).
    destruct (filter P l); [assumption|cbn in H; lia].
  - injection Hj as ->. rewrite Hd in H. cbn in H. exfalso. assert (In c (filter P l)) by (apply filter_In; split; [eapply nth_error_In; eauto|exact Hc]).
    destruct (filter P l); [assumption|cbn in H; lia].
  - f_equal. apply (IH ltac:(destruct (P a); cbn in H; lia) i j c d); assumption.
Qed.

Lemma zip_nth : forall cols faults (ws ps : list (num N)) i rs fs w p,
  length ws = length cols -> length ps = length cols -> length faults = length cols ->
  (nth_error (zip cols faults ws ps) i = Some (rs, fs, w, p) <->
   nth_error cols i = Some rs /\ nth_error faults i = Some fs /\ nth_error ws i = Some w /\ nth_error ps i = Some p).
Proof.
  unfold zip. induction cols as [|c cols IH]; intros [|f faults] [|w0 ws] [|p0 ps] i rs fs w p H1 H2 H3; cbn in H1, H2, H3; try discriminate.
  - destruct i; cbn; split; intros H; try discriminate; destruct H; discriminate.
  - destruct i as [|i]; cbn [combine map nth_error].
    + split; [intros H; injection H as -> -> -> ->; auto|intros (A & B & C & D); injection A as ->; injection B as ->; injection C as ->; injection D as ->; reflexivity].
    + apply IH; lia.
Qed.

Lemma lay_inj : forall R t t' r r', t * R + r = t' * R + r' -> r < R -> r' < R -> t = t' /\ r = r'.
Proof. intros R t t' r r' H Hr Hr'. destruct (Nat.div_mod_unique R t t' r r'); try lia. Qed.

Lemma lay_lt : forall R t reps r, t < reps -> r < R -> t * R + r < reps * R.
Proof. intros. nia. Qed.

Definition good (rows : nat) (rs : list nat) : Prop := forall r, In r rs -> r < rows.

Lemma column_unique : forall rows reps virtual t t' rs rs' x y, good rows rs -> good rows rs' -> t < reps -> t' < reps ->
  column_joins rows reps virtual t rs x y -> column_joins rows reps virtual t' rs' x y ->
  t = t' /\ same_support rs rs'.
Proof.
  intros rows reps virtual t t' rs rs' x y HG HG' Ht Ht' (u & v & E & H) (u' & v' & E' & H').
  destruct rs as [|r1 [|r2 [|]]]; try discriminate; destruct rs' as [|r1' [|r2' [|]]]; try discriminate; cbn [layer_pair] in E, E';
    injection E as <- <-; injection E' as <- <-.
  - pose proof (HG r1 (or_introl eq_refl)). pose proof (HG' r1' (or_introl eq_refl)).
    assert (HH : t * rows + r1 = t' * rows + r1').
    { pose proof (lay_lt rows t reps r1 Ht H0). pose proof (lay_lt rows t' reps r1' Ht' H1).
      destruct virtual; destruct H as [[? ?]|[? ?]], H' as [[? ?]|[? ?]]; try congruence; try (assert (reps * rows = x) by congruence; assert (t' * rows + r1' = x) by congruence; lia).
      all: try (assert (x = reps * rows) by congruence; lia). }
    apply lay_inj in HH; [|assumption|assumption]. destruct HH as [-> ->]. split; [reflexivity|intros r; tauto].
  - exfalso. pose proof (HG r1 (or_introl eq_refl)). pose proof (HG' r1' (or_introl eq_refl)). pose proof (HG' r2' (or_intror (or_introl eq_refl))).
    pose proof (lay_lt rows t reps r1 Ht H0). pose proof (lay_lt rows t' reps r1' Ht' H1). pose proof (lay_lt rows t' reps r2' Ht' H2).
    destruct virtual; destruct H as [[? ?]|[? ?]], H' as [[? ?]|[? ?]]; subst; try discriminate;
      repeat match goal with E : Some _ = Some _ |- _ => injection E as E end; lia.
  - exfalso. pose proof (HG' r1' (or_introl eq_refl)). pose proof (HG r1 (or_introl eq_refl)). pose proof (HG r2 (or_intror (or_introl eq_refl))).
    pose proof (lay_lt rows t' reps r1' Ht' H0). pose proof (lay_lt rows t reps r1 Ht H1). pose proof (lay_lt rows t reps r2 Ht H2).
    destruct virtual; destruct H as [[? ?]|[? ?]], H' as [[? ?]|[? ?]]; subst; try discriminate;
      repeat match goal with E : Some _ = Some _ |- _ => injection E as E end; lia.
  - pose proof (HG r1 (or_introl eq_refl)). pose proof (HG r2 (or_intror (or_introl eq_refl))).
    pose proof (HG' r1' (or_introl eq_refl)). pose proof (HG' r2' (or_intror (or_introl eq_refl))).
    assert (HH : (t * rows + r1 = t' * rows + r1' /\ t * rows + r2 = t' * rows + r2') \/ (t * rows + r1 = t' * rows + r2' /\ t * rows + r2 = t' * rows + r1')).
    { destruct H as [[? ?]|[? ?]], H' as [[? ?]|[? ?]]; subst; repeat match goal with E : Some _ = Some _ |- _ => injection E as E end; lia. }
    destruct HH as [[A B]|[A B]]; apply lay_inj in A; apply lay_inj in B; try assumption; destruct A as [-> ->], B as [_ ->]; (split; [reflexivity|]); intros r; cbn; tauto.
Qed.

Lemma time_unique : forall rows t t' row row' x y, row < rows -> row' < rows ->
  time_joins rows t row x y -> time_joins rows t' row' x y -> t = t' /\ row = row'.
Proof.
  intros rows t t' row row' x y Hr Hr' H H'.
  assert (HH : t * rows + row = t' * rows + row').
  { destruct H as [[? ?]|[? ?]], H' as [[? ?]|[? ?]]; subst; repeat match goal with E : Some _ = Some _ |- _ => injection E as E end; try lia.
    all: exfalso; nia. }
  apply lay_inj in HH; assumption.
Qed.

Lemma column_time_disjoint : forall rows reps virtual t t' rs row x y, good rows rs -> t < reps -> S t' < reps -> row < rows ->
  column_joins rows reps virtual t rs x y -> time_joins rows t' row x y -> False.
Proof.
  intros rows reps virtual t t' rs row x y HG Ht Ht' Hr (u & v & E & H) H'.
  pose proof (lay_lt rows (S t') reps row Ht' Hr).
  destruct rs as [|r1 [|r2 [|]]]; try discriminate; cbn [layer_pair] in E; injection E as <- <-.
  - pose proof (HG r1 (or_introl eq_refl)). pose proof (lay_lt rows t reps r1 Ht H1).
    destruct virtual; destruct H as [[? ?]|[? ?]], H' as [[? ?]|[? ?]]; subst; try discriminate;
      repeat match goal with E : Some _ = Some _ |- _ => injection E as E end; try lia; nia.
  - pose proof (HG r1 (or_introl eq_refl)). pose proof (HG r2 (or_intror (or_introl eq_refl))).
    assert (HH : (t * rows + r1 = t' * rows + row /\ t * rows + r2 = S t' * rows + row) \/ (t * rows + r1 = S t' * rows + row /\ t * rows + r2 = t' * rows + row)).
    { destruct H as [[? ?]|[? ?]], H' as [[? ?]|[? ?]]; subst; repeat match goal with E : Some _ = Some _ |- _ => injection E as E end; lia. }
    destruct HH as [[A B]|[A B]]; apply lay_inj in A; try assumption; apply lay_inj in B; try assumption; lia.
Qed.

Lemma nth_error_seq : forall n i t, nth_error (seq 0 n) i = Some t -> t = i /\ i < n.
Proof.
  intros n i t H. assert (i < n) by (rewrite <- (seq_length n 0); apply nth_error_Some; congruence).
  split; [|assumption]. rewrite (nth_error_nth' (seq 0 n) 0) in H by (rewrite seq_length; assumption). rewrite seq_nth in H by assumption. injection H as <-. reflexivity.
Qed.

Lemma combine_nth_seq : forall rows (t m : list (num N)) i row w p, length t = rows -> length m = rows ->
  (nth_error (combine (seq 0 rows) (combine t m)) i = Some (row, (w, p)) <-> row = i /\ nth_error t i = Some w /\ nth_error m i = Some p).
Proof.
  intros rows t m i row w p Ht Hm.
  assert (HG : forall (t m : list (num N)) k i row w p, length t = length m ->
     (nth_error (combine (seq k (length t)) (combine t m)) i = Some (row, (w, p)) <-> row = k + i /\ nth_error t i = Some w /\ nth_error m i = Some p)).
  { clear. induction t as [|a t IH]; intros [|b m] k i row w p H; try discriminate.
    - cbn. destruct i; cbn; split; intros H'; try discriminate; destruct H' as (_ & H' & _); discriminate.
    - destruct i as [|i]; cbn [length seq combine nth_error].
      + split; [intros E; injection E as <- <- <-; rewrite Nat.add_0_r; auto|intros (-> & A & B); rewrite Nat.add_0_r; congruence].
      + rewrite IH by (cbn in H; lia). rewrite Nat.add_succ_r. reflexivity. }
  subst rows. rewrite HG by lia. reflexivity.
Qed.

Lemma same_pair_col : forall rows reps virtual s t rs fs w p (c : call N) x y, In c (col_calls rows reps virtual s t (rs, fs, w, p)) ->
  same_pair (c_u c) (c_v c) x y = true -> column_joins rows reps virtual t rs x y /\ (c_obs c, c_w c, c_p c) = (fs, w, p).
Proof.
  intros rows reps virtual s t rs fs w p c x y Hc HP. cbn [col_calls] in Hc. destruct (layer_pair rows reps virtual t rs) as [[u v]|] eqn:E; [|destruct Hc].
  destruct Hc as [<-|[]]. apply same_pair_spec in HP. cbn in HP. split; [exists u, v; auto|reflexivity].
Qed.

Lemma same_pair_time : forall rows s t row w p (c : call N) x y, In c (time_calls rows s t (row, (w, p))) ->
  same_pair (c_u c) (c_v c) x y = true -> time_joins rows t row x y /\ (c_obs c, c_w c, c_p c) = ([], w, p).
Proof.
  intros rows s t row w p c x y [<-|[]] HP. apply same_pair_spec in HP. cbn [c_u c_v c_obs c_w c_p] in *. split; [|reflexivity].
  destruct HP as [[A B]|[A B]]; [left|right]; split; congruence.
Qed.

Lemma check_matrix_exact : forall rows cols faults fr (ws ps : list (num N)) s virtual reps tws mes g,
  load_check_matrix rows cols faults fr ws ps s virtual reps tws mes = Ok g ->
  (forall c r, In c cols -> In r c -> r < rows) ->
  (forall i j c d, nth_error cols i = Some c -> nth_error cols j = Some d -> c <> [] -> same_support c d -> i = j) ->
  forall x y a, get_edge_data g x y = Some a <->
   (exists t i rs fs w p, t < reps /\ nth_error cols i = Some rs /\ nth_error faults i = Some fs /\
      nth_error ws i = Some w /\ nth_error ps i = Some p /\ column_joins rows reps virtual t rs x y /\ a = (fs, w, p)) \/
   (exists t row tw me w p, S t < reps /\ tws = Some tw /\ mes = Some me /\ nth_error tw row = Some w /\ nth_error me row = Some p /\
      time_joins rows t row x y /\ a = ([], w, p)).
Proof.
  intros rows cols faults fr ws ps s virtual reps tws mes g H HR HD x y a.
  destruct (load_check_matrix_calls rows cols faults fr ws ps s virtual reps tws mes g H) as (L1 & L2 & L3 & HT & _ & t0 & m0 & Htm & Eg).
  cbv zeta in Eg. set (cs := all_calls rows (zip cols faults ws ps) s virtual reps t0 m0) in *.
  destruct (calls_effect cs (new_graph N (rows * reps) fr) (new_inv _ _)) as (HI & HE & _).
  assert (EG : get_edge_data g x y = effects x y None cs).
  { transitivity (get_edge_data (do_calls (new_graph N (rows * reps) fr) cs) x y).
    - rewrite Eg. destruct (negb virtual && _); [apply set_boundary_data; exact HI|reflexivity].
    - rewrite HE. f_equal. apply data_none; [apply new_inv|]. intros e []. }
  rewrite EG.
  assert (HTL : 1 < reps -> length t0 = rows /\ length m0 = rows).
  { intros Hr. destruct (HT Hr) as (t & m & E1 & E2 & E3 & E4). destruct (Htm Hr) as [E5 E6]. split; congruence. }
  assert (HG : forall i rs, nth_error cols i = Some rs -> good rows rs).
  { intros i rs Hi r Hr. eapply HR; [eapply nth_error_In; exact Hi|exact Hr]. }
  eapply iff_trans; [apply (effects_unique cs x y a)|].
  { apply (amo_unique (fun c => same_pair (c_u c) (c_v c) x y)). unfold cs, all_calls. apply amo_app.
       - apply amo_flat_map.
         + intros t Ht. apply in_seq in Ht. apply amo_flat_map.
           * intros [[[rs fs] w] p] _. cbn [col_calls]. destruct (layer_pair rows reps virtual t rs) as [[u v]|]; cbn; [|lia]. destruct (same_pair _ _ _ _); cbn; lia.
           * intros i j [[[rs fs] w] p] [[[rs' fs'] w'] p'] c d Hi Hj Hc Hd Pc Pd.
             apply (same_pair_col rows reps virtual s t rs fs w p) in Pc; [|exact Hc]. apply (same_pair_col rows reps virtual s t rs' fs' w' p') in Pd; [|exact Hd].
             apply zip_nth in Hi, Hj; try assumption.
             destruct (column_unique rows reps virtual t t rs rs' x y) as [_ HS]; try tauto; try lia; [apply (HG i); tauto|apply (HG j); tauto|].
             apply (HD i j rs rs'); try tauto. intros ->. destruct Pc as [(u & v & E & _) _]. discriminate.
         + intros i j t t' c d Hi Hj Hc Hd Pc Pd. apply nth_error_seq in Hi, Hj. destruct Hi as [-> Hi], Hj as [-> Hj].
           apply in_flat_map in Hc, Hd. destruct Hc as ([[[rs fs] w] p] & Hz & Hc), Hd as ([[[rs' fs'] w'] p'] & Hz' & Hd).
           apply In_nth_error in Hz, Hz'. destruct Hz as [k Hz], Hz' as [k' Hz']. apply zip_nth in Hz, Hz'; try assumption.
           apply (same_pair_col rows reps virtual s i rs fs w p) in Pc; [|exact Hc]. apply (same_pair_col rows reps virtual s j rs' fs' w' p') in Pd; [|exact Hd].
           destruct (column_unique rows reps virtual i j rs rs' x y) as [E _]; try tauto; [apply (HG k); tauto|apply (HG k'); tauto].
       - destruct (Nat.ltb_spec 1 reps) as [Hr|Hr]; [|cbn; lia]. destruct (HTL Hr) as [T1 T2]. apply amo_flat_map.
         + intros t _. apply amo_flat_map.
           * intros [row [w p]] _. cbn [time_calls filter]. destruct (same_pair _ _ _ _); cbn; lia.
           * intros i j [row [w p]] [row' [w' p']] c d Hi Hj Hc Hd Pc Pd. apply combine_nth_seq in Hi, Hj; try assumption.
             apply (same_pair_time rows s t row w p) in Pc; [|exact Hc]. apply (same_pair_time rows s t row' w' p') in Pd; [|exact Hd].
             assert (row < rows) by (rewrite <- T1; apply nth_error_Some; destruct Hi as (-> & E & _); congruence).
             assert (row' < rows) by (rewrite <- T1; apply nth_error_Some; destruct Hj as (-> & E & _); congruence).
             destruct (time_unique rows t t row row' x y) as [_ E]; try tauto. destruct Hi as [-> _], Hj as [-> _]. exact E.
         + intros i j t t' c d Hi Hj Hc Hd Pc Pd. apply nth_error_seq in Hi, Hj. destruct Hi as [-> Hi], Hj as [-> Hj].
           apply in_flat_map in Hc, Hd. destruct Hc as ([row [w p]] & Hz & Hc), Hd as ([row' [w' p']] & Hz' & Hd).
           apply In_nth_error in Hz, Hz'. destruct Hz as [k Hz], Hz' as [k' Hz']. apply combine_nth_seq in Hz, Hz'; try assumption.
           apply (same_pair_time rows s i row w p) in Pc; [|exact Hc]. apply (same_pair_time rows s j row' w' p') in Pd; [|exact Hd].
           assert (row < rows) by (rewrite <- T1; apply nth_error_Some; destruct Hz as (-> & E & _); congruence).
           assert (row' < rows) by (rewrite <- T1; apply nth_error_Some; destruct Hz' as (-> & E & _); congruence).
           destruct (time_unique rows i j row row' x y) as [E _]; try tauto.
       - intros c d Hc Hd Pc Pd. destruct (Nat.ltb_spec 1 reps) as [Hr|Hr]; [|destruct Hd]. destruct (HTL Hr) as [T1 T2].
         apply in_flat_map in Hc, Hd. destruct Hc as (t & Ht & Hc), Hd as (t' & Ht' & Hd). apply in_seq in Ht, Ht'.
         apply in_flat_map in Hc, Hd. destruct Hc as ([[[rs fs] w] p] & Hz & Hc), Hd as ([row' [w' p']] & Hz' & Hd).
         apply In_nth_error in Hz, Hz'. destruct Hz as [k Hz], Hz' as [k' Hz']. apply zip_nth in Hz; try assumption. apply combine_nth_seq in Hz'; try assumption.
         apply (same_pair_col rows reps virtual s t rs fs w p) in Pc; [|exact Hc]. apply (same_pair_time rows s t' row' w' p') in Pd; [|exact Hd].
         assert (row' < rows) by (rewrite <- T1; apply nth_error_Some; destruct Hz' as (-> & E & _); congruence).
         apply (column_time_disjoint rows reps virtual t t' rs row' x y); try tauto; try lia. apply (HG k). tauto. }
  split.
  - intros (c & Hc & Pc & ->). unfold cs, all_calls in Hc. apply in_app_or in Hc. destruct Hc as [Hc|Hc].
    + left. apply in_flat_map in Hc. destruct Hc as (t & Ht & Hc). apply in_seq in Ht. apply in_flat_map in Hc. destruct Hc as ([[[rs fs] w] p] & Hz & Hc).
      apply In_nth_error in Hz. destruct Hz as [k Hz]. apply zip_nth in Hz; try assumption.
      apply (same_pair_col rows reps virtual s t rs fs w p) in Pc; [|exact Hc]. exists t, k, rs, fs, w, p. intuition lia.
    + right. destruct (Nat.ltb_spec 1 reps) as [Hr|Hr]; [|destruct Hc]. destruct (HTL Hr) as [T1 T2]. destruct (Htm Hr) as [-> ->].
      apply in_flat_map in Hc. destruct Hc as (t & Ht & Hc). apply in_seq in Ht. apply in_flat_map in Hc. destruct Hc as ([row [w p]] & Hz & Hc).
      apply In_nth_error in Hz. destruct Hz as [k Hz]. apply combine_nth_seq in Hz; try assumption. destruct Hz as (-> & Hz1 & Hz2).
      apply (same_pair_time rows s t k w p) in Pc; [|exact Hc]. exists t, k, t0, m0, w, p. intuition lia.
  - intros [(t & i & rs & fs & w & p & Ht & H1 & H2 & H3 & H4 & (u & v & E & HJ) & ->)|(t & row & tw & me & w & p & Ht & E1 & E2 & H3 & H4 & HJ & ->)].
    + exists (mkCall u v fs w p s). split; [|split; [apply same_pair_spec; exact HJ|reflexivity]].
      unfold cs, all_calls. apply in_or_app. left. apply in_flat_map. exists t. split; [apply in_seq; lia|]. apply in_flat_map. exists (rs, fs, w, p).
      split; [apply (nth_error_In _ i); apply zip_nth; auto|]. cbn [col_calls]. rewrite E. left. reflexivity.
    + assert (Hr : 1 < reps) by lia. destruct (Htm Hr) as [E3 E4]. destruct (HTL Hr) as [T1 T2].
      assert (t0 = tw) by congruence. assert (m0 = me) by congruence. subst t0 m0.
      exists (mkCall (t * rows + row) (Some (S t * rows + row)) [] w p s). split; [|split; [|reflexivity]].
      * unfold cs, all_calls. apply in_or_app. right. rewrite (proj2 (Nat.ltb_lt 1 reps) Hr). apply in_flat_map. exists t. split; [apply in_seq; lia|].
        apply in_flat_map. exists (row, (w, p)). split; [apply (nth_error_In _ row); apply combine_nth_seq; auto|]. left. reflexivity.
      * apply same_pair_spec. cbn [c_u c_v]. destruct HJ as [[A B]|[A B]]; [left|right]; split; congruence.
Qed.

Lemma check_matrix_rejects : forall rows cols faults fr (ws ps : list (num N)) s virtual reps tws mes g,
  load_check_matrix rows cols faults fr ws ps s virtual reps tws mes = Ok g -> 0 < reps ->
  length ws = length cols /\ length ps = length cols /\ length faults = length cols /\ (forall c, In c cols -> length c <= 2) /\
  (1 < reps -> exists t m, tws = Some t /\ mes = Some m /\ length t = rows /\ length m = rows).
Proof.
  intros rows cols faults fr ws ps s virtual reps tws mes g H Hr.
  destruct (load_check_matrix_calls rows cols faults fr ws ps s virtual reps tws mes g H) as (L1 & L2 & L3 & HT & HC & _).
  split; [exact L1|]. split; [exact L2|]. split; [exact L3|]. split; [exact (HC Hr)|exact HT].
Qed.

Lemma fold_max_le : forall (cs : list (call N)) k b, k <= b -> (forall c, In c cs -> S (max_node (c_u c) (c_v c)) <= b) ->
  fold_left (fun k c => Nat.max k (S (max_node (c_u c) (c_v c)))) cs k <= b.
Proof. induction cs as [|c cs IH]; intros k b Hk H; [exact Hk|]. cbn [fold_left]. apply IH; [|intros; apply H; right; assumption]. pose proof (H c (or_introl eq_refl)). lia. Qed.

Lemma fold_max_ge : forall (cs : list (call N)) k, k <= fold_left (fun k c => Nat.max k (S (max_node (c_u c) (c_v c)))) cs k /\
  (forall c, In c cs -> S (max_node (c_u c) (c_v c)) <= fold_left (fun k c => Nat.max k (S (max_node (c_u c) (c_v c)))) cs k).
Proof.
  induction cs as [|c cs IH]; intros k; [split; [apply le_n|intros c []]|]. cbn [fold_left]. destruct (IH (Nat.max k (S (max_node (c_u c) (c_v c))))) as [A B].
  split; [lia|]. intros d [<-|Hd]; [lia|]. apply B. exact Hd.
Qed.

Lemma check_matrix_boundary : forall rows cols faults fr (ws ps : list (num N)) s virtual reps tws mes g,
  load_check_matrix rows cols faults fr ws ps s virtual reps tws mes = Ok g ->
  (forall c r, In c cols -> In r c -> r < rows) ->
  let ext := virtual = false /\ 0 < reps /\ exists r, In [r] cols in
  (ext -> bnodes g = [rows * reps] /\ num_nodes g = rows * reps + 1) /\
  (~ ext -> bnodes g = [] /\ num_nodes g = rows * reps).
Proof.
  intros rows cols faults fr ws ps s virtual reps tws mes g H HR ext.
  destruct (load_check_matrix_calls rows cols faults fr ws ps s virtual reps tws mes g H) as (L1 & L2 & L3 & HT & _ & t0 & m0 & Htm & Eg).
  cbv zeta in Eg. set (cs := all_calls rows (zip cols faults ws ps) s virtual reps t0 m0) in *.
  destruct (calls_effect cs (new_graph N (rows * reps) fr) (new_inv _ _)) as (HI & _ & HN & HB).
  set (g2 := do_calls (new_graph N (rows * reps) fr) cs) in *.
  assert (E0 : length (nodes (new_graph N (rows * reps) fr)) = rows * reps) by (cbn; apply repeat_length). rewrite E0 in HN.
  assert (HC : forall c, In c cs -> (exists rs t, In rs cols /\ t < reps /\ layer_pair rows reps virtual t rs = Some (c_u c, c_v c)) \/
                              (max_node (c_u c) (c_v c) < rows * reps)).
  { intros c Hc. unfold cs, all_calls in Hc. apply in_app_or in Hc. destruct Hc as [Hc|Hc].
    - left. apply in_flat_map in Hc. destruct Hc as (t & Ht & Hc). apply in_seq in Ht. apply in_flat_map in Hc. destruct Hc as ([[[rs fs] w] p] & Hz & Hc).
      exists rs, t. apply In_nth_error in Hz. destruct Hz as [k Hz]. apply zip_nth in Hz; try assumption.
      split; [eapply nth_error_In; apply Hz|]. split; [lia|]. cbn [col_calls] in Hc. destruct (layer_pair rows reps virtual t rs) as [[u v]|]; [|destruct Hc].
      destruct Hc as [<-|[]]. reflexivity.
    - right. destruct (Nat.ltb_spec 1 reps) as [Hr|Hr]; [|destruct Hc]. destruct (HT Hr) as (t1 & m1 & A1 & A2 & A3 & A4). destruct (Htm Hr) as [A5 A6].
      apply in_flat_map in Hc. destruct Hc as (t & Ht & Hc). apply in_seq in Ht. apply in_flat_map in Hc. destruct Hc as ([row [w p]] & Hz & [<-|[]]).
      apply in_combine_l in Hz. apply in_seq in Hz. cbn [c_u c_v max_node]. pose proof (lay_lt rows (S t) reps row ltac:(lia) ltac:(lia)). 
      pose proof (lay_lt rows t reps row ltac:(lia) ltac:(lia)). lia. }
  assert (HU : length (nodes g2) <= rows * reps + 1 /\ (~ ext -> length (nodes g2) = rows * reps)).
  { rewrite HN. split.
    - apply fold_max_le; [lia|]. intros c Hc. destruct (HC c Hc) as [(rs & t & Hrs & Ht & E)|]; [|lia].
      destruct rs as [|r1 [|r2 [|]]]; try discriminate; cbn [layer_pair] in E.
      + pose proof (lay_lt rows t reps r1 Ht (HR _ _ Hrs (or_introl eq_refl))). destruct virtual; injection E as <- <-; cbn [max_node]; lia.
      + pose proof (lay_lt rows t reps r1 Ht (HR _ _ Hrs (or_introl eq_refl))). pose proof (lay_lt rows t reps r2 Ht (HR _ _ Hrs (or_intror (or_introl eq_refl)))).
        injection E as <- <-; cbn [max_node]; lia.
    - intros Hne. apply Nat.le_antisymm; [|apply fold_max_ge]. apply fold_max_le; [lia|]. intros c Hc. destruct (HC c Hc) as [(rs & t & Hrs & Ht & E)|]; [|lia].
      destruct rs as [|r1 [|r2 [|]]]; try discriminate; cbn [layer_pair] in E.
      + pose proof (lay_lt rows t reps r1 Ht (HR _ _ Hrs (or_introl eq_refl))). destruct virtual eqn:Ev; injection E as <- <-; cbn [max_node]; [lia|].
        exfalso. apply Hne. split; [reflexivity|]. split; [lia|]. exists r1. exact Hrs.
      + pose proof (lay_lt rows t reps r1 Ht (HR _ _ Hrs (or_introl eq_refl))). pose proof (lay_lt rows t reps r2 Ht (HR _ _ Hrs (or_intror (or_introl eq_refl)))).
        injection E as <- <-; cbn [max_node]; lia. }
  split.
  - intros (Hv & Hr & r & Hin). 
    assert (HE : length (nodes g2) = rows * reps + 1).
    { apply Nat.le_antisymm; [apply HU|]. rewrite HN.
      apply In_nth_error in Hin. destruct Hin as [i Hi].
      assert (Hi' : i < length cols) by (apply nth_error_Some; congruence).
      destruct (nth_error faults i) as [f|] eqn:Ef; [|apply nth_error_None in Ef; lia].
      destruct (nth_error ws i) as [w|] eqn:Ew; [|apply nth_error_None in Ew; lia].
      destruct (nth_error ps i) as [p|] eqn:Ep; [|apply nth_error_None in Ep; lia].
      destruct (fold_max_ge cs (rows * reps)) as [_ HG]. specialize (HG (mkCall (0 * rows + r) (Some (reps * rows)) f w p s)).
      cbn [c_u c_v max_node] in HG. rewrite Nat.add_1_r. etransitivity; [|apply HG].
      - lia.
      - unfold cs, all_calls. apply in_or_app. left. apply in_flat_map. exists 0. split; [apply in_seq; lia|].
        apply in_flat_map. exists ([r], f, w, p). split; [apply (nth_error_In _ i); apply zip_nth; auto|]. cbn [col_calls layer_pair]. rewrite Hv. left. reflexivity. }
    rewrite Eg, Hv, HE, Nat.eqb_refl. cbn [negb andb]. split; [reflexivity|]. unfold num_nodes.
    destruct (set_boundary_props g2 [rows * reps]) as (_ & _ & _ & L & _). rewrite L, HE. cbn [nodes_needed fold_right]. lia.
  - intros Hne. destruct HU as [_ HU]. specialize (HU Hne). rewrite Eg. replace (length (nodes g2) =? rows * reps + 1) with false by (symmetry; apply Nat.eqb_neq; lia).
    rewrite andb_false_r. split; [rewrite HB; reflexivity|exact HU].
Qed.

(** acceptance: under distinctness it never throws *)
Lemma addO_ok : forall (g : ugraph N) u v o w p s, Inv g -> s <> DISALLOW -> exists g', addO (Ok g) u v o w p s = Ok g' /\ Inv g'.
Proof.
  intros g u v o w p s HI Hs. unfold addO. cbn [bindO]. destruct (call_effect g (mkCall u v o w p s) HI) as (H1 & _ & H3 & _).
  unfold do_call in *. cbn [c_u c_v c_obs c_w c_p c_s] in *. destruct (add_or_merge g u v o w p s) as [g' threw]. cbn [fst snd] in *.
  destruct threw; [destruct (proj1 H3 eq_refl); contradiction|]. exists g'. auto.
Qed.

Lemma fold_ok : forall {B} (f : outcome (ugraph N) -> B -> outcome (ugraph N)) l,
  (forall g b, Inv g -> In b l -> exists g', f (Ok g) b = Ok g' /\ Inv g') ->
  forall g, Inv g -> exists g', fold_left f l (Ok g) = Ok g' /\ Inv g'.
Proof.
  induction l as [|b l IH]; intros H g HI; [exists g; auto|]. cbn [fold_left]. destruct (H g b HI (or_introl eq_refl)) as (g1 & -> & HI1).
  apply IH; [|exact HI1]. intros; apply H; [assumption|right; assumption].
Qed.

Lemma check_matrix_accepts : forall rows cols faults fr (ws ps : list (num N)) s virtual reps tws mes,
  length ws = length cols -> length ps = length cols -> length faults = length cols -> (forall c, In c cols -> length c <= 2) ->
  (1 < reps -> exists t m, tws = Some t /\ mes = Some m /\ length t = rows /\ length m = rows) -> s <> DISALLOW ->
  exists g, load_check_matrix rows cols faults fr ws ps s virtual reps tws mes = Ok g.
Proof.
  intros rows cols faults fr ws ps s virtual reps tws mes L1 L2 L3 HC HT Hs. unfold load_check_matrix.
  rewrite L1, L2, L3, Nat.eqb_refl. cbn [negb]. fold (zip cols faults ws ps).
  assert (HZ : forall rs fs w p, In (rs, fs, w, p) (zip cols faults ws ps) -> length rs <= 2).
  { intros rs fs w p H. apply In_nth_error in H. destruct H as [i H]. apply zip_nth in H; try assumption. apply HC. eapply nth_error_In. apply H. }
  destruct (fold_ok (fun g rep => fold_left (load_column rows reps rep virtual s) (zip cols faults ws ps) g) (seq 0 reps)) with (g := new_graph N (rows * reps) fr) as (g1 & E1 & I1).
  { intros g rep HI _. apply fold_ok; [|exact HI]. clear g HI. intros g [[[rs fs] w] p] HI Hin. apply HZ in Hin. cbn [load_column].
    destruct rs as [|r1 [|r2 [|]]]; cbn [length] in Hin; try lia; [exists g; auto| |apply addO_ok; assumption]. destruct virtual; apply addO_ok; assumption. }
  { apply new_inv. }
  rewrite E1. destruct (Nat.ltb_spec 1 reps) as [Hr|Hr]; cbn [bindO].
  - destruct (HT Hr) as (t & m & -> & -> & -> & ->). rewrite Nat.eqb_refl. cbn [negb].
    destruct (fold_ok (fun g rep => fold_left (load_timelike rows rep s) (combine (seq 0 rows) (combine t m)) g) (seq 0 (reps - 1))) with (g := g1) as (g2 & -> & _).
    { intros g rep HI _. apply fold_ok; [|exact HI]. clear g HI. intros g [row [w p]] HI _. cbn [load_timelike]. apply addO_ok; assumption. }
    { exact I1. }
    cbn [bindO]. eexists. reflexivity.
  - eexists. reflexivity.
Qed.
End Proofs.
