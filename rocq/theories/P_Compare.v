(** The small operators. *)
From Coq Require Import ZArith NArith List Bool Arith Lia.
From Verif Require Import M_Base M_Cyclic P_Cyclic M_Core M_Inspect M_Compare S_Compare S_Varying.
Import ListNotations.
Local Open Scope nat_scope.

(** ** Clocks *)
Section Clocks.
Local Open Scope Z_scope.
Lemma wrap_wrap_add : forall w x d, 1 <= w -> wrap w (wrap w x + d) = wrap w (x + d).
Proof. intros w x d H. unfold wrap. rewrite Zplus_mod_idemp_l. reflexivity. Qed.
Lemma wrap_wrap_sub : forall w x d, 1 <= w -> wrap w (wrap w x - d) = wrap w (x - d).
Proof. intros w x d H. unfold wrap. rewrite Zminus_mod_idemp_l. reflexivity. Qed.
Lemma cyc_step_ok : forall w x o, 1 <= w -> cyc_step w (wrap w x) o = (wrap w (moved x o), wrap w (if returns_old o then x else moved x o)).
Proof. intros w x [| | | |d|d|d|d] H; cbn [cyc_step moved returns_old]; unfold cyc_add, cyc_sub; rewrite ?wrap_wrap_add, ?wrap_wrap_sub by exact H; reflexivity. Qed.
Lemma cyc_run_ok : forall w ops x, 1 <= w -> cyc_run w (wrap w x) ops = (wrap w (final_time x ops), map (wrap w) (returned_times x ops)).
Proof.
  intros w ops. induction ops as [|o ops IH]; intros x H; [reflexivity|]. cbn [cyc_run]. rewrite cyc_step_ok by exact H. rewrite IH by exact H. reflexivity.
Qed.
Lemma cyc_shift : forall w x y d, 1 <= w ->
  cyc_lt w (cyc_add w (wrap w x) d) (cyc_add w (wrap w y) d) = cyc_lt w (wrap w x) (wrap w y) /\ cyc_le w (cyc_add w (wrap w x) d) (cyc_add w (wrap w y) d) = cyc_le w (wrap w x) (wrap w y).
Proof.
  intros w x y d H. unfold cyc_add. rewrite !wrap_wrap_add by exact H. unfold cyc_lt, cyc_le. rewrite !wrap_sub, !wrap_sub0 by exact H.
  replace (y + d - (x + d) - 1) with (y - x - 1) by lia. replace (y + d - (x + d)) with (y - x) by lia. split; reflexivity.
Qed.
Lemma wrap_cases : forall w a b, 1 <= w -> 0 <= a < 2 ^ w -> 0 <= b < 2 ^ w -> wrap w (b - a) = (if a <=? b then b - a else b - a + 2 ^ w) /\ wrap w (b - a - 1) = (if a <? b then b - a - 1 else b - a - 1 + 2 ^ w).
Proof.
  intros w a b H Ha Hb. split.
  - destruct (Z.leb_spec a b); [apply (wrap_unique w _ 0)|apply (wrap_unique w _ (-1))]; lia.
  - destruct (Z.ltb_spec a b); [apply (wrap_unique w _ 0)|apply (wrap_unique w _ (-1))]; lia.
Qed.
Lemma half_less : forall w, 1 <= w -> wrap w (HALF w - 1) = 2 ^ (w - 1) - 1 /\ HALF w = 2 ^ (w - 1) /\ 2 ^ w = 2 * 2 ^ (w - 1) /\ 0 < 2 ^ (w - 1).
Proof. intros w H. destruct (pow_split w H) as [E P]. rewrite (HALF_eq w H). split; [apply (wrap_unique w _ 0); lia|auto]. Qed.
Lemma cyc_laws : forall w a b, 1 <= w -> 0 <= a < 2 ^ w -> 0 <= b < 2 ^ w ->
  cyc_le w a b = cyc_lt w a b || cyc_eq a b /\ cyc_gt w a b = cyc_lt w b a /\ cyc_ge w a b = cyc_le w b a /\
  cyc_lt w a b && cyc_lt w b a = false /\ cyc_ne a b = negb (cyc_eq a b) /\
  (cyc_lt w a b = true <-> exists k, 0 < k < 2 ^ (w - 1) /\ b = cyc_add w a k).
Proof.
  intros w a b H Ha Hb. destruct (half_less w H) as (E1 & E2 & E3 & P). destruct (wrap_cases w a b H Ha Hb) as [W1 W2]. destruct (wrap_cases w b a H Hb Ha) as [W3 W4].
  unfold cyc_le, cyc_lt, cyc_gt, cyc_ge, cyc_eq, cyc_ne. rewrite W1, W2, W3, W4, E1, E2. repeat split.
  - destruct (Z.leb_spec a b), (Z.ltb_spec a b), (Z.eqb_spec a b); try lia; rewrite ?orb_true_r, ?orb_false_r; try (apply Z.ltb_lt; lia); apply eq_true_iff_eq; rewrite !Z.ltb_lt; lia.
  - destruct (Z.ltb_spec a b), (Z.ltb_spec b a); try lia; apply andb_false_iff; rewrite !Z.ltb_ge; lia.
  - intros L. apply Z.ltb_lt in L. destruct (Z.ltb_spec a b).
    + exists (b - a). split; [lia|]. unfold cyc_add. symmetry. apply (wrap_unique w _ 0); lia.
    + exists (b - a + 2 ^ w). split; [lia|]. unfold cyc_add. symmetry. apply (wrap_unique w _ 1); lia.
  - intros (k & Hk & E). apply Z.ltb_lt. unfold cyc_add in E. destruct (Z_lt_le_dec (a + k) (2 ^ w)) as [L|L].
    + rewrite (wrap_unique w (a + k) 0 (a + k)) in E by lia. destruct (Z.ltb_spec a b); lia.
    + rewrite (wrap_unique w (a + k) 1 (a + k - 2 ^ w)) in E by lia. destruct (Z.ltb_spec a b); lia.
Qed.
End Clocks.

(** ** Edges *)
Lemma same_opt_spec : forall a b, same_opt a b = true <-> a = b.
Proof. intros [a|] [b|]; cbn; rewrite ?Nat.eqb_eq; split; intros H; try discriminate; try congruence; try reflexivity. Qed.
Lemma cedge_equal_spec : forall e f, cedge_equal e f = true <-> e = f.
Proof.
  intros [a b m] [c d n]. unfold cedge_equal. cbn [efrom eto eobs]. rewrite !andb_true_iff, !same_opt_spec, N.eqb_eq. split; [intros [[-> ->] ->]; reflexivity|intros E; injection E as -> -> ->; auto].
Qed.
Lemma walk_app : forall a l b m c, walk a l b -> walk b m c -> walk a (l ++ m) c.
Proof. intros a l b m c H. induction H as [|a k b l c' H IH]; intros M; [exact M|]. cbn. constructor. auto. Qed.
Lemma walk_back : forall a l b, walk a l b -> walk b (rev (map back_step l)) a.
Proof. intros a l b H. induction H as [|a k b l c H IH]; [constructor|]. cbn. apply (walk_app c _ b); [exact IH|]. constructor. constructor. Qed.
Lemma odd_app : forall k (l m : list step), Nat.odd (length (filter (crosses k) (l ++ m))) = xorb (Nat.odd (length (filter (crosses k) l))) (Nat.odd (length (filter (crosses k) m))).
Proof. intros k l m. rewrite filter_app, app_length, Nat.odd_add. reflexivity. Qed.
Lemma odd_back : forall k (l : list step), Nat.odd (length (filter (crosses k) (rev (map back_step l)))) = Nat.odd (length (filter (crosses k) l)).
Proof.
  intros k l. induction l as [|st l IH]; [reflexivity|]. cbn [map rev]. rewrite odd_app, IH. change (st :: l) with ([st] ++ l). rewrite odd_app, xorb_comm. destruct st as [[a m] b]. unfold crosses at 1 3, back_step. cbn [filter fst snd]. destruct (N.testbit m k); reflexivity.
Qed.
Lemma merged_ok : forall e f l m, summarises e l -> summarises f m -> eto e = efrom f -> summarises (merged_with e f) (l ++ m).
Proof.
  intros e f l m [W1 O1] [W2 O2] E. split; [cbn; apply (walk_app _ _ (eto e)); [exact W1|rewrite E; exact W2]|]. intros k. cbn [merged_with eobs]. rewrite N.lxor_spec, O1, O2. symmetry. apply odd_app.
Qed.
Lemma reversed_ok : forall e l, summarises e l -> summarises (rev_e e) (rev (map back_step l)).
Proof. intros e l [W O]. split; [exact (walk_back _ _ _ W)|]. intros k. cbn [rev_e eobs]. rewrite O. symmetry. apply odd_back. Qed.
Lemma merged_laws : forall e f h, merged_with (merged_with e f) h = merged_with e (merged_with f h) /\ rev_e (merged_with e f) = merged_with (rev_e f) (rev_e e) /\ rev_e (rev_e e) = e /\
  merged_with e (rev_e e) = mkE (efrom e) (efrom e) 0.
Proof.
  intros [a b m] [c d n] [u v k]. unfold merged_with, rev_e. cbn. repeat split; [f_equal; apply N.lxor_assoc|f_equal; apply N.lxor_comm|f_equal; apply N.lxor_nilpotent].
Qed.
Lemma edge_comparisons : forall a b : option nat * cedge,
  (region_edge_equal a b = true <-> a = b) /\ (tree_edge_equal a b = true <-> snd a = snd b) /\ cedge_differs (snd a) (snd b) = negb (cedge_equal (snd a) (snd b)).
Proof.
  intros [r e] [s f]. unfold region_edge_equal, tree_edge_equal, cedge_differs. cbn [fst snd]. rewrite andb_true_iff, same_opt_spec, !cedge_equal_spec.
  split; [split; [intros [-> ->]; reflexivity|intros E; injection E as -> ->; auto]|]. split; [reflexivity|]. f_equal. apply eq_true_iff_eq. rewrite !cedge_equal_spec. split; congruence.
Qed.

(** ** Events *)
Lemma event_equal_spec : forall x y, event_equal x y = true <-> same_event x y.
Proof.
  intros x y. split.
  - destruct x as [|r1 r2 e|r e|b p c], y as [|s1 s2 f|s f|b' p' c']; cbn [event_equal]; try discriminate; intros H.
    + constructor.
    + unfold hit_region_equal in H. destruct (same_opt r1 s1 && same_opt r2 s2 && cedge_equal e f) eqn:E.
      * rewrite !andb_true_iff, !same_opt_spec, cedge_equal_spec in E. destruct E as [[-> ->] ->]. constructor.
      * rewrite !andb_true_iff, !same_opt_spec, cedge_equal_spec in H. destruct H as [[-> ->] ->]. destruct f as [u v m]. apply (other_side s2 s1 v u m).
    + unfold hit_boundary_equal in H. rewrite andb_true_iff, same_opt_spec, cedge_equal_spec in H. destruct H as [-> ->]. constructor.
    + unfold shatter_equal in H. rewrite !andb_true_iff, !Nat.eqb_eq in H. destruct H as [[-> ->] ->]. constructor.
  - assert (X : forall a, same_opt a a = true) by (intros a; now apply same_opt_spec). assert (Y : forall e, cedge_equal e e = true) by (intros e; now apply cedge_equal_spec).
    intros [[|r1 r2 e|r e|b p c]|r1 r2 u v m]; cbn [event_equal]; unfold hit_region_equal, hit_boundary_equal, shatter_equal; cbn [rev_e efrom eto eobs]; rewrite ?X, ?Y, ?Nat.eqb_refl; cbn [andb]; try reflexivity.
    destruct (_ && _ && _); reflexivity.
Qed.
Lemma same_event_sym : forall x y, same_event x y -> same_event y x.
Proof. intros x y [z|r1 r2 u v m]; constructor. Qed.
Lemma same_event_trans : forall x y z, same_event x y -> same_event y z -> same_event x z.
Proof. intros x y z H K. destruct H as [x|r1 r2 u v m]; [exact K|]. inversion K; subst; constructor. Qed.
Lemma event_differs_spec : forall x y, event_differs x y = negb (event_equal x y).
Proof. intros x y. unfold event_differs. f_equal. apply eq_true_iff_eq. rewrite !event_equal_spec. split; apply same_event_sym. Qed.
Lemma check_equal_spec : forall x y,
  (0 <= ce_type x <= 3)%Z -> exists b, check_equal x y = Ok b /\ check_differs x y = Ok (negb b) /\ (b = true <-> ce_time x = ce_time y /\ ce_type x = ce_type y /\ (ce_type x = 0%Z \/ ce_data x = ce_data y)).
Proof.
  intros [d t k] [d' t' k'] H. cbn in H. unfold check_differs, check_equal, cyc_ne. cbn [ce_data ce_time ce_type]. rewrite (Z.eqb_sym t' t), (Z.eqb_sym k' k), (Nat.eqb_sym d' d).
  destruct (Z.eqb_spec t t') as [<-|T]; [|cbn; eexists; repeat split; try discriminate; intuition congruence].
  destruct (Z.eqb_spec k k') as [<-|K]; [|cbn; eexists; repeat split; try discriminate; intuition congruence].
  cbn [negb orb]. assert (C : (k = 0 \/ k = 1 \/ k = 2 \/ k = 3)%Z) by lia. destruct C as [->|[->|[->| ->]]]; cbn; eexists; (split; [reflexivity|]); (split; [reflexivity|]); rewrite ?Nat.eqb_eq; intuition congruence.
Qed.
Lemma check_unknown : forall x y, (3 < ce_type x)%Z -> ce_time x = ce_time y -> ce_type x = ce_type y -> check_equal x y = Throw.
Proof.
  intros [d t k] [d' t' k'] H E1 E2. cbn in *. subst t' k'. unfold check_equal, cyc_ne. cbn. rewrite !Z.eqb_refl. cbn.
  destruct (Z.eqb_spec k 1), (Z.eqb_spec k 2), (Z.eqb_spec k 3), (Z.eqb_spec k 0); try lia. reflexivity.
Qed.

(** ** Results *)
Lemma result_laws : forall a b c, (forall k, N.testbit (fst (result_add a b)) k = xorb (N.testbit (fst a) k) (N.testbit (fst b) k)) /\ snd (result_add a b) = (snd a + snd b)%Z /\ result_add a result_zero = a /\ result_add a b = result_add b a /\ result_add a (result_add b c) = result_add (result_add a b) c.
Proof.
  intros [a x] [b y] [c z]. unfold result_add, result_zero. cbn [fst snd]. split; [intros k; apply N.lxor_spec|]. split; [reflexivity|]. split; [f_equal; [apply N.lxor_0_r|lia]|]. split; f_equal; try lia; [apply N.lxor_comm|symmetry; apply N.lxor_assoc].
Qed.
Lemma xor_into_ok : forall a b, length a <= length b -> exists l, xor_into a b = Ok l /\ length l = length a /\ forall i, i < length a -> nth i l 0%Z = Z.lxor (nth i a 0%Z) (nth i b 0%Z).
Proof.
  intros a. induction a as [|x a IH]; intros b H; [exists []; repeat split; cbn; lia|]. destruct b as [|y b]; [cbn in H; lia|]. cbn in H. destruct (IH b ltac:(lia)) as (l & E & L & N).
  exists (Z.lxor x y :: l). cbn. rewrite E. split; [reflexivity|]. split; [lia|]. intros [|i] Hi; [reflexivity|]. apply N. lia.
Qed.
Lemma xor_into_short : forall a b, length b < length a -> xor_into a b = UB.
Proof. intros a. induction a as [|x a IH]; intros b H; [cbn in H; lia|]. destruct b as [|y b]; [reflexivity|]. cbn in *. rewrite IH by lia. reflexivity. Qed.
Lemma extended_ok : forall a b, (length (fst a) <= length (fst b) -> exists l, extended_add a b = Ok (l, (snd a + snd b)%Z) /\ length l = length (fst a) /\ forall i, i < length (fst a) -> nth i l 0%Z = Z.lxor (nth i (fst a) 0%Z) (nth i (fst b) 0%Z)) /\
  (length (fst b) < length (fst a) -> extended_add a b = UB).
Proof.
  intros [a x] [b y]. unfold extended_add. cbn [fst snd]. split; intros H.
  - destruct (xor_into_ok a b H) as (l & E & L & N). exists l. rewrite E. auto.
  - rewrite xor_into_short by exact H. reflexivity.
Qed.

Lemma varying_equal_ok : forall a b, legal a -> legal b -> (varying_equal (word_of a) (word_of b) = true <-> forall t, value a t = value b t) /\ varying_differs (word_of a) (word_of b) = negb (varying_equal (word_of a) (word_of b)).
Proof.
  intros [sa ia] [sb ib] HA HB. split; [|reflexivity]. unfold varying_equal. rewrite Z.eqb_eq. unfold legal, word_of, value in *. cbn [slope icpt] in *. split.
  - intros H. assert (E : sa = sb /\ ia = ib) by (destruct HA as [->|[-> | ->]], HB as [->|[-> | ->]]; cbn [Z.eqb Pos.eqb] in H; lia). destruct E as [-> ->]. reflexivity.
  - intros H. pose proof (H 0%Z). pose proof (H 1%Z). assert (E : sa = sb /\ ia = ib) by lia. destruct E as [-> ->]. reflexivity.
Qed.
