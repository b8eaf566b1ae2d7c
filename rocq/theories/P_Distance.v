(** Errors of less than half the distance are corrected. *)
From Coq Require Import Reals ZArith List Bool Arith Lia Lra Permutation.
From Verif Require Import M_Base M_UserGraph S_GraphMap M_Merge S_Merge S_Pipeline S_Dem S_DemDecode S_MatrixDecode S_Distance.
Import ListNotations.
Local Open Scope nat_scope.

(** ** Sites *)
Section Matrix.
Variables (rows reps : nat) (cols faults : list (list nat)) (ws tws : list R).
Notation hap := (happening rows reps cols).
Definition both (h h' : site -> bool) (x : site) : bool := xorb (h x) (h' x).
Lemma odd_filter_xor : forall {X} (f h h' : X -> bool) l, Nat.odd (length (filter f (filter (fun x => xorb (h x) (h' x)) l))) = xorb (Nat.odd (length (filter f (filter h l)))) (Nat.odd (length (filter f (filter h' l)))).
Proof.
  intros X f h h'. assert (S : forall n, Nat.odd (S n) = negb (Nat.odd n)) by (intros n; rewrite Nat.odd_succ, <- Nat.negb_odd; reflexivity).
  induction l as [|x l IH]; [reflexivity|]. cbn [filter]. destruct (h x), (h' x); cbn [xorb filter]; destruct (f x); cbn [length]; rewrite ?S, IH; destruct (Nat.odd (length (filter f (filter h l)))), (Nat.odd (length (filter f (filter h' l)))); reflexivity.
Qed.
Lemma both_explains : forall P h h', explains rows reps cols P h -> explains rows reps cols P h' -> explains rows reps cols (fun _ => False) (both h h').
Proof.
  intros P h h' H H' t r Ht Hr. unfold detection, happening, both. rewrite odd_filter_xor. specialize (H t r Ht Hr). specialize (H' t r Ht Hr). unfold detection, happening in H, H'.
  destruct (Nat.odd (length (filter (changes cols t r) (filter h (sites rows reps (length cols)))))), (Nat.odd (length (filter (changes cols t r) (filter h' (sites rows reps (length cols)))))); cbn; split; try discriminate; try tauto; intros _; [assert (false = true) by (apply H', H; reflexivity)|assert (false = true) by (apply H, H'; reflexivity)]; discriminate.
Qed.
Lemma both_fault : forall k h h', fault rows reps cols faults k (both h h') = xorb (fault rows reps cols faults k h) (fault rows reps cols faults k h').
Proof. intros k h h'. unfold fault, happening, both. apply odd_filter_xor. Qed.
Lemma both_cost : (forall x, In x (sites rows reps (length cols)) -> (0 <= site_weight ws tws x)%R) -> forall h h', (cost rows reps cols ws tws (both h h') <= cost rows reps cols ws tws h + cost rows reps cols ws tws h')%R.
Proof.
  intros NN h h'. unfold cost, happening, both. revert NN. generalize (sites rows reps (length cols)). induction l as [|x l IH]; intros NN; [cbn; lra|]. specialize (IH (fun y Hy => NN y (or_intror Hy))). specialize (NN x (or_introl eq_refl)).
  cbn [filter]. destruct (h x), (h' x); cbn [xorb map fold_right]; lra.
Qed.
Lemma matrix_corrects : forall nf M P row w h D, cheapest rows reps cols faults ws tws nf M P row w -> (0 <= M)%R -> (forall x, In x (sites rows reps (length cols)) -> (0 <= site_weight ws tws x)%R) ->
  explains rows reps cols P h -> matrix_distance rows reps cols faults ws tws nf D ->
  under_half (forall x, In x (sites rows reps (length cols)) -> exists z, site_weight ws tws x = IZR z) (length (sites rows reps (length cols)) + length (hap h)) M (cost rows reps cols ws tws h) D ->
  row = map (fun k => Z.b2z (fault rows reps cols faults k h)) (seq 0 nf).
Proof.
  intros nf M P row w h D (h' & E1 & -> & E3 & _ & E5) HM NN EX MD UH.
  assert (C : (cost rows reps cols ws tws (both h' h) < D)%R).
  { pose proof (both_cost NN h' h) as BC. destruct UH as [[HI HL]|HL]; [destruct (E5 HI) as [E6 _]; specialize (E6 h EX); lra|]. specialize (E3 h EX).
    assert (L : (INR (length (hap h') + length (hap h)) <= INR (length (sites rows reps (length cols)) + length (hap h)))%R).
    { apply le_INR. apply Nat.add_le_mono_r. unfold happening. generalize (sites rows reps (length cols)). induction l as [|x l IH]; [cbn; lia|]. cbn. destruct (h' x); cbn; lia. }
    assert (HS : (0 <= half_step M)%R). { unfold half_step. assert (0 < IZR (2 * (2 ^ 24 - 1)))%R by (apply IZR_lt; reflexivity). assert (0 < / IZR (2 ^ 20))%R by (apply Rinv_0_lt_compat, IZR_lt; reflexivity). apply Rmult_le_pos; [apply Rmult_le_pos; [exact HM|left; now apply Rinv_0_lt_compat]|lra]. }
    pose proof (Rmult_le_compat_r _ _ _ HS L). lra. }
  apply map_ext_in. intros k Hk. apply in_seq in Hk. pose proof (both_fault k h' h) as BF. destruct (fault rows reps cols faults k (both h' h)) eqn:EB; [|f_equal; destruct (fault _ _ _ _ k h'), (fault _ _ _ _ k h); cbn in BF; congruence].
  pose proof (MD (both h' h) k (both_explains P h' h E1 EX) ltac:(lia) EB). lra.
Qed.
End Matrix.

(** ** Graphs *)
Definition uedge_dec : forall a b : uedge RN, {a = b} + {a <> b}.
Proof.
  intros [a1 a2 a3 a4 a5] [b1 b2 b3 b4 b5]. destruct (Nat.eq_dec a1 b1); [|right; congruence]. destruct (option_eq_dec (A := nat) Nat.eq_dec a2 b2) as [|]; [|right; congruence].
  destruct (list_eq_dec Nat.eq_dec a3 b3); [|right; congruence]. destruct (Req_EM_T a4 b4); [|right; congruence]. destruct (Req_EM_T a5 b5); [|right; congruence]. left. subst. reflexivity.
Defined.
Definition flip (e : uedge RN) (F : list (uedge RN)) : list (uedge RN) := if in_dec uedge_dec e F then remove uedge_dec e F else e :: F.
Lemma remove_perm : forall (e : uedge RN) F, NoDup F -> In e F -> Permutation F (e :: remove uedge_dec e F) /\ NoDup (remove uedge_dec e F).
Proof.
  intros e F. induction F as [|x F IH]; intros ND H; [destruct H|]. apply NoDup_cons_iff in ND as [N1 N2]. cbn [remove]. destruct (uedge_dec e x) as [<-|Hne].
  - assert (E : remove uedge_dec e F = F) by (now apply notin_remove). rewrite E. split; [apply Permutation_refl|exact N2].
  - destruct H as [->|H]; [congruence|]. destruct (IH N2 H) as [P N3]. split; [rewrite P at 1; apply perm_swap|]. constructor; [|exact N3]. intros HI. apply in_remove in HI as [HI _]. exact (N1 HI).
Qed.
Lemma degree_perm : forall v F F', Permutation F F' -> total_degree v F = total_degree v F'.
Proof. intros v F F' P. unfold total_degree. induction P; cbn [fold_right]; lia. Qed.
Lemma weight_perm : forall F F', Permutation F F' -> total_weight F = total_weight F'.
Proof. intros F F' P. unfold total_weight. induction P; cbn [fold_right]; lra. Qed.
Lemma flips_perm : forall k F F', Permutation F F' -> flips_observable k F = flips_observable k F'.
Proof. intros k F F' P. unfold flips_observable. induction P; cbn [fold_right]; [reflexivity|congruence| |congruence]. destruct (Nat.odd (count_occ _ (obs x) _)), (Nat.odd (count_occ _ (obs y) _)), (fold_right _ _ _); reflexivity. Qed.
Lemma flip_ok : forall e F, NoDup F -> NoDup (flip e F) /\ incl (flip e F) (e :: F) /\ (forall v, Nat.odd (total_degree v (flip e F)) = xorb (Nat.odd (edge_ends v e)) (Nat.odd (total_degree v F))) /\
  (forall k, flips_observable k (flip e F) = xorb (Nat.odd (count_occ Nat.eq_dec (obs e) k)) (flips_observable k F)) /\ ((0 <= weight e)%R -> (total_weight (flip e F) <= weight e + total_weight F)%R).
Proof.
  intros e F ND. unfold flip. destruct (in_dec uedge_dec e F) as [H|H].
  - destruct (remove_perm e F ND H) as [P N2]. split; [exact N2|]. split; [intros x Hx; right; exact (proj1 (in_remove _ _ _ _ Hx))|]. split; [|split].
    + intros v. rewrite (degree_perm v _ _ P). change (total_degree v (e :: remove uedge_dec e F)) with (edge_ends v e + total_degree v (remove uedge_dec e F)). rewrite Nat.odd_add. now destruct (Nat.odd (edge_ends v e)), (Nat.odd _).
    + intros k. rewrite (flips_perm k _ _ P). unfold flips_observable. cbn [fold_right]. now destruct (Nat.odd (count_occ _ (obs e) k)), (fold_right _ _ _).
    + intros NN. rewrite (weight_perm _ _ P). unfold total_weight. cbn [fold_right]. lra.
  - split; [now constructor|]. split; [apply incl_refl|]. split; [|split].
    + intros v. change (total_degree v (e :: F)) with (edge_ends v e + total_degree v F). apply Nat.odd_add.
    + reflexivity.
    + intros _. unfold total_weight. cbn [fold_right]. lra.
Qed.
Definition flip_all (E F : list (uedge RN)) : list (uedge RN) := fold_right flip F E.
Lemma flip_all_ok : forall E F, NoDup F -> NoDup (flip_all E F) /\ incl (flip_all E F) (E ++ F) /\ (forall v, Nat.odd (total_degree v (flip_all E F)) = xorb (Nat.odd (total_degree v E)) (Nat.odd (total_degree v F))) /\
  (forall k, flips_observable k (flip_all E F) = xorb (flips_observable k E) (flips_observable k F)) /\ ((forall e, In e E -> (0 <= weight e)%R) -> (total_weight (flip_all E F) <= total_weight E + total_weight F)%R).
Proof.
  induction E as [|e E IH]; intros F ND.
  - split; [exact ND|]. split; [apply incl_refl|]. split; [intros v; symmetry; apply xorb_false_l|]. split; [intros k; symmetry; apply xorb_false_l|]. intros _. unfold total_weight. cbn. lra.
  - destruct (IH F ND) as (K1 & K2 & K3 & K4 & K5). destruct (flip_ok e (flip_all E F) K1) as (J1 & J2 & J3 & J4 & J5). cbn [flip_all fold_right]. fold (flip_all E F). split; [exact J1|]. split; [|split; [|split]].
    + intros x Hx. destruct (J2 x Hx) as [<-|Hx']; [now left|]. right. now apply K2.
    + intros v. rewrite J3, K3. change (total_degree v (e :: E)) with (edge_ends v e + total_degree v E). rewrite Nat.odd_add. symmetry. apply xorb_assoc.
    + intros k. rewrite J4, K4. unfold flips_observable. cbn [fold_right]. symmetry. apply xorb_assoc.
    + intros NN. specialize (J5 (NN e (or_introl eq_refl))). specialize (K5 (fun x Hx => NN x (or_intror Hx))). unfold total_weight in *. cbn [fold_right]. lra.
Qed.
Lemma graph_corrects : forall g P row w E evs M D, (exists evs F, (forall v, In v evs <-> P v) /\ row = observables_of g F /\ corrects g F evs /\ near_best g F evs /\ weight_reported g w F) ->
  (forall e, In e (edges g) -> (0 <= weight e <= M)%R) -> (0 <= M)%R -> (forall v, In v evs <-> P v) -> corrects g E evs -> graph_distance g D ->
  under_half (integer_weights g) (length (edges g) + length E) M (total_weight E) D -> row = observables_of g E.
Proof.
  intros g P row w E evs M D (evs' & F & HP & -> & CF & NB & _) NN HM HE CE GD UH.
  assert (CE' : corrects g E evs') by (destruct CE as (A1 & A2 & A3); split; [exact A1|]; split; [exact A2|]; intros v Hv; rewrite (A3 v Hv), HE, HP; reflexivity). specialize (NB E CE').
  pose proof CF as (F1 & F2 & F3). pose proof CE' as (E1 & E2 & E3). destruct (flip_all_ok E F F1) as (K1 & K2 & K3 & K4 & K5). specialize (K5 (fun e He => proj1 (NN e (E2 e He)))).
  assert (C0 : corrects g (flip_all E F) []).
  { split; [exact K1|]. split; [intros x Hx; specialize (K2 x Hx); apply in_app_iff in K2 as [H|H]; auto|]. intros v Hv. rewrite K3. specialize (E3 v Hv). specialize (F3 v Hv).
    destruct (Nat.odd (total_degree v E)), (Nat.odd (total_degree v F)); cbn; split; try discriminate; try tauto; intros _; exfalso; [assert (X : false = true) by (apply F3, E3; reflexivity)|assert (X : false = true) by (apply E3, F3; reflexivity)]; discriminate. }
  assert (C : (total_weight (flip_all E F) < D)%R).
  { destruct NB as [NB1 NB2]. destruct UH as [[HI HL]|HL]; [specialize (NB2 HI); lra|]. assert (NB : (total_weight F <= total_weight E + INR (length F + length E) * half_step M)%R) by (apply NB1; intros e He; rewrite Rabs_right; [apply NN; exact He|apply Rle_ge, NN; exact He]).
    assert (L : (INR (length F + length E) <= INR (length (edges g) + length E))%R) by (apply le_INR; apply Nat.add_le_mono_r; apply NoDup_incl_length; assumption).
    assert (HS : (0 <= half_step M)%R). { unfold half_step. assert (0 < IZR (2 * (2 ^ 24 - 1)))%R by (apply IZR_lt; reflexivity). assert (0 < / IZR (2 ^ 20))%R by (apply Rinv_0_lt_compat, IZR_lt; reflexivity). apply Rmult_le_pos; [apply Rmult_le_pos; [exact HM|left; now apply Rinv_0_lt_compat]|lra]. }
    pose proof (Rmult_le_compat_r _ _ _ HS L). lra. }
  unfold observables_of. apply map_ext_in. intros k Hk. apply in_seq in Hk. specialize (K4 k). destruct (flips_observable k (flip_all E F)) eqn:EB; [|f_equal; destruct (flips_observable k E), (flips_observable k F); cbn in K4; congruence].
  pose proof (GD (flip_all E F) k C0 ltac:(lia) EB). lra.
Qed.

(** ** Detector error models *)
Section Model.
Variables (p : R) (ms : list mechanism).
Hypothesis U : uniform_model p ms.
Fixpoint xor_list (X Y : list bool) : list bool := match X, Y with x :: X', y :: Y' => xorb x y :: xor_list X' Y' | _, _ => [] end.
Lemma xor_length : forall X Y, length X = length Y -> length (xor_list X Y) = length X.
Proof. induction X as [|x X IH]; intros [|y Y] H; try discriminate; [reflexivity|]. cbn. f_equal. apply IH. cbn in H. lia. Qed.
Lemma xor_oddly : forall f l X Y, length X = length l -> length Y = length l -> oddly f l (xor_list X Y) = xorb (oddly f l X) (oddly f l Y).
Proof.
  intros f. induction l as [|m l IH]; intros [|x X] [|y Y] HX HY; try discriminate; [reflexivity|]. cbn [xor_list oddly]. rewrite IH by (cbn in *; lia). destruct x, y, (f m), (oddly f l X), (oddly f l Y); reflexivity.
Qed.
Lemma number_cons : forall x X, number (x :: X) = (if x then 1 else 0) + number X.
Proof. intros x X. unfold number. cbn [count_occ]. destruct x; cbn; reflexivity. Qed.
Lemma xor_number : forall X Y, length X = length Y -> number (xor_list X Y) <= number X + number Y.
Proof. induction X as [|x X IH]; intros [|y Y] H; try discriminate; [cbn; lia|]. cbn [xor_list]. rewrite !number_cons. specialize (IH Y ltac:(cbn in H; lia)). destruct x, y; cbn [xorb]; lia. Qed.
Lemma number_le : forall X, number X <= length X.
Proof. induction X as [|x X IH]; [cbn; lia|]. rewrite number_cons. cbn [length]. destruct x; lia. Qed.

Lemma same_refl : forall m, on_same_pair m m = true.
Proof. intros [q [[a b] os]]. cbn [on_same_pair acting_on]. unfold same_pair. destruct b as [b|]; cbn; rewrite ?Nat.eqb_refl; reflexivity. Qed.
Lemma oddly_at : forall (l : list mechanism) X m i, length X = length l -> nth_error l i = Some m -> (forall j m', nth_error l j = Some m' -> on_same_pair m m' = true -> i = j) -> oddly (on_same_pair m) l X = nth i X false.
Proof.
  induction l as [|m0 l IH]; intros [|x X] m i HX Hi HD; try discriminate; [destruct i; discriminate|]. cbn [oddly]. destruct i as [|i].
  - injection Hi as ->. rewrite same_refl, andb_true_r. assert (E : oddly (on_same_pair m) l X = false); [|rewrite E; apply xorb_false_r].
    assert (HN : forall m', In m' l -> on_same_pair m m' = false). { intros m' H. apply In_nth_error in H as (j & H). destruct (on_same_pair m m') eqn:E; [|reflexivity]. specialize (HD (S j) m' H E). discriminate. }
    clear -HN. revert X. induction l as [|m1 l IH]; intros [|x X]; try reflexivity. cbn [oddly]. rewrite (HN m1 (or_introl eq_refl)), andb_false_r, xorb_false_l. apply IH. intros m' H. apply HN. now right.
  - cbn [nth]. assert (E : on_same_pair m m0 = false). { destruct (on_same_pair m m0) eqn:E; [|reflexivity]. specialize (HD 0 m0 eq_refl E). discriminate. }
    rewrite E, andb_false_r, xorb_false_l. apply IH; [cbn in HX; lia|exact Hi|]. intros j m' Hj Hm. specialize (HD (S j) m' Hj Hm). lia.
Qed.
Lemma alike_eq : forall X Y, length X = length ms -> length Y = length ms -> alike ms X Y = true -> X = Y.
Proof using U.
  intros X Y HX HY HA. unfold alike in HA. rewrite forallb_forall in HA. apply nth_ext with (d := false) (d' := false); [congruence|]. intros i Hi. destruct (nth_error ms i) as [m|] eqn:E; [|apply nth_error_None in E; lia].
  specialize (HA m (nth_error_In _ _ E)). apply eqb_prop in HA. destruct U as (_ & _ & UD). assert (D : forall j m', nth_error ms j = Some m' -> on_same_pair m m' = true -> i = j) by (intros j m' Hj; exact (UD i j m m' E Hj)).
  rewrite <- (oddly_at ms X m i HX E D), <- (oddly_at ms Y m i HY E D). exact HA.
Qed.
Lemma all_lists_in : forall X, In X (all_lists (length X)).
Proof. induction X as [|x X IH]; [now left|]. cbn [length all_lists]. apply in_app_iff. destruct x; [right|left]; now apply in_map. Qed.
Lemma all_lists_len : forall n X, In X (all_lists n) -> length X = n.
Proof. induction n as [|n IH]; intros X H; [destruct H as [<-|[]]; reflexivity|]. cbn [all_lists] in H. apply in_app_iff in H as [H|H]; apply in_map_iff in H as (Y & <- & HY); cbn; f_equal; now apply IH. Qed.
Lemma all_lists_NoDup : forall n, NoDup (all_lists n).
Proof.
  induction n as [|n IH]; [repeat constructor; intros []|]. cbn [all_lists]. assert (C : forall b, NoDup (map (cons b) (all_lists n))) by (intros b; apply FinFun.Injective_map_NoDup; [intros x y H; congruence|exact IH]).
  assert (K : forall l l' : list (list bool), NoDup l -> NoDup l' -> (forall x, In x l -> ~ In x l') -> NoDup (l ++ l')).
  { induction l as [|x l IHl]; intros l' N1 N2 H; [exact N2|]. apply NoDup_cons_iff in N1 as [N0 N1]. cbn. constructor; [rewrite in_app_iff; intros [X|X]; [exact (N0 X)|exact (H x (or_introl eq_refl) X)]|apply IHl; auto; intros y Hy; apply H; now right]. }
  apply K; auto. intros x Hx Hx'. apply in_map_iff in Hx as (y & <- & _). apply in_map_iff in Hx' as (z & E & _). discriminate.
Qed.
Lemma likelihood_chance : forall X, length X = length ms -> likelihood ms X = chance ms X.
Proof using U.
  intros X HX. unfold likelihood. assert (E : filter (alike ms X) (all_lists (length ms)) = [X]); [|rewrite E; cbn; ring].
  assert (AX : alike ms X X = true) by (unfold alike; apply forallb_forall; intros m _; apply eqb_reflx). assert (IX : In X (filter (alike ms X) (all_lists (length ms)))) by (apply filter_In; split; [rewrite <- HX; apply all_lists_in|exact AX]).
  assert (AL : forall Y, In Y (filter (alike ms X) (all_lists (length ms))) -> Y = X) by (intros Y HY; apply filter_In in HY as [H1 H2]; symmetry; apply alike_eq; [exact HX|now apply all_lists_len|exact H2]).
  pose proof (NoDup_filter (alike ms X) (all_lists_NoDup (length ms))) as ND. destruct (filter (alike ms X) (all_lists (length ms))) as [|a [|b l]]; [destruct IX|now rewrite (AL a (or_introl eq_refl))|].
  apply NoDup_cons_iff in ND as [ND _]. elim ND. rewrite (AL a), (AL b); [now left|right; now left|now left].
Qed.
Lemma chance_number : forall l X, (forall m : mechanism, In m l -> fst m = p) -> length X = length l -> chance l X = (p ^ number X * (1 - p) ^ (length l - number X))%R.
Proof using U.
  induction l as [|m l IH]; intros [|x X] HP HX; try discriminate; [cbn; ring|]. cbn [chance]. rewrite (HP m (or_introl eq_refl)), (IH X) by (try (cbn in HX; lia); intros m' H; apply HP; now right).
  rewrite number_cons. cbn [length] in *. pose proof (number_le X). destruct x; cbn [plus]; [cbn [Nat.sub pow]; ring|]. rewrite Nat.sub_succ_l by lia. cbn [pow]. ring.
Qed.
Lemma uniform_fewest : forall P X E, (Z.of_nat (length ms) <= 2 ^ 23)%Z -> explains_events ms P E -> length X = length ms ->
  (likelihood ms E <= likelihood ms X * exp (INR (number X + number E) * half_step (log_likelihood_ratio p)))%R -> number X <= number E.
Proof using U.
  intros P X E LN [LE _] LX HL. rewrite !likelihood_chance in HL by assumption. destruct U as ((P0 & P1) & UP & _). rewrite !(chance_number ms) in HL by assumption. destruct (Nat.le_gt_cases (number X) (number E)) as [|G]; [assumption|exfalso].
  pose proof (number_le X) as NX. rewrite LX in NX. set (L := log_likelihood_ratio p) in *. assert (EL : exp L = ((1 - p) / p)%R) by (unfold L, log_likelihood_ratio; apply exp_ln; apply Rdiv_lt_0_compat; lra).
  assert (PL : (0 < L)%R). { unfold L, log_likelihood_ratio. rewrite <- ln_1. apply ln_increasing; [lra|]. apply (Rmult_lt_reg_r p); [lra|]. unfold Rdiv. rewrite Rmult_assoc, Rinv_l by lra. lra. }
  set (a := number E) in *. set (k := number X - a). assert (EK : number X = a + k) by (unfold k; lia). assert (K1 : 1 <= k) by (unfold k; lia). rewrite EK in HL.
  replace (length ms - a) with ((length ms - (a + k)) + k) in HL by lia. rewrite !pow_add in HL.
  assert (Q : (0 < p ^ a * (1 - p) ^ (length ms - (a + k)))%R) by (apply Rmult_lt_0_compat; apply pow_lt; lra).
  assert (HL' : ((1 - p) ^ k <= p ^ k * exp (INR (a + k + a) * half_step L))%R).
  { apply (Rmult_le_reg_l _ _ _ Q). eapply Rle_trans; [|eapply Rle_trans; [exact HL|]]; right; ring. }
  assert (HL2 : (exp (INR k * L) <= exp (INR (a + k + a) * half_step L))%R).
  { assert (E1 : exp (INR k * L) = (((1 - p) / p) ^ k)%R). { rewrite <- EL. clear. induction k as [|k IH]; [cbn; rewrite Rmult_0_l; apply exp_0|]. rewrite S_INR, Rmult_plus_distr_r, Rmult_1_l, exp_plus, IH. cbn [pow]. ring. }
    rewrite E1. unfold Rdiv. rewrite Rpow_mult_distr, pow_inv. assert (PK : (0 < p ^ k)%R) by (apply pow_lt; lra). apply (Rmult_le_reg_l (p ^ k)); [exact PK|]. eapply Rle_trans; [|exact HL']. right. field. lra. }
  assert (HL3 : (INR k * L <= INR (a + k + a) * half_step L)%R) by (destruct (Rle_lt_dec (INR k * L) (INR (a + k + a) * half_step L)) as [|X1]; [assumption|]; apply exp_increasing in X1; lra).
  assert (B : (INR (a + k + a) <= IZR (2 ^ 24))%R). { rewrite INR_IZR_INZ. apply IZR_le. change (2 ^ 24)%Z with (2 ^ 23 + 2 ^ 23)%Z. lia. }
  assert (K1' : (1 <= INR k)%R) by (apply (le_INR 1); exact K1). unfold half_step in HL3.
  assert (S1 : (INR k * L <= IZR (2 ^ 24) * (L / IZR (2 * (2 ^ 24 - 1)) * (1 + / IZR (2 ^ 20))))%R).
  { eapply Rle_trans; [exact HL3|]. apply Rmult_le_compat_r; [|exact B]. apply Rmult_le_pos; [apply Rmult_le_pos; [lra|left; apply Rinv_0_lt_compat, IZR_lt; reflexivity]|]. assert (0 < / IZR (2 ^ 20))%R by (apply Rinv_0_lt_compat, IZR_lt; reflexivity). lra. }
  assert (S2 : (IZR (2 ^ 24) * (L / IZR (2 * (2 ^ 24 - 1)) * (1 + / IZR (2 ^ 20))) < L)%R).
  { change (2 ^ 24)%Z with 16777216%Z. change (2 * (16777216 - 1))%Z with 33554430%Z. change (2 ^ 20)%Z with 1048576%Z. lra. }
  assert (S3 : (1 * L <= INR k * L)%R) by (apply Rmult_le_compat_r; lra). lra.
Qed.
Lemma model_corrects : forall no P row w E d, most_likely ms no (log_likelihood_ratio p) P row w -> (Z.of_nat (length ms) <= 2 ^ 23)%Z -> explains_events ms P E -> model_distance ms no d -> 2 * number E < d ->
  row = map Z.b2z (logicals ms no E).
Proof using U.
  intros no P row w E d (X & EX & -> & ML & _) LN EE MD HD. pose proof EX as [LX DX]. pose proof EE as [LE DE].
  assert (NX : number X <= number E) by (exact (uniform_fewest P X E LN EE LX (ML E EE))).
  assert (C0 : explains_events ms (fun _ => False) (xor_list X E)).
  { split; [rewrite xor_length; congruence|]. intros v. rewrite xor_oddly by congruence. specialize (DX v). specialize (DE v). destruct (oddly (flips_detector v) ms X), (oddly (flips_detector v) ms E); cbn; split; try discriminate; try tauto; intros _; [assert (false = true) by (apply DE, DX; reflexivity)|assert (false = true) by (apply DX, DE; reflexivity)]; discriminate. }
  unfold logicals. rewrite map_map. apply map_ext_in. intros k Hk. apply in_seq in Hk. pose proof (xor_oddly (flips_logical k) ms X E LX LE) as XO. destruct (oddly (flips_logical k) ms (xor_list X E)) eqn:EB; [|f_equal; destruct (oddly _ ms X), (oddly _ ms E); cbn in XO; congruence].
  pose proof (MD _ k C0 ltac:(lia) EB). pose proof (xor_number X E ltac:(congruence)). lia.
Qed.
End Model.
