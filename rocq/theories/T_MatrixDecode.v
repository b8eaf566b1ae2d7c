(** C56: decoding with a check matrix finds a cheapest explanation.

    A check matrix has a column for every error, with ones in the rows of the checks that it flips.  The checks are measured in several
    rounds, and outcomes of all rounds but the last may be wrong.  A Matching object made from the matrix is given the changes of the outcomes
    from round to round.  The predicted faults are those of a set of errors and wrong outcomes that explains the changes, and no other set
    that explains them costs less, up to the rounding of weights.  With one round and the default faults, the prediction solves the linear
    system.  Equal columns are covered with the default strategy, which keeps the smallest weight.  Merging and logarithms are in exact real numbers, the discretisation
    and the reported weight in binary64; the decoder runs on radix heaps and 32-bit times. *)
From Coq Require Import Reals ZArith List Bool Arith Lia Lra.
From Verif Require Import M_Base M_Core M_CoreHeap M_Bits M_Merge P_Dem M_CheckMatrix S_CheckMatrix P_CheckMatrix2 M_Matching S_Matching M_UserGraph S_UserGraph S_Pipeline S_MatrixDecode P_Matching P_MatrixDecode.
Import ListNotations.
Local Open Scope R_scope.

Notation times tws := (match tws with Some t => t | None => [] end).

Theorem C56_cheapest : forall rows reps nfaults cols faults (ws ps : list R) s virtual (tws mes : option (list R)) g M z h,
  load_check_matrix (N := RN) rows cols faults nfaults ws ps s virtual reps tws mes = Ok g ->
  sound_matrix rows reps cols faults ws (times tws) s nfaults M -> accepted g z -> explains rows reps cols (event_at z) h ->
  (length (happening rows reps cols h) + length (filter (fun x => Rltb (site_weight ws (times tws) x) 0) (sites rows reps (length cols))) <= 64)%nat \/ compact g ->
  exists K m' row w, (forall fuel, (K <= fuel)%nat -> mstep fuel cyclic_ints (new_matching g) (AskDecode z) = Ok (m', Row row w)) /\
    cheapest rows reps cols faults ws (times tws) nfaults M (event_at z) row w.
Proof. exact (fun rows reps nf cols faults ws ps s virtual tws mes g M z h LD SM => decode_cheapest rows reps nf cols faults ws ps s virtual tws mes g M LD SM z h). Qed.
Print Assumptions C56_cheapest.

(** One round; the faults are the columns, as by default.  The prediction is a solution of the linear system, and none costs less. *)
Theorem C56_solution : forall rows cols (ws ps : list R) s virtual (tws mes : option (list R)) g M z x0, let n := length cols in let identity := map (fun i => [i]) (seq 0 n) in
  load_check_matrix (N := RN) rows cols identity n ws ps s virtual 1 tws mes = Ok g -> sound_matrix rows 1 cols identity ws (times tws) s n M ->
  accepted g z -> solves rows cols (event_at z) x0 -> (length (ones x0) + length (filter (fun i => Rltb (nth i ws 0%R) 0) (seq 0 n)) <= 64)%nat \/ compact g ->
  exists K m' x w, (forall fuel, (K <= fuel)%nat -> mstep fuel cyclic_ints (new_matching g) (AskDecode z) = Ok (m', Row (map Z.b2z x) w)) /\
    solves rows cols (event_at z) x /\
    (forall y, solves rows cols (event_at z) y -> vector_cost ws x <= vector_cost ws y + INR (length (ones x) + length (ones y)) * half_step M) /\
    Rabs (w - vector_cost ws x) <= INR (length (ones x)) * half_step M /\
    ((forall i, (i < n)%nat -> exists k, nth i ws 0 = IZR k) -> (forall y, solves rows cols (event_at z) y -> vector_cost ws x <= vector_cost ws y) /\ (Rabs (vector_cost ws x) <= IZR (2 ^ 52) -> w = vector_cost ws x)).
Proof. exact decode_vector. Qed.
Print Assumptions C56_solution.

(** Any calls on such an object get right replies, as in C53. *)
Theorem C56_session : forall rows reps nfaults cols faults (ws ps : list R) s virtual (tws mes : option (list R)) g M cs,
  load_check_matrix (N := RN) rows cols faults nfaults ws ps s virtual reps tws mes = Ok g -> sound_matrix rows reps cols faults ws (times tws) s nfaults M ->
  all_fair g cs -> exists K m' rs, (forall fuel, (K <= fuel)%nat -> mrun fuel cyclic_ints (new_matching g) cs = Ok (m', rs)) /\ all_right g cs rs.
Proof. exact (fun rows reps nf cols faults ws ps s virtual tws mes g M cs LD SM => run_ok cs _ _ (matrix_fits rows reps nf cols faults ws ps s virtual tws mes g M LD SM)). Qed.
Print Assumptions C56_session.
(** As long as the graph is that of the matrix, a right reply is a cheapest one: this covers the rows of batches and repeated calls. *)
Theorem C56_right_is_cheapest : forall rows reps nfaults cols faults (ws ps : list R) s virtual (tws mes : option (list R)) g M P row w,
  load_check_matrix (N := RN) rows cols faults nfaults ws ps s virtual reps tws mes = Ok g -> sound_matrix rows reps cols faults ws (times tws) s nfaults M ->
  right_row g P row w -> cheapest rows reps cols faults ws (times tws) nfaults M P row w.
Proof. exact (fun rows reps nf cols faults ws ps s virtual tws mes g M P row w LD SM => row_cheapest rows reps nf cols faults ws ps s virtual tws mes g M LD SM P row w). Qed.
Print Assumptions C56_right_is_cheapest.
(** And events that few enough errors explain can be asked about. *)
Theorem C56_explainable : forall rows reps nfaults cols faults (ws ps : list R) s virtual (tws mes : option (list R)) g M P evs h,
  load_check_matrix (N := RN) rows cols faults nfaults ws ps s virtual reps tws mes = Ok g -> sound_matrix rows reps cols faults ws (times tws) s nfaults M ->
  (forall v, In v evs <-> P v) -> (forall v, In v evs -> (v < num_nodes g)%nat) -> explains rows reps cols P h ->
  (length (happening rows reps cols h) + length (filter (fun x => Rltb (site_weight ws (times tws) x) 0) (sites rows reps (length cols))) <= 64)%nat \/ compact g ->
  usable g /\ explainable g P.
Proof.
  exact (fun rows reps nf cols faults ws ps s virtual tws mes g M P evs h LD SM HE HB EX HN => conj (matrix_usable rows reps nf cols faults ws ps s virtual tws mes g M LD SM)
    (matrix_explainable rows reps nf cols faults ws ps s virtual tws mes g M LD SM P evs h HE HB EX HN)).
Qed.
Print Assumptions C56_explainable.
(** Any events may be asked about if there are fewer than 64 detectors, or if the graph is compact.  Events that nothing explains make the call
    raise an exception. *)
Theorem C56_any_events : forall rows reps nfaults cols faults (ws ps : list R) s virtual (tws mes : option (list R)) g M z,
  load_check_matrix (N := RN) rows cols faults nfaults ws ps s virtual reps tws mes = Ok g -> sound_matrix rows reps cols faults ws (times tws) s nfaults M ->
  accepted g z -> (rows * reps < 64)%nat \/ compact g ->
  exists K m' r, (forall fuel, (K <= fuel)%nat -> mstep fuel cyclic_ints (new_matching g) (AskDecode z) = Ok (m', r)) /\ fits m' g /\
    ((exists h, explains rows reps cols (event_at z) h) -> exists row w, r = Row row w /\ cheapest rows reps cols faults ws (times tws) nfaults M (event_at z) row w) /\
    ((forall h, ~ explains rows reps cols (event_at z) h) -> r = Raised).
Proof.
  exact (fun rows reps nf cols faults ws ps s virtual tws mes g M z LD SM AC HC => decode_any rows reps nf cols faults ws ps s virtual tws mes g M LD SM z
    (match HC with or_introl H => matrix_few rows reps nf cols faults ws ps s virtual tws mes g M LD SM H | or_intror H => H end) AC).
Qed.
Print Assumptions C56_any_events.
(** One round: a linear system without a solution makes the call raise an exception. *)
Theorem C56_no_solution : forall rows cols (ws ps : list R) s virtual (tws mes : option (list R)) g M z, let n := length cols in let identity := map (fun i => [i]) (seq 0 n) in
  load_check_matrix (N := RN) rows cols identity n ws ps s virtual 1 tws mes = Ok g -> sound_matrix rows 1 cols identity ws (times tws) s n M ->
  accepted g z -> (rows < 64)%nat \/ compact g -> (forall x, ~ solves rows cols (event_at z) x) ->
  exists K m', (forall fuel, (K <= fuel)%nat -> mstep fuel cyclic_ints (new_matching g) (AskDecode z) = Ok (m', Raised)) /\ fits m' g.
Proof. exact vector_any. Qed.
Print Assumptions C56_no_solution.

(** ** Cases that meet the hypotheses *)
(** Two rounds of a repetition code with two checks; the first two columns are equal.  Check 0 sees a change in both rounds: explained by one
    wrong outcome, at cost 1, or by errors of column 1 in both rounds, at cost 4. *)
Definition ex_cols : list (list nat) := [[0]; [0]; [0; 1]; [1]]%nat.
Definition ex_faults : list (list nat) := [[0]; [1]; [2]; [3]]%nat.
Definition ex_ws : list R := [3; 2; 2; 3].
Definition ex_tws : list R := [1; 1].
Definition ex_h (x : site) : bool := match x with Wrong 0 0 => true | _ => false end.
Lemma filter_le : forall A (f : A -> bool) l, (length (filter f l) <= length l)%nat.
Proof. induction l as [|a l IH]; [cbn; lia|]. cbn. destruct (f a); cbn; lia. Qed.
Lemma ex_sound : forall reps, (reps <= 2)%nat -> sound_matrix 2 reps ex_cols ex_faults ex_ws ex_tws SMALLEST_WEIGHT 4 3.
Proof.
  intros reps Hr. unfold sound_matrix. split; [|split; [|split; [|split; [|split; [|split]]]]].
  - intros c r Hc Hr'. cbn in Hc. repeat (destruct Hc as [<-|Hc]; [cbn in Hr'; lia|]). destruct Hc.
  - intros c r Hc Hr'. cbn in Hc. repeat (destruct Hc as [<-|Hc]; [cbn in Hr'; lia|]). destruct Hc.
  - intros x Hx. apply Rabs_le. destruct x as [t i|t i]; cbn [site_weight].
    + do 4 (destruct i as [|i]; [cbn; lra|]). rewrite nth_overflow by (cbn; lia). lra.
    + do 2 (destruct i as [|i]; [cbn; lra|]). rewrite nth_overflow by (cbn; lia). lra.
  - unfold max_user_weight. lra.
  - intros i H. do 4 (destruct i as [|i]; [discriminate|]). destruct i; discriminate.
  - right. split; [reflexivity|]. intros w Hw. cbn in Hw. repeat (destruct Hw as [<-|Hw]; [lra|]). destruct Hw.
  - assert (T : / IZR (2 ^ 999) <= 1) by (rewrite <- Rinv_1; apply Rinv_le_contravar; [lra|]; apply (IZR_le 1); discriminate).
    intros x Hx. destruct x as [t i|t i]; cbn [site_weight].
    + do 4 (destruct i as [|i]; [right; cbn [nth ex_ws]; rewrite Rabs_right by lra; lra|]). left. apply nth_overflow. cbn. lia.
    + do 2 (destruct i as [|i]; [right; cbn [nth ex_tws]; rewrite Rabs_right by lra; lra|]). left. apply nth_overflow. cbn. lia.
Qed.
Example C56_example : exists g, load_check_matrix (N := RN) 2 ex_cols ex_faults 4 ex_ws ex_ws SMALLEST_WEIGHT false 2 (Some ex_tws) (Some ex_tws) = Ok g /\
  sound_matrix 2 2 ex_cols ex_faults ex_ws ex_tws SMALLEST_WEIGHT 4 3 /\ accepted g (Syn2 2 [[1; 1]; [0; 0]]%Z) /\ explains 2 2 ex_cols (event_at (Syn2 2 [[1; 1]; [0; 0]]%Z)) ex_h /\
  (length (happening 2 2 ex_cols ex_h) + length (filter (fun x => Rltb (site_weight ex_ws ex_tws x) 0) (sites 2 2 (length ex_cols))) <= 64)%nat.
Proof.
  destruct (check_matrix_accepts (N := RN) 2 ex_cols ex_faults 4 ex_ws ex_ws SMALLEST_WEIGHT false 2 (Some ex_tws) (Some ex_tws)) as (g & Eg); try reflexivity.
  { intros c Hc. cbn in Hc. repeat (destruct Hc as [<-|Hc]; [cbn; lia|]). destruct Hc. }
  { intros _. exists ex_tws, ex_tws. auto. }
  { discriminate. }
  exists g. split; [exact Eg|]. split; [now apply ex_sound|]. split; [|split].
  - cbn [accepted length]. unfold num_detectors. destruct (matrix_bounds 2 2 4 ex_cols ex_faults ex_ws ex_ws SMALLEST_WEIGHT false (Some ex_tws) (Some ex_tws) g 3 Eg (ex_sound 2 (le_n 2))) as [[-> ->]|[-> ->]]; reflexivity.
  - intros t r Ht Hr. cbn [event_at length]. assert (D : detection 2 2 ex_cols t r ex_h = (r =? 0)%nat) by (destruct t as [|[|]]; [| |lia]; (destruct r as [|[|]]; [reflexivity|reflexivity|lia])). rewrite D, Nat.eqb_eq. split.
    + intros ->. exists t, 0%nat. split; [lia|]. destruct t as [|[|]]; [discriminate|discriminate|lia].
    + intros (t' & c & (A & B & C) & V). destruct c as [|[|]]; [lia| |lia]. destruct t' as [|[|]]; [contradiction|contradiction|lia].
  - eapply Nat.le_trans; [apply Nat.add_le_mono_l; apply filter_le|]. cbn. lia.
Qed.
(** The syndrome (1, 0) in one round: solved by column 1 alone. *)
Example C56_solution_example : exists g, load_check_matrix (N := RN) 2 ex_cols (map (fun i => [i]) (seq 0 4)) 4 ex_ws ex_ws SMALLEST_WEIGHT false 1 None None = Ok g /\
  sound_matrix 2 1 ex_cols (map (fun i => [i]) (seq 0 4)) ex_ws [] SMALLEST_WEIGHT 4 3 /\ accepted g (Syn1 [1; 0]%Z) /\ solves 2 ex_cols (event_at (Syn1 [1; 0]%Z)) [false; true; false; false] /\
  (length (ones [false; true; false; false]) + length (filter (fun i => Rltb (nth i ex_ws 0%R) 0) (seq 0 4)) <= 64)%nat.
Proof.
  destruct (check_matrix_accepts (N := RN) 2 ex_cols (map (fun i => [i]) (seq 0 4)) 4 ex_ws ex_ws SMALLEST_WEIGHT false 1 None None) as (g & Eg); try reflexivity.
  { intros c Hc. cbn in Hc. repeat (destruct Hc as [<-|Hc]; [cbn; lia|]). destruct Hc. }
  { lia. }
  { discriminate. }
  assert (SM : sound_matrix 2 1 ex_cols (map (fun i => [i]) (seq 0 4)) ex_ws [] SMALLEST_WEIGHT 4 3).
  { destruct (ex_sound 1 (le_S _ _ (le_n 1))) as (S1 & S2 & S3 & S4 & S5 & S6 & S7). split; [exact S1|]. split; [exact S2|]. split; [|split; [exact S4|split; [exact S5|split; [exact S6|]]]];
      intros x Hx; [specialize (S3 x Hx)|specialize (S7 x Hx)]; destruct x as [t i|t i]; try assumption; rewrite sites_one in Hx; apply in_map_iff in Hx as (j & E & _); discriminate. }
  exists g. split; [exact Eg|]. split; [exact SM|]. split; [|split].
  - cbn [accepted length]. unfold num_detectors. destruct (matrix_bounds 2 1 4 ex_cols _ ex_ws ex_ws SMALLEST_WEIGHT false None None g 3 Eg SM) as [[-> ->]|[-> ->]]; cbn; lia.
  - split; [reflexivity|]. intros r Hr. destruct r as [|[|]]; [| |lia]; cbn; split; try discriminate; try reflexivity; intros H; exfalso; now apply H.
  - eapply Nat.le_trans; [apply Nat.add_le_mono_l; apply filter_le|]. cbn. lia.
Qed.
(** A ring of three checks: the syndrome (1, 0, 0) has no solution; (1, 0, 1) has two. *)
Definition ring_cols : list (list nat) := [[0; 1]; [1; 2]; [0; 2]]%nat.
Definition ring_ws : list R := [3; 2; 2].
Example C56_no_solution_example : exists g, load_check_matrix (N := RN) 3 ring_cols (map (fun i => [i]) (seq 0 3)) 3 ring_ws ring_ws SMALLEST_WEIGHT false 1 None None = Ok g /\
  sound_matrix 3 1 ring_cols (map (fun i => [i]) (seq 0 3)) ring_ws [] SMALLEST_WEIGHT 3 3 /\ accepted g (Syn1 [1; 0; 0]%Z) /\ (forall x, ~ solves 3 ring_cols (event_at (Syn1 [1; 0; 0]%Z)) x) /\
  accepted g (Syn1 [1; 0; 1]%Z) /\ solves 3 ring_cols (event_at (Syn1 [1; 0; 1]%Z)) [false; false; true].
Proof.
  destruct (check_matrix_accepts (N := RN) 3 ring_cols (map (fun i => [i]) (seq 0 3)) 3 ring_ws ring_ws SMALLEST_WEIGHT false 1 None None) as (g & Eg); try reflexivity.
  { intros c Hc. cbn in Hc. repeat (destruct Hc as [<-|Hc]; [cbn; lia|]). destruct Hc. }
  { lia. }
  { discriminate. }
  assert (SM : sound_matrix 3 1 ring_cols (map (fun i => [i]) (seq 0 3)) ring_ws [] SMALLEST_WEIGHT 3 3).
  { unfold sound_matrix. split; [|split; [|split; [|split; [|split; [|split]]]]].
    - intros c r Hc Hr'. cbn in Hc. repeat (destruct Hc as [<-|Hc]; [cbn in Hr'; lia|]). destruct Hc.
    - intros c r Hc Hr'. cbn in Hc. repeat (destruct Hc as [<-|Hc]; [cbn in Hr'; lia|]). destruct Hc.
    - intros x Hx. rewrite sites_one in Hx. apply in_map_iff in Hx as (i & <- & _). apply Rabs_le. cbn [site_weight]. do 3 (destruct i as [|i]; [cbn; lra|]). rewrite nth_overflow by (cbn; lia). lra.
    - unfold max_user_weight. lra.
    - intros i H. do 3 (destruct i as [|i]; [discriminate|]). destruct i; discriminate.
    - right. split; [reflexivity|]. intros w Hw. cbn in Hw. repeat (destruct Hw as [<-|Hw]; [lra|]). destruct Hw.
    - assert (T : / IZR (2 ^ 999) <= 1) by (rewrite <- Rinv_1; apply Rinv_le_contravar; [lra|]; apply (IZR_le 1); discriminate).
      intros x Hx. rewrite sites_one in Hx. apply in_map_iff in Hx as (i & <- & _). cbn [site_weight].
      do 3 (destruct i as [|i]; [right; cbn [nth ring_ws]; rewrite Rabs_right by lra; lra|]). left. apply nth_overflow. cbn. lia. }
  assert (AC : forall l, length l = 3%nat -> accepted g (Syn1 l)).
  { intros l Hl. cbn [accepted]. rewrite Hl. unfold num_detectors. destruct (matrix_bounds 3 1 3 ring_cols _ ring_ws ring_ws SMALLEST_WEIGHT false None None g 3 Eg SM) as [[-> ->]|[-> ->]]; cbn; lia. }
  exists g. split; [exact Eg|]. split; [exact SM|]. split; [now apply AC|]. split; [|split; [now apply AC|]].
  - intros x [L H]. destruct x as [|a [|b [|c [|]]]]; try discriminate L. pose proof (H 0%nat ltac:(lia)) as H0. pose proof (H 1%nat ltac:(lia)) as H1. pose proof (H 2%nat ltac:(lia)) as H2. cbn [event_at nth] in H0, H1, H2.
    destruct a, b, c; vm_compute in H0, H1, H2; first [now apply (proj1 H1 eq_refl) | now apply (proj1 H2 eq_refl) | assert (A : 1%Z <> 0%Z) by discriminate; apply H0 in A; discriminate].
  - split; [reflexivity|]. intros r Hr. destruct r as [|[|[|]]]; [| | |lia]; cbn; split; try discriminate; try reflexivity; intros H; exfalso; now apply H.
Qed.
