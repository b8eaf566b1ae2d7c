(** C63: a check matrix given from Python is the matrix that is decoded with.

    load_from_check_matrix takes the matrices as scipy arrays (which may store zeros), most arguments as a number for all columns or an array, and
    some arguments under two names.  Whatever the arguments stand for: the call is accepted if no column has more than two ones and the arrays have
    the right lengths, and decoding with the object then finds a cheapest explanation for that matrix (as in C56); with the default faults and one
    round, the prediction solves the linear system with that matrix of bits at the lowest cost.  Arrays whose lengths do not match, columns with
    more than two ones, unknown strategies, negative repetitions and arguments given twice are refused.  That only zeros and ones are accepted
    is false: values are cast to 8 bits before they are checked. *)
From Coq Require Import Reals ZArith List Bool Arith Lia Lra.
From Verif Require Import M_Base M_Bits M_Core M_CoreHeap M_Merge P_Dem M_CheckMatrix M_MatrixArgs S_CheckMatrix S_MatrixDecode S_MatrixArgs P_MatrixArgs P_MatrixArgs2 P_MatrixArgs3.
From Verif Require Import M_Matching S_Matching P_Matching P_MatrixDecode M_UserGraph S_UserGraph S_Pipeline.
Import ListNotations.
Local Open Scope R_scope.

(** The call is accepted. *)
Theorem C63_accepts : forall (N : numops) (one : num N) a rows cols B ws ps reps tws mes s nfaults F, call_means one a rows cols B ws ps reps tws mes s nfaults F ->
  s <> DISALLOW -> length ws = cols -> length ps = cols -> (forall t m, tws = Some t -> mes = Some m -> length t = rows /\ length m = rows) ->
  (forall c, (c < cols)%nat -> (length (filter (fun r => B r c) (seq 0 rows)) <= 2)%nat) -> exists g, py_load_check_matrix one a = Ok g.
Proof. exact (fun N => call_loads (N := N)). Qed.
Print Assumptions C63_accepts.

(** Decoding with the object finds a cheapest explanation. *)
Theorem C63_cheapest : forall (a : matrix_args (N := RN)) rows cols B (ws ps : list R) reps tws mes s nfaults F g M, call_means (N := RN) 1 a rows cols B ws ps reps tws mes s nfaults F ->
  py_load_check_matrix (N := RN) 1 a = Ok g -> let H := ones_of rows cols B in let E := ones_of nfaults cols F in sound_matrix rows reps H E ws (times tws) s nfaults M ->
  forall z h, accepted g z -> explains rows reps H (event_at z) h ->
  (length (happening rows reps H h) + length (filter (fun x => Rltb (site_weight ws (times tws) x) 0) (sites rows reps cols)) <= 64)%nat \/ compact g ->
  exists K m' row w, (forall fuel, (K <= fuel)%nat -> mstep fuel cyclic_ints (new_matching g) (AskDecode z) = Ok (m', Row row w)) /\
    cheapest rows reps H E ws (times tws) nfaults M (event_at z) row w.
Proof. exact (fun a rows cols B ws ps reps tws mes s nf F g M CM LD => args_cheapest a rows cols B ws ps reps tws mes s nf F g M CM LD). Qed.
Print Assumptions C63_cheapest.

(** Any events, for fewer than 64 detectors or compact graphs; those that nothing explains make the call raise. *)
Theorem C63_any_events : forall (a : matrix_args (N := RN)) rows cols B (ws ps : list R) reps tws mes s nfaults F g M, call_means (N := RN) 1 a rows cols B ws ps reps tws mes s nfaults F ->
  py_load_check_matrix (N := RN) 1 a = Ok g -> let H := ones_of rows cols B in let E := ones_of nfaults cols F in sound_matrix rows reps H E ws (times tws) s nfaults M ->
  forall z, accepted g z -> (rows * reps < 64)%nat \/ compact g ->
  exists K m' r, (forall fuel, (K <= fuel)%nat -> mstep fuel cyclic_ints (new_matching g) (AskDecode z) = Ok (m', r)) /\ fits m' g /\
    ((exists h, explains rows reps H (event_at z) h) -> exists row w, r = Row row w /\ cheapest rows reps H E ws (times tws) nfaults M (event_at z) row w) /\
    ((forall h, ~ explains rows reps H (event_at z) h) -> r = Raised).
Proof. exact (fun a rows cols B ws ps reps tws mes s nf F g M CM LD => args_any a rows cols B ws ps reps tws mes s nf F g M CM LD). Qed.
Print Assumptions C63_any_events.

(** One round and the default faults: the prediction solves the system with the matrix of bits, and no solution costs less. *)
Theorem C63_solution : forall (a : matrix_args (N := RN)) rows cols B (ws ps : list R) s F g M, call_means (N := RN) 1 a rows cols B ws ps 1 None None s cols F -> a_faults a = None ->
  py_load_check_matrix (N := RN) 1 a = Ok g -> sound_matrix rows 1 (ones_of rows cols B) (ones_of cols cols F) ws [] s cols M ->
  forall z x0, accepted g z -> system rows cols B (event_at z) x0 -> (length (ones x0) + length (filter (fun i => Rltb (nth i ws 0%R) 0) (seq 0 cols)) <= 64)%nat \/ compact g ->
  exists K m' x w, (forall fuel, (K <= fuel)%nat -> mstep fuel cyclic_ints (new_matching g) (AskDecode z) = Ok (m', Row (map Z.b2z x) w)) /\
    system rows cols B (event_at z) x /\
    (forall y, system rows cols B (event_at z) y -> vector_cost ws x <= vector_cost ws y + INR (length (ones x) + length (ones y)) * half_step M) /\
    Rabs (w - vector_cost ws x) <= INR (length (ones x)) * half_step M /\
    ((forall i, (i < cols)%nat -> exists k, nth i ws 0 = IZR k) ->
     (forall y, system rows cols B (event_at z) y -> vector_cost ws x <= vector_cost ws y) /\ (Rabs (vector_cost ws x) <= IZR (2 ^ 52) -> w = vector_cost ws x)).
Proof. exact args_vector. Qed.
Print Assumptions C63_solution.
(** A system without a solution makes the call raise. *)
Theorem C63_no_solution : forall (a : matrix_args (N := RN)) rows cols B (ws ps : list R) s F g M, call_means (N := RN) 1 a rows cols B ws ps 1 None None s cols F -> a_faults a = None ->
  py_load_check_matrix (N := RN) 1 a = Ok g -> sound_matrix rows 1 (ones_of rows cols B) (ones_of cols cols F) ws [] s cols M ->
  forall z, accepted g z -> (rows < 64)%nat \/ compact g -> (forall x, ~ system rows cols B (event_at z) x) ->
  exists K m', (forall fuel, (K <= fuel)%nat -> mstep fuel cyclic_ints (new_matching g) (AskDecode z) = Ok (m', Raised)) /\ fits m' g.
Proof. exact args_unsolvable. Qed.
Print Assumptions C63_no_solution.

(** What an accepted call is like: nothing is given twice, lengths match, and no column has three values other than zero. *)
Theorem C63_rejects : forall (N : numops) (one : num N) a g H, py_load_check_matrix one a = Ok g -> check_matrix a H -> well_formed H -> (forall F, a_faults a = Some F -> well_formed F) ->
  (0 <= rounds a)%Z /\ a_strategy a <> None /\
  (exists ws, means (csc_cols H) one (a_weights a) (a_spacelike a) ws /\ length ws = csc_cols H) /\
  (exists ps, means (csc_cols H) (p_none N) (a_errors a) NotGiven ps /\ length ps = csc_cols H) /\
  ((1 < rounds a)%Z -> exists t m, means (csc_rows H) one (a_timelike a) NotGiven t /\ means (csc_rows H) (p_none N) (a_measurement a) (a_measurement_old a) m /\
     length t = csc_rows H /\ length m = csc_rows H) /\
  (forall r c k, holds H r c k -> k = 0%Z \/ (k mod 256 = 1)%Z) /\
  ((0 < rounds a)%Z -> forall c r1 r2 r3 k1 k2 k3, holds H r1 c k1 -> holds H r2 c k2 -> holds H r3 c k3 -> k1 <> 0%Z -> k2 <> 0%Z -> k3 <> 0%Z -> r1 = r2 \/ r1 = r3 \/ r2 = r3) /\
  (forall F, a_faults a = Some F -> csc_cols F = csc_cols H /\ forall k, In k (data F) -> (k mod 256 = 1)%Z).
Proof. exact args_conditions. Qed.
Print Assumptions C63_rejects.
(** A matrix has to be given. *)
Theorem C63_missing : forall (N : numops) (one : num N) a, a_matrix a = None -> a_H a = None -> py_load_check_matrix one a = Throw.
Proof. exact args_missing. Qed.
Print Assumptions C63_missing.

(** ** Cases that meet the hypotheses *)
(** A ring of three checks, given as H: zeros are stored in columns 0 and 2.  The weights are given under the old name. *)
Definition ring : csc := mkCsc 3 3 [0; 3; 5; 8]%nat [1; 2; 0; 1; 2; 0; 1; 2]%nat [1; 0; 1; 1; 1; 1; 0; 1]%Z.
Definition ring_bits (r c : nat) : bool := negb (r =? (c + 2) mod 3)%nat.
Definition ring_ws : list R := [3; 2; 2].
Definition ring_call (reps : option Z) : matrix_args (N := RN) :=
  mkMatrixArgs (N := RN) None (Some ring) (NotGiven (N := RN)) (Numbers (N := RN) ring_ws) (Number (N := RN) (1 / 10)) reps (NotGiven (N := RN)) (Number (N := RN) (1 / 10)) (NotGiven (N := RN)) None (Some SMALLEST_WEIGHT) false.
Lemma ring_holds : forall i r c k, holds_at ring i r c k -> In (i, r, c, k) [(0, 1, 0, 1%Z); (1, 2, 0, 0%Z); (2, 0, 0, 1%Z); (3, 1, 1, 1%Z); (4, 2, 1, 1%Z); (5, 0, 2, 1%Z); (6, 1, 2, 0%Z); (7, 2, 2, 1%Z)]%nat.
Proof.
  intros i r c k (Hc & Hi & H1 & H2). destruct c as [|[|[|]]]; cbn in Hc, Hi; [| | |lia]; do 8 (destruct i as [|i]; [try lia; cbn in H1, H2; injection H1 as <-; injection H2 as <-; cbn; tauto|]); lia.
Qed.
Lemma ring_represents : represents ring ring_bits.
Proof.
  split.
  - split; [reflexivity|]. split; [reflexivity|]. split; [intros c Hc; cbn in Hc; do 3 (destruct c as [|c]; [cbn; lia|]); lia|]. split; [reflexivity|]. split; [reflexivity|]. split.
    + intros r Hr. cbn in *. lia.
    + intros i j r c k k' Hi Hj. apply ring_holds in Hi, Hj. cbn in Hi, Hj. repeat (destruct Hi as [Hi|Hi]; [injection Hi as <- <- <- <-; repeat (destruct Hj as [Hj|Hj]; [try discriminate Hj; injection Hj; congruence|]); destruct Hj|]). destruct Hi.
  - intros r c Hr Hc. cbn in Hr, Hc.
    do 3 (destruct r as [|r]; [do 3 (destruct c as [|c]; [cbn; first [intros k (i & Hi); apply ring_holds in Hi; cbn in Hi; repeat (destruct Hi as [Hi|Hi]; [try discriminate Hi; injection Hi; congruence|]); destruct Hi
      | (exists 0%nat + exists 2%nat + exists 3%nat + exists 4%nat + exists 5%nat + exists 7%nat); split; [cbn; lia|]; split; [cbn; lia|]; split; reflexivity]|]); lia|]). lia.
Qed.
Lemma ring_means : forall reps, call_means (N := RN) 1 (ring_call (Some (Z.of_nat reps))) 3 3 ring_bits ring_ws [1 / 10; 1 / 10; 1 / 10] reps (if (1 <? reps)%nat then Some [1; 1; 1] else None) (if (1 <? reps)%nat then Some [1 / 10; 1 / 10; 1 / 10] else None)
  SMALLEST_WEIGHT 3 Nat.eqb.
Proof.
  intros reps. split; [exists ring; split; [right; split; reflexivity|]; split; [reflexivity|]; split; [reflexivity|exact ring_represents]|]. split; [reflexivity|]. split; [reflexivity|]. split; [reflexivity|]. split.
  - destruct (1 <? reps)%nat; [|split; reflexivity]. exists [1; 1; 1], [1 / 10; 1 / 10; 1 / 10]. repeat split; reflexivity.
  - split; [reflexivity|]. split; reflexivity.
Qed.
Lemma ring_ones : ones_of 3 3 ring_bits = [[0; 1]; [1; 2]; [0; 2]]%nat /\ ones_of 3 3 Nat.eqb = [[0]; [1]; [2]]%nat.
Proof. split; reflexivity. Qed.
Lemma ring_sound : forall reps tws, (forall w, In w tws -> w = 1) -> sound_matrix 3 reps (ones_of 3 3 ring_bits) (ones_of 3 3 Nat.eqb) ring_ws tws SMALLEST_WEIGHT 3 3.
Proof.
  intros reps tws HT. destruct ring_ones as [-> ->]. assert (T : forall i, nth i tws 0 = 0 \/ nth i tws 0 = 1) by (intros i; destruct (nth_in_or_default i tws 0) as [H|H]; [right; now apply HT|now left]).
  unfold sound_matrix. split; [|split; [|split; [|split; [|split; [|split]]]]].
  - intros c r Hc Hr'. cbn in Hc. repeat (destruct Hc as [<-|Hc]; [cbn in Hr'; lia|]). destruct Hc.
  - intros c r Hc Hr'. cbn in Hc. repeat (destruct Hc as [<-|Hc]; [cbn in Hr'; lia|]). destruct Hc.
  - intros x Hx. apply Rabs_le. destruct x as [t i|t i]; cbn [site_weight]; [|destruct (T i) as [-> | ->]; lra]. do 3 (destruct i as [|i]; [cbn; lra|]). rewrite nth_overflow by (cbn; lia). lra.
  - unfold max_user_weight. lra.
  - intros i H. do 3 (destruct i as [|i]; [discriminate|]). destruct i; discriminate.
  - right. split; [reflexivity|]. intros w Hw. cbn in Hw. repeat (destruct Hw as [<-|Hw]; [lra|]). destruct Hw.
  - assert (E : / IZR (2 ^ 999) <= 1) by (rewrite <- Rinv_1; apply Rinv_le_contravar; [lra|]; apply (IZR_le 1); discriminate).
    intros x Hx. destruct x as [t i|t i]; cbn [site_weight]; [|destruct (T i) as [-> | ->]; [now left|right; rewrite Rabs_right; lra]].
    do 3 (destruct i as [|i]; [right; cbn [nth ring_ws]; rewrite Rabs_right by lra; lra|]). left. apply nth_overflow. cbn. lia.
Qed.
Lemma ring_loads : forall reps, exists g, py_load_check_matrix (N := RN) 1 (ring_call (Some (Z.of_nat reps))) = Ok g.
Proof.
  intros reps. eapply (C63_accepts RN); [exact (ring_means reps)|discriminate|reflexivity|reflexivity| |].
  - intros t m Ht Hm. destruct (1 <? reps)%nat; [|discriminate]. injection Ht as <-. injection Hm as <-. split; reflexivity.
  - intros c Hc. do 3 (destruct c as [|c]; [cbn; lia|]). lia.
Qed.
(** One round: (1, 0, 1) is solved by column 2 alone, and (1, 0, 0) has no solution. *)
Example C63_example : exists g, py_load_check_matrix (N := RN) 1 (ring_call (Some 1%Z)) = Ok g /\ call_means (N := RN) 1 (ring_call (Some 1%Z)) 3 3 ring_bits ring_ws [1 / 10; 1 / 10; 1 / 10] 1 None None SMALLEST_WEIGHT 3 Nat.eqb /\
  sound_matrix 3 1 (ones_of 3 3 ring_bits) (ones_of 3 3 Nat.eqb) ring_ws [] SMALLEST_WEIGHT 3 3 /\ accepted g (Syn1 [1; 0; 1]%Z) /\ system 3 3 ring_bits (event_at (Syn1 [1; 0; 1]%Z)) [false; false; true] /\
  accepted g (Syn1 [1; 0; 0]%Z) /\ (forall x, ~ system 3 3 ring_bits (event_at (Syn1 [1; 0; 0]%Z)) x).
Proof.
  destruct (ring_loads 1) as (g & Eg). exists g. split; [exact Eg|]. pose proof (ring_means 1) as CM. split; [exact CM|]. pose proof (ring_sound 1 [] ltac:(intros w [])) as SM. split; [exact SM|].
  destruct (args_lists (ring_call (Some 1%Z)) 3 3 ring_bits ring_ws _ 1 None None SMALLEST_WEIGHT 3 Nat.eqb g 3 CM Eg SM) as (L & A & LD & _ & _ & SM').
  assert (AC : forall l, length l = 3%nat -> accepted g (Syn1 l)).
  { intros l Hl. cbn [accepted]. rewrite Hl. unfold num_detectors. destruct (matrix_bounds 3 1 3 L A ring_ws _ SMALLEST_WEIGHT _ None None g 3 LD SM') as [[-> ->]|[-> ->]]; cbn; lia. }
  split; [now apply AC|]. split; [|split; [now apply AC|]].
  - split; [reflexivity|]. intros r Hr. destruct r as [|[|[|]]]; [| | |lia]; cbn; split; try discriminate; try reflexivity; intros H; exfalso; now apply H.
  - intros x [Lx H]. destruct x as [|a [|b [|c [|]]]]; try discriminate Lx. pose proof (H 0%nat ltac:(lia)) as H0. pose proof (H 1%nat ltac:(lia)) as H1. pose proof (H 2%nat ltac:(lia)) as H2. cbn [event_at nth] in H0, H1, H2.
    destruct a, b, c; vm_compute in H0, H1, H2; first [now apply (proj1 H1 eq_refl) | now apply (proj1 H2 eq_refl) | assert (A' : 1%Z <> 0%Z) by discriminate; apply H0 in A'; discriminate].
Qed.
(** Two rounds: check 0 sees a change in both, explained by one wrong outcome. *)
Definition wrong_once (x : site) : bool := match x with Wrong 0 0 => true | _ => false end.
Lemma wrong_explains : explains 3 2 (ones_of 3 3 ring_bits) (event_at (Syn1 [1; 0; 0; 1; 0; 0]%Z)) wrong_once.
Proof.
  intros t r Ht Hr. assert (D : detection 3 2 (ones_of 3 3 ring_bits) t r wrong_once = (r =? 0)%nat) by (destruct t as [|[|]]; [| |lia]; (destruct r as [|[|[|]]]; [reflexivity|reflexivity|reflexivity|lia])).
  rewrite D, Nat.eqb_eq. cbn [event_at].
  destruct t as [|[|]]; [| |lia]; (destruct r as [|[|[|]]]; [| | |lia]); cbn; split; try discriminate; try reflexivity; intros H; exfalso; now apply H.
Qed.
Example C63_rounds_example : exists g, py_load_check_matrix (N := RN) 1 (ring_call (Some 2%Z)) = Ok g /\
  call_means (N := RN) 1 (ring_call (Some 2%Z)) 3 3 ring_bits ring_ws [1 / 10; 1 / 10; 1 / 10] 2 (Some [1; 1; 1]) (Some [1 / 10; 1 / 10; 1 / 10]) SMALLEST_WEIGHT 3 Nat.eqb /\
  sound_matrix 3 2 (ones_of 3 3 ring_bits) (ones_of 3 3 Nat.eqb) ring_ws [1; 1; 1] SMALLEST_WEIGHT 3 3 /\ accepted g (Syn1 [1; 0; 0; 1; 0; 0]%Z) /\
  explains 3 2 (ones_of 3 3 ring_bits) (event_at (Syn1 [1; 0; 0; 1; 0; 0]%Z)) wrong_once.
Proof.
  destruct (ring_loads 2) as (g & Eg). exists g. split; [exact Eg|]. pose proof (ring_means 2) as CM. split; [exact CM|].
  pose proof (ring_sound 2 [1; 1; 1] ltac:(intros w Hw; cbn in Hw; repeat (destruct Hw as [<-|Hw]; [reflexivity|]); destruct Hw)) as SM. split; [exact SM|].
  destruct (args_lists (ring_call (Some 2%Z)) 3 3 ring_bits ring_ws _ 2 _ _ SMALLEST_WEIGHT 3 Nat.eqb g 3 CM Eg SM) as (L & A & LD & _ & _ & SM'). split.
  - cbn [accepted length]. unfold num_detectors. destruct (matrix_bounds 3 2 3 L A ring_ws _ SMALLEST_WEIGHT _ _ _ g 3 LD SM') as [[-> ->]|[-> ->]]; cbn; lia.
  - exact wrong_explains.
Qed.

(** Not only zeros and ones are accepted: 257 is cast to 1. *)
Definition big : csc := mkCsc 2 2 [0; 2; 3]%nat [0; 1; 1]%nat [257; 1; -255]%Z.
Theorem C63_values_refuted : exists (a : matrix_args (N := RN)) H g, check_matrix a H /\ well_formed H /\ py_load_check_matrix (N := RN) 1 a = Ok g /\ holds H 0 0 257 /\ holds H 1 1 (-255).
Proof.
  set (a := mkMatrixArgs (N := RN) (Some big) None (NotGiven (N := RN)) (NotGiven (N := RN)) (NotGiven (N := RN)) None (NotGiven (N := RN)) (NotGiven (N := RN)) (NotGiven (N := RN)) None (Some SMALLEST_WEIGHT) false).
  set (b := mkMatrixArgs (N := RN) (Some (mkCsc 2 2 [0; 2; 3]%nat [0; 1; 1]%nat [1; 1; 1]%Z)) None (NotGiven (N := RN)) (NotGiven (N := RN)) (NotGiven (N := RN)) None (NotGiven (N := RN)) (NotGiven (N := RN)) (NotGiven (N := RN)) None (Some SMALLEST_WEIGHT) false).
  assert (E : py_load_check_matrix (N := RN) 1 a = py_load_check_matrix (N := RN) 1 b) by reflexivity.
  assert (HH : forall d i r c k, length d = 3%nat -> holds_at (mkCsc 2 2 [0; 2; 3]%nat [0; 1; 1]%nat d) i r c k -> In (i, r, c) [(0, 0, 0); (1, 1, 0); (2, 1, 1)]%nat /\ nth_error d i = Some k).
  { intros d i r c k Ld (Hc & Hi & H1 & H2). split; [|exact H2]. destruct c as [|[|]]; cbn in Hc, Hi; [| |lia]; do 3 (destruct i as [|i]; [try lia; cbn in H1; injection H1 as <-; cbn; tauto|]); lia. }
  assert (WF : forall d, length d = 3%nat -> well_formed (mkCsc 2 2 [0; 2; 3]%nat [0; 1; 1]%nat d)).
  { intros d Ld. split; [reflexivity|]. split; [reflexivity|]. split; [intros c Hc; cbn in Hc; do 2 (destruct c as [|c]; [cbn; lia|]); lia|]. split; [reflexivity|]. split; [exact Ld|]. split; [intros r Hr; cbn in *; lia|].
    intros i j r c k k' Hi Hj. apply (HH d) in Hi as [Hi _], Hj as [Hj _]; try exact Ld. cbn in Hi, Hj. repeat (destruct Hi as [Hi|Hi]; [injection Hi as <- <- <-; repeat (destruct Hj as [Hj|Hj]; [try discriminate Hj; injection Hj; congruence|]); destruct Hj|]). destruct Hi. }
  destruct (C63_accepts RN 1 b 2 2 (fun r c => (c <=? r)%nat) [1; 1] [-1; -1] 1 None None SMALLEST_WEIGHT 2 Nat.eqb) as (g & Eg); try reflexivity; try discriminate.
  - split; [eexists; split; [left; reflexivity|]; split; [reflexivity|]; split; [reflexivity|]; split; [apply WF; reflexivity|]|].
    + intros r c Hr Hc. cbn in Hr, Hc. do 2 (destruct r as [|r]; [do 2 (destruct c as [|c]; [cbn; first [intros k (i & Hi); apply HH in Hi as [Hi _]; [|reflexivity]; cbn in Hi; repeat (destruct Hi as [Hi|Hi]; [discriminate Hi|]); destruct Hi
        | (exists 0%nat + exists 1%nat + exists 2%nat); split; [cbn; lia|]; split; [cbn; lia|]; split; reflexivity]|]); lia|]). lia.
    + repeat split; reflexivity.
  - intros c Hc. do 2 (destruct c as [|c]; [cbn; lia|]). lia.
  - exists a, big, g. split; [left; reflexivity|]. split; [apply WF; reflexivity|]. split; [exact (eq_trans E Eg)|]. split; [exists 0%nat|exists 2%nat]; (split; [cbn; lia|]; split; [cbn; lia|]; split; reflexivity).
Qed.
Print Assumptions C63_values_refuted.
