(** C64: errors of less than half the distance are corrected.

    The distance of a code, given as a graph, a check matrix or a detector error model, is the least that errors cost which cause no detection
    events but flip an observable.  If errors happen that cost less than half of it, the predicted observables are those that the errors flipped.
    Without integer weights a margin for rounding them is needed.  For detector error models with one probability the number of errors counts,
    and no margin is needed up to 2^23 mechanisms; `pymatching count_mistakes` reports no mistakes for such shots.  The merging of
    parallel edges and logarithms are in exact real numbers, the discretisation and the reported weight in binary64; the decoder runs on radix heaps and 32-bit times. *)
From Coq Require Import Reals ZArith List Bool Arith Lia Lra.
From Verif Require Import T_CorrDecode S_CorrDecode M_Cli M_CliDecode S_CliDecode P_CliDecode.
From Verif Require Import M_Base M_Bits M_Core M_CoreHeap M_Merge S_Merge M_Dem S_Dem P_Dem S_DemDecode P_DemDecode T_DemDecode M_CheckMatrix M_MatrixArgs S_CheckMatrix S_MatrixDecode S_MatrixArgs P_MatrixArgs2 P_MatrixArgs3 T_MatrixArgs.
From Verif Require Import S_Distance P_Distance P_Distance2 M_Matching S_Matching P_Matching P_Pipeline P_Pipeline3 P_Pipeline T_Pipeline T_Matching P_MatrixDecode M_UserGraph S_UserGraph S_Pipeline.
Import ListNotations.
Local Open Scope nat_scope.

(** Graphs.  The last call of any session asks to decode the detection events of the errors [E]. *)
Theorem C64_graph : forall n k cs z E evs M D, let g := fold_left after cs (new_graph RN n k) in
  all_fair (new_graph RN n k) (cs ++ [AskDecode z]) -> accepted g z -> (forall v, In v evs <-> event_at z v) -> corrects g E evs ->
  (forall e, In e (edges g) -> (0 <= weight e <= M)%R) -> (0 <= M)%R -> graph_distance g D -> under_half (integer_weights g) (length (edges g) + length E) M (total_weight E) D ->
  exists K m' rs w, forall fuel, K <= fuel -> mrun fuel cyclic_ints (new_matching (new_graph RN n k)) (cs ++ [AskDecode z]) = Ok (m', rs ++ [Row (observables_of g E) w]).
Proof. exact session_corrects. Qed.
Print Assumptions C64_graph.
(** The same of every row that is right in the sense of C53: this covers the rows of batches. *)
Theorem C64_right_row : forall g P row w E evs M D, right_row g P row w ->
  (forall e, In e (edges g) -> (0 <= weight e <= M)%R) -> (0 <= M)%R -> (forall v, In v evs <-> P v) -> corrects g E evs -> graph_distance g D ->
  under_half (integer_weights g) (length (edges g) + length E) M (total_weight E) D -> row = observables_of g E.
Proof. exact graph_corrects. Qed.
Print Assumptions C64_right_row.

(** Check matrices, measured in several rounds; [h] is what happens. *)
Theorem C64_matrix : forall (a : matrix_args (N := RN)) rows cols B (ws ps : list R) reps tws mes s nfaults F g M, call_means (N := RN) 1%R a rows cols B ws ps reps tws mes s nfaults F ->
  py_load_check_matrix (N := RN) 1%R a = Ok g -> let H := ones_of rows cols B in let E := ones_of nfaults cols F in sound_matrix rows reps H E ws (times tws) s nfaults M -> (0 <= M)%R ->
  (forall x, In x (sites rows reps cols) -> 0 <= site_weight ws (times tws) x)%R ->
  forall D, matrix_distance rows reps H E ws (times tws) nfaults D ->
  forall z h, accepted g z -> explains rows reps H (event_at z) h -> length (happening rows reps H h) <= 64 \/ compact g ->
  under_half (forall x, In x (sites rows reps cols) -> exists k, site_weight ws (times tws) x = IZR k) (length (sites rows reps cols) + length (happening rows reps H h)) M (cost rows reps H ws (times tws) h) D ->
  exists K m' w, forall fuel, K <= fuel -> mstep fuel cyclic_ints (new_matching g) (AskDecode z) = Ok (m', Row (map (fun k => Z.b2z (fault rows reps H E k h)) (seq 0 nfaults)) w).
Proof. exact args_corrects. Qed.
Print Assumptions C64_matrix.

(** Detector error models; [E] are the mechanisms that act. *)
Theorem C64_model : forall nd no p dem d z E, let ms := mechanisms RD dem in let g := load_dem RD nd no dem in
  sound_model nd no (log_likelihood_ratio p) dem -> uniform_model p ms -> (Z.of_nat (length ms) <= 2 ^ 23)%Z -> model_distance ms no d ->
  accepted g z -> explains_events ms (event_at z) E -> little ms E -> 2 * number E < d ->
  exists K m' w, forall fuel, K <= fuel -> mstep fuel cyclic_ints (new_matching g) (AskDecode z) = Ok (m', Row (map Z.b2z (logicals ms no E)) w).
Proof. exact dem_corrects. Qed.
Print Assumptions C64_model.

(** The command line programs: in every shot the mechanisms [E] act, fewer than half the distance; their events and the observables they flip are recorded. *)
Theorem C64_no_mistakes : forall nd no p dem d records Es source, let ms := mechanisms RD dem in
  sound_model nd no (log_likelihood_ratio p) dem -> uniform_model p ms -> (Z.of_nat (length ms) <= 2 ^ 23)%Z -> model_distance ms no d -> no <= 64 ->
  Forall2 (fun r E => NoDup (hits r) /\ explains_events ms (fun v => In v (hits r)) E /\ little ms E /\ 2 * number E < d) records Es -> recorded (map (logicals ms no) Es) source records ->
  exists K, forall fuel, K <= fuel -> cli_predict fuel cyclic_ints false nd no dem records = Ok (map (logicals ms no) Es) /\
    cli_count_mistakes fuel cyclic_ints false nd no dem source records = Ok (0%Z, Z.of_nat (length records)).
Proof. exact cli_corrects. Qed.
Print Assumptions C64_no_mistakes.

(** ** Cases that meet the hypotheses *)
(** The repetition code with three bits: two detectors, distance 3. *)
Definition rep_model : list (instruction RD) := [((1/10)%R, [Det 0; Obs 0]); ((1/10)%R, [Det 0; Det 1]); ((1/10)%R, [Det 1])] : list (R * list target).
Definition rep_mechanisms : list mechanism := [((1/10)%R, (0, None, [0])); ((1/10)%R, (0, Some 1, [])); ((1/10)%R, (1, None, []))].
Lemma rep_model_mechanisms : mechanisms RD rep_model = rep_mechanisms.
Proof. unfold mechanisms, rep_model. cbn [flat_map p_pos RD]. assert (E1 : Rltb 0 (1/10)%R = true) by (apply Rltb_true; lra). rewrite E1. reflexivity. Qed.
Definition rep_shots : list shot := [{| hits := [0]; shot_obs_mask := 1 |}; {| hits := [1; 0]; shot_obs_mask := 0 |}; {| hits := []; shot_obs_mask := 0 |}].
Definition rep_errors : list (list bool) := [[true; false; false]; [false; true; false]; [false; false; false]].
Lemma few_little : forall X, number X <= 3 -> little rep_mechanisms X.
Proof. intros X H. left. eapply Nat.le_trans; [apply Nat.add_le_mono_l; apply filter_le|]. cbn. lia. Qed.
Lemma rep_explains : forall v, (oddly (flips_detector v) rep_mechanisms [true; false; false] = true <-> v = 0) /\ (oddly (flips_detector v) rep_mechanisms [false; true; false] = true <-> v = 0 \/ v = 1).
Proof. intros [|[|v]]; cbn; repeat split; intros H; try reflexivity; try discriminate; try lia; tauto. Qed.
Example C64_model_example : sound_model 2 1 (log_likelihood_ratio (1/10)) rep_model /\ uniform_model (1/10) rep_mechanisms /\ model_distance rep_mechanisms 1 3 /\
  accepted (load_dem RD 2 1 rep_model) (Syn1 [1; 0]%Z) /\ explains_events rep_mechanisms (event_at (Syn1 [1; 0]%Z)) [true; false; false] /\ little rep_mechanisms [true; false; false] /\
  number [true; false; false] = 1 /\ logicals rep_mechanisms 1 [true; false; false] = [true] /\
  Forall2 (fun r E => NoDup (hits r) /\ explains_events rep_mechanisms (fun v => In v (hits r)) E /\ little rep_mechanisms E /\ 2 * number E < 3) rep_shots rep_errors /\
  recorded (map (logicals rep_mechanisms 1) rep_errors) None rep_shots.
Proof.
  assert (LB : (0 < log_likelihood_ratio (1/10) <= 10)%R).
  { unfold log_likelihood_ratio. split; [rewrite <- ln_1; apply ln_increasing; lra|]. eapply Rle_trans; [apply Rle_abs|]. apply ln_small. lra. }
  assert (SM : sound_model 2 1 (log_likelihood_ratio (1/10)) rep_model).
  { unfold sound_model. rewrite rep_model_mechanisms. split; [|split; [|split; [|split]]].
    - intros p ts H. cbn in H. repeat (destruct H as [H|H]; [injection H as <- <-; lra|]). destruct H.
    - intros m H. cbn in H. repeat (destruct H as [<-|H]; [cbn; rewrite Rabs_right; lra|]). destruct H.
    - unfold max_user_weight. lra.
    - intros p a b os H. cbn in H. repeat (destruct H as [H|H]; [injection H as <- <- <- <-; split; [lia|split; [intros c Hc; first [discriminate | injection Hc as <-; lia]|intros k Hk; cbn in Hk; lia]]|]). destruct H.
    - right. exists ((1/10)%R, (0, None, [0])). split; [now left|]. unfold together. cbn. unfold exactly_one. eapply Rle_trans; [apply llr_far|apply Rle_abs]. lra. }
  split; [exact SM|]. split; [|split; [|split]].
  - split; [lra|]. split.
    + intros m H. cbn in H. repeat (destruct H as [<-|H]; [reflexivity|]). destruct H.
    + intros i j m m' Hi Hj. destruct i as [|[|[|[|]]]]; try discriminate Hi; injection Hi as <-; destruct j as [|[|[|[|]]]]; try discriminate Hj; injection Hj as <-; intros H; try reflexivity; discriminate H.
  - intros X k [LX HX] Hk HF. destruct X as [|a [|b [|c [|]]]]; try discriminate LX. pose proof (HX 0) as H0. pose proof (HX 1) as H1. assert (k = 0) by lia. subst k. destruct a, b, c; cbn in H0, H1, HF |- *; try lia; try discriminate HF; exfalso; tauto.
  - pose proof (model_bnodes 2 1 rep_model) as B. pose proof (model_nodes 2 1 rep_model (proj1 (proj2 (proj2 (proj2 SM))))) as N. revert B N. generalize (load_dem RD 2 1 rep_model : ugraph RN). intros g B N.
    cbn [accepted]. unfold num_detectors. rewrite B, N. cbn. lia.
  - split; [split; [reflexivity|]|split; [apply few_little; cbn; lia|split; [reflexivity|split; [reflexivity|split]]]].
    + intros v. destruct (rep_explains v) as [H _]. etransitivity; [exact H|]. destruct v as [|[|[|v]]]; cbn; split; intros H'; try reflexivity; try discriminate; try lia.
    + unfold rep_shots, rep_errors. constructor; [|constructor; [|constructor; [|constructor]]]; cbn [hits].
      * split; [repeat constructor; intros []|]. split; [|split; [apply few_little; cbn; lia|cbn; lia]]. split; [reflexivity|]. intros v. destruct (rep_explains v) as [H _]. etransitivity; [exact H|]. cbn. split; [auto|intros [E|[]]; auto].
      * split; [repeat constructor; cbn; intuition discriminate|]. split; [|split; [apply few_little; cbn; lia|cbn; lia]]. split; [reflexivity|]. intros v. destruct (rep_explains v) as [_ H]. etransitivity; [exact H|]. cbn. split; [intros [->| ->]; auto|intros [E|[E|[]]]; auto].
      * split; [constructor|]. split; [|split; [apply few_little; cbn; lia|cbn; lia]]. split; [reflexivity|]. intros [|[|v]]; cbn; split; intros H; try discriminate; destruct H.
    + reflexivity.
Qed.

(** The same as a graph, with weights that are not integers. *)
Definition rep_e (i : nat) : uedge RN := match i with 0 => @mkE RN 0 None [0] (3/2)%R (-1)%R | 1 => @mkE RN 0 (Some 1) [1] 2%R (-1)%R | _ => @mkE RN 1 None [] (5/2)%R (-1)%R end.
Definition rep_calls : list mcall := [Modify (@OpAdd RN 0 None [0] (3/2)%R (-1)%R DISALLOW); Modify (@OpAdd RN 0 (Some 1) [1] 2%R (-1)%R DISALLOW); Modify (@OpAdd RN 1 None [] (5/2)%R (-1)%R DISALLOW)].
Example C64_graph_example : let g := fold_left after rep_calls (new_graph RN 0 0) in
  all_fair (new_graph RN 0 0) (rep_calls ++ [AskDecode (Syn1 [0; 1]%Z)]) /\ accepted g (Syn1 [0; 1]%Z) /\ (forall v, In v [1] <-> event_at (Syn1 [0; 1]%Z) v) /\ corrects g [rep_e 2] [1] /\
  (forall e, In e (edges g) -> (0 <= weight e <= 5/2)%R) /\ graph_distance g 6 /\ under_half (integer_weights g) (length (edges g) + 1) (5/2) (total_weight [rep_e 2]) 6 /\ observables_of g [rep_e 2] = [0; 0]%Z.
Proof.
  unfold rep_calls. cbn [app all_fair fair fold_left after]. set (g := apply_op (apply_op (apply_op _ _) _) _).
  assert (P : edges g = [rep_e 0; rep_e 1; rep_e 2] /\ bnodes g = [] /\ num_nodes g = 2 /\ nobs g = 2).
  { unfold g. cbn [apply_op]. unfold py_add. rewrite !T_Pipeline.fits by lra. repeat split; reflexivity. }
  destruct P as (P1 & P2 & P3 & P4). cbv zeta.
  assert (POS : forall e, In e (edges g) -> (0 <= weight e <= 5/2)%R). { rewrite P1. intros e [<-|[<-|[<-|[]]]]; cbn; lra. }
  assert (U : usable g).
  { split; [|split; [apply (scalable_some g (rep_e 1)); [rewrite P1; cbn; tauto|]; cbn; rewrite Rabs_right; lra|exact (harmless_nonneg g (fun e He => proj1 (POS e He)))]]. intros e o. rewrite P1, P4. intros [<-|[<-|[<-|[]]]]; cbn; lia. }
  assert (C : corrects g [rep_e 2] [1]).
  { split; [repeat constructor; intros []|]. split; [rewrite P1; intros e [<-|[]]; cbn; tauto|]. rewrite P2. intros v _. destruct v as [|[|v]]; cbn; split; intros H; try discriminate; try lia; auto. }
  assert (HE : forall v, In v [1] <-> event_at (Syn1 [0; 1]%Z) v) by (intros [|[|[|v]]]; cbn; split; intros H; auto; try lia).
  split; [|split; [|split; [exact HE|split; [exact C|split; [exact POS|split; [|split]]]]]].
  - do 3 (split; [exact I|]). split; [|exact I]. intros _. split; [exact U|]. left. exists [1], [rep_e 2]. split; [exact HE|]. split; [exact C|]. left. exists []. split; [|left; cbn; lia]. intros e He Hw. pose proof (POS e He). lra.
  - cbn [accepted]. unfold num_detectors. rewrite P2, P3. cbn. lia.
  - intros F k (ND & IN & HO) Hk HF. rewrite P1 in IN. rewrite P2 in HO. assert (H0 : Nat.odd (total_degree 0 F) <> true) by (intros H; apply HO in H; auto). assert (H1 : Nat.odd (total_degree 1 F) <> true) by (intros H; apply HO in H; auto). clear HO.
    destruct F as [|a F]; [discriminate HF|]. assert (LF : length (a :: F) <= 3) by (exact (NoDup_incl_length ND IN)). pose proof (IN a (or_introl eq_refl)) as Ia. destruct F as [|b F].
    { exfalso. destruct Ia as [<-|[<-|[<-|[]]]]; cbn in H0, H1; tauto. }
    pose proof (IN b (or_intror (or_introl eq_refl))) as Ib. apply NoDup_cons_iff in ND as [Na ND]. destruct F as [|c F].
    { exfalso. destruct Ia as [<-|[<-|[<-|[]]]], Ib as [<-|[<-|[<-|[]]]]; cbn in H0, H1, Na; tauto. }
    pose proof (IN c (or_intror (or_intror (or_introl eq_refl)))) as Ic. apply NoDup_cons_iff in ND as [Nb ND]. destruct F; [|cbn in LF; lia].
    destruct Ia as [<-|[<-|[<-|[]]]], Ib as [<-|[<-|[<-|[]]]], Ic as [<-|[<-|[<-|[]]]]; cbn [In] in Na, Nb; try (exfalso; tauto); cbn; lra.
  - right. rewrite P1. unfold half_step. cbn [length total_weight fold_right rep_e weight]. replace (INR (3 + 1)) with 4%R by (cbn; lra). change (2 * (2 ^ 24 - 1))%Z with 33554430%Z. change (2 ^ 20)%Z with 1048576%Z. lra.
  - unfold observables_of. rewrite P4. reflexivity.
Qed.

(** The ring of three checks of T_MatrixArgs.v in two rounds: what causes no events and flips a fault costs at least 7.  One outcome is wrong, and column 1 flips in the second round. *)
Definition two_things (x : site) : bool := match x with Wrong 0 0 => true | Flip 1 1 => true | _ => false end.
Definition ring_cost (x : site) : Z := match x with Flip _ 0 => 3 | Flip _ _ => 2 | Wrong _ _ => 1 end.
Definition ring_check (k : nat) (h : site -> bool) : bool :=
  let l := happening 3 2 (ones_of 3 3 ring_bits) h in
  existsb (fun p => detection 3 2 (ones_of 3 3 ring_bits) (fst p) (snd p) h) (list_prod [0; 1] [0; 1; 2]) || negb (fault 3 2 (ones_of 3 3 ring_bits) (ones_of 3 3 Nat.eqb) k h) || (7 <=? fold_right Z.add 0 (map ring_cost l))%Z.
Lemma ring_checked : forall k h, k < 3 -> ring_check k h = true.
Proof.
  intros k h Hk. unfold ring_check, detection, fault, happening. change (length (ones_of 3 3 ring_bits)) with 3. cbn [sites seq list_prod map app Nat.sub fst snd filter].
  generalize (h (Flip 0 0)), (h (Flip 0 1)), (h (Flip 0 2)), (h (Flip 1 0)), (h (Flip 1 1)), (h (Flip 1 2)), (h (Wrong 0 0)), (h (Wrong 0 1)), (h (Wrong 0 2)).
  assert (k = 0 \/ k = 1 \/ k = 2) as [->|[->| ->]] by lia; intros [] [] [] [] [] [] [] [] []; vm_compute; reflexivity.
Qed.
Lemma ring_costs : forall l, incl l (sites 3 2 3) -> fold_right Rplus 0%R (map (site_weight ring_ws [1; 1; 1]%R) l) = IZR (fold_right Z.add 0%Z (map ring_cost l)).
Proof.
  induction l as [|x l IH]; intros IN; [reflexivity|]. cbn [map fold_right]. rewrite plus_IZR, IH by (intros y Hy; apply IN; now right). f_equal.
  assert (Hx : In x (sites 3 2 3)) by (apply IN; now left). cbn in Hx. repeat (destruct Hx as [<-|Hx]; [reflexivity|]). destruct Hx.
Qed.
Lemma ring_distance : matrix_distance 3 2 (ones_of 3 3 ring_bits) (ones_of 3 3 Nat.eqb) ring_ws [1; 1; 1]%R 3 7.
Proof.
  intros h k EX Hk HF. pose proof (ring_checked k h Hk) as CH. unfold ring_check in CH. rewrite HF in CH. apply orb_true_iff in CH as [CH|CH].
  - apply orb_true_iff in CH as [CH|CH]; [|discriminate CH]. apply existsb_exists in CH as ((t & r) & Hp & HD). apply in_prod_iff in Hp as [Ht Hr]. exfalso. apply (EX t r); [cbn in Ht; lia|cbn in Hr; lia|exact HD].
  - apply Z.leb_le in CH. unfold cost. rewrite ring_costs; [apply (IZR_le 7); exact CH|]. intros x Hx. exact (proj1 (proj1 (filter_In _ _ _) Hx)).
Qed.
Lemma two_explain : explains 3 2 (ones_of 3 3 ring_bits) (event_at (Syn1 [1; 0; 0; 1; 1; 1]%Z)) two_things.
Proof.
  intros t r Ht Hr. cbn [event_at]. destruct t as [|[|]]; [| |lia]; (destruct r as [|[|[|]]]; [| | |lia]); vm_compute; split; try discriminate; try reflexivity; intros H; exfalso; now apply H.
Qed.
Lemma two_cost : cost 3 2 (ones_of 3 3 ring_bits) ring_ws [1; 1; 1]%R two_things = 3%R.
Proof. unfold cost. replace (happening 3 2 (ones_of 3 3 ring_bits) two_things) with [Flip 1 1; Wrong 0 0] by reflexivity. cbn. lra. Qed.
Lemma ring_integers : forall x, In x (sites 3 2 3) -> (0 <= site_weight ring_ws [1; 1; 1]%R x)%R /\ exists k, site_weight ring_ws [1; 1; 1]%R x = IZR k.
Proof. intros x Hx. cbn in Hx. repeat (destruct Hx as [<-|Hx]; [cbn; split; [lra|first [exists 3%Z; reflexivity | exists 2%Z; reflexivity | exists 1%Z; reflexivity]]|]). destruct Hx. Qed.
Example C64_matrix_example : exists g, py_load_check_matrix (N := RN) 1%R (ring_call (Some 2%Z)) = Ok g /\
  call_means (N := RN) 1%R (ring_call (Some 2%Z)) 3 3 ring_bits ring_ws [1 / 10; 1 / 10; 1 / 10]%R 2 (Some [1; 1; 1]%R) (Some [1 / 10; 1 / 10; 1 / 10]%R) SMALLEST_WEIGHT 3 Nat.eqb /\
  sound_matrix 3 2 (ones_of 3 3 ring_bits) (ones_of 3 3 Nat.eqb) ring_ws [1; 1; 1]%R SMALLEST_WEIGHT 3 3 /\
  (forall x, In x (sites 3 2 3) -> 0 <= site_weight ring_ws [1; 1; 1] x)%R /\ matrix_distance 3 2 (ones_of 3 3 ring_bits) (ones_of 3 3 Nat.eqb) ring_ws [1; 1; 1]%R 3 7 /\
  accepted g (Syn1 [1; 0; 0; 1; 1; 1]%Z) /\ explains 3 2 (ones_of 3 3 ring_bits) (event_at (Syn1 [1; 0; 0; 1; 1; 1]%Z)) two_things /\ length (happening 3 2 (ones_of 3 3 ring_bits) two_things) = 2 /\
  under_half (forall x, In x (sites 3 2 3) -> exists k, site_weight ring_ws [1; 1; 1]%R x = IZR k) (length (sites 3 2 3) + 2) 3 (cost 3 2 (ones_of 3 3 ring_bits) ring_ws [1; 1; 1]%R two_things) 7 /\
  map (fun k => Z.b2z (fault 3 2 (ones_of 3 3 ring_bits) (ones_of 3 3 Nat.eqb) k two_things)) (seq 0 3) = [0; 1; 0]%Z.
Proof.
  destruct (ring_loads 2) as (g & Eg). exists g. split; [exact Eg|]. pose proof (ring_means 2) as CM. split; [exact CM|].
  pose proof (ring_sound 2 [1; 1; 1]%R ltac:(intros w Hw; cbn in Hw; repeat (destruct Hw as [<-|Hw]; [reflexivity|]); destruct Hw)) as SM. split; [exact SM|].
  split; [intros x Hx; apply (ring_integers x Hx)|]. split; [exact ring_distance|]. split; [|split; [exact two_explain|split; [reflexivity|split; [|reflexivity]]]].
  - destruct (args_lists (ring_call (Some 2%Z)) 3 3 ring_bits ring_ws _ 2 _ _ SMALLEST_WEIGHT 3 Nat.eqb g 3 CM Eg SM) as (L & A & LD & _ & _ & SM').
    cbn [accepted length]. unfold num_detectors. destruct (matrix_bounds 3 2 3 L A ring_ws _ SMALLEST_WEIGHT _ _ _ g 3 LD SM') as [[-> ->]|[-> ->]]; cbn; lia.
  - left. split; [intros x Hx; apply (ring_integers x Hx)|]. rewrite two_cost. lra.
Qed.
