(** Errors of less than half the distance are corrected: from the calls to the replies. *)
From Coq Require Import Reals ZArith List Bool Arith Lia Lra Permutation.
From Verif Require Import S_CorrDecode M_Cli M_CliDecode S_CliDecode P_CliDecode.
From Verif Require Import M_Base M_Bits M_Core M_CoreHeap M_Merge S_Merge M_Dem S_Dem P_Dem S_DemDecode P_DemDecode M_CheckMatrix M_MatrixArgs S_CheckMatrix S_MatrixDecode S_MatrixArgs P_MatrixArgs2 P_MatrixArgs3.
From Verif Require Import S_Distance P_Distance M_Matching S_Matching P_Matching P_MatrixDecode M_UserGraph S_UserGraph S_Pipeline.
Import ListNotations.
Local Open Scope nat_scope.

(** ** Graphs *)
Lemma all_right_last : forall cs g c rs, all_right g (cs ++ [c]) rs -> exists rs0 r, rs = rs0 ++ [r] /\ right (fold_left after cs g) c r.
Proof.
  induction cs as [|c0 cs IH]; intros g c rs H.
  - destruct rs as [|r [|]]; cbn in H; try tauto. exists [], r. split; [reflexivity|]. apply H.
  - destruct rs as [|r rs]; [destruct H|]. cbn [app all_right] in H. destruct H as [_ H]. destruct (IH _ _ _ H) as (rs0 & r' & -> & R). exists (r :: rs0), r'. split; [reflexivity|exact R].
Qed.
Lemma session_corrects : forall n k cs z E evs M D, let g := fold_left after cs (new_graph RN n k) in
  all_fair (new_graph RN n k) (cs ++ [AskDecode z]) -> accepted g z -> (forall v, In v evs <-> event_at z v) -> corrects g E evs ->
  (forall e, In e (edges g) -> (0 <= weight e <= M)%R) -> (0 <= M)%R -> graph_distance g D -> under_half (integer_weights g) (length (edges g) + length E) M (total_weight E) D ->
  exists K m' rs w, forall fuel, K <= fuel -> mrun fuel cyclic_ints (new_matching (new_graph RN n k)) (cs ++ [AskDecode z]) = Ok (m', rs ++ [Row (observables_of g E) w]).
Proof.
  intros n k cs z E evs M D g AF AC HE CE NN HM GD UH. destruct (session_ok n k _ AF) as (K & m' & rs & RN1 & AR). destruct (all_right_last cs _ _ rs AR) as (rs0 & r & -> & R). fold g in R.
  destruct R as [R _]. destruct (R AC) as (row & w & -> & RR); [exists evs, E; split; [exact HE|exact CE]|]. exists K, m', rs0, w. intros fuel HF. rewrite (RN1 fuel HF). f_equal. f_equal. f_equal. f_equal. f_equal.
  exact (graph_corrects g (event_at z) row w E evs M D RR NN HM HE CE GD UH).
Qed.

(** ** Check matrices *)
Local Open Scope R_scope.
Lemma args_corrects : forall (a : matrix_args (N := RN)) rows cols B (ws ps : list R) reps tws mes s nf F g M, call_means (N := RN) 1 a rows cols B ws ps reps tws mes s nf F ->
  py_load_check_matrix (N := RN) 1 a = Ok g -> let H := ones_of rows cols B in let L := ones_of nf cols F in sound_matrix rows reps H L ws (times tws) s nf M -> 0 <= M ->
  (forall x, In x (sites rows reps cols) -> 0 <= site_weight ws (times tws) x) ->
  forall D, matrix_distance rows reps H L ws (times tws) nf D ->
  forall z h, accepted g z -> explains rows reps H (event_at z) h -> (length (happening rows reps H h) <= 64)%nat \/ compact g ->
  under_half (forall x, In x (sites rows reps cols) -> exists k, site_weight ws (times tws) x = IZR k) (length (sites rows reps cols) + length (happening rows reps H h)) M (cost rows reps H ws (times tws) h) D ->
  exists K m' w, forall fuel, (K <= fuel)%nat -> mstep fuel cyclic_ints (new_matching g) (AskDecode z) = Ok (m', Row (map (fun k => Z.b2z (fault rows reps H L k h)) (seq 0 nf)) w).
Proof.
  intros a rows cols B ws ps reps tws mes s nf F g M CM LD H L SM HM NN D MD z h AC EX HN UH.
  assert (LH : length H = cols) by (unfold H, ones_of; now rewrite map_length, seq_length).
  destruct (args_cheapest a rows cols B ws ps reps tws mes s nf F g M CM LD SM z h AC EX) as (K & m' & row & w & S1 & S2).
  { destruct HN as [HN|HN]; [left|now right]. match goal with |- (_ + length ?f <= _)%nat => assert (E : f = []); [|rewrite E, Nat.add_0_r; exact HN] end.
    clear -NN. revert NN. generalize (sites rows reps cols). induction l as [|x l IH]; intros NN; [reflexivity|]. cbn [filter]. rewrite (IH (fun y Hy => NN y (or_intror Hy))). specialize (NN x (or_introl eq_refl)).
    match goal with |- context[if ?b then _ else _] => assert (E : b = false); [|now rewrite E] end. unfold Rltb. destruct (Rlt_dec _ _) as [r|]; [exfalso; exact (Rlt_not_le _ _ r NN)|reflexivity]. }
  exists K, m', w. intros fuel HF. rewrite (S1 fuel HF). f_equal. f_equal. f_equal. refine (matrix_corrects rows reps H L ws (times tws) nf M (event_at z) row w h D S2 HM _ EX MD _); rewrite LH; assumption.
Qed.

(** ** Detector error models *)
Lemma dem_corrects : forall nd no p dem d z E, let ms := mechanisms RD dem in let g := load_dem RD nd no dem in
  sound_model nd no (log_likelihood_ratio p) dem -> uniform_model p ms -> (Z.of_nat (length ms) <= 2 ^ 23)%Z -> model_distance ms no d ->
  accepted g z -> explains_events ms (event_at z) E -> little ms E -> (2 * number E < d)%nat ->
  exists K m' w, forall fuel, (K <= fuel)%nat -> mstep fuel cyclic_ints (new_matching g) (AskDecode z) = Ok (m', Row (map Z.b2z (logicals ms no E)) w).
Proof.
  intros nd no p dem d z E ms g SM U LN MD AC EE LE HD. destruct SM as (S1 & S2 & S3 & S4 & S5).
  destruct (decode_most_likely nd no dem (log_likelihood_ratio p) S1 S2 S4 S5 z E S3 AC EE LE) as (K & m' & row & w & R1 & R2). exists K, m', w. intros fuel HF. eapply eq_trans; [exact (R1 fuel HF)|]. f_equal. f_equal. f_equal.
  exact (model_corrects p ms U no (event_at z) row w E d R2 LN EE MD HD).
Qed.
Local Open Scope nat_scope.
Lemma b2z_inj : forall l l', map Z.b2z l = map Z.b2z l' -> l = l'.
Proof. induction l as [|a l IH]; intros [|b l'] H; try discriminate; [reflexivity|]. cbn in H. injection H as H1 H2. f_equal; [destruct a, b; (reflexivity || discriminate)|now apply IH]. Qed.
Lemma differences_same : forall l, differences l l = 0%Z.
Proof. induction l as [|x l IH]; [reflexivity|]. cbn [differences]. destruct (list_eq_dec bool_dec x x); [|congruence]. rewrite IH. reflexivity. Qed.
Lemma cli_corrects : forall nd no p dem d records Es source, let ms := mechanisms RD dem in
  sound_model nd no (log_likelihood_ratio p) dem -> uniform_model p ms -> (Z.of_nat (length ms) <= 2 ^ 23)%Z -> model_distance ms no d -> no <= 64 ->
  Forall2 (fun r E => NoDup (hits r) /\ explains_events ms (fun v => In v (hits r)) E /\ little ms E /\ 2 * number E < d) records Es -> recorded (map (logicals ms no) Es) source records ->
  exists K, forall fuel, K <= fuel -> cli_predict fuel cyclic_ints false nd no dem records = Ok (map (logicals ms no) Es) /\
    cli_count_mistakes fuel cyclic_ints false nd no dem source records = Ok (0%Z, Z.of_nat (length records)).
Proof.
  intros nd no p dem d records Es source ms SM U LN MD HN FE RC. destruct (cli_right false nd no (log_likelihood_ratio p) dem records SM) as (K & lines & C1 & C2 & C3).
  - clear -FE. induction FE as [|r E rs Es (H1 & H2 & H3 & _) FE IH]; constructor; auto. split; [exact H1|]. exists E. auto.
  - assert (EL : lines = map (logicals ms no) Es).
    { clear C1 C3 RC. revert lines C2. induction FE as [|r E rs Es (H1 & H2 & H3 & H4) FE IH]; intros lines C2; inversion C2 as [|? l ? ls R1 R2]; subst; [reflexivity|]. cbn [map]. f_equal; [|now apply IH].
      destruct R1 as (w & R1). apply b2z_inj. exact (model_corrects p ms U no _ _ w E d R1 LN H2 MD H4). }
    subst lines. exists K. intros fuel HF. split; [exact (C1 fuel HF)|]. rewrite (C3 HN (map (logicals ms no) Es) source) with (fuel := fuel); [now rewrite differences_same| |exact RC|exact HF].
    apply Forall_forall. intros o Ho. apply in_map_iff in Ho as (E & <- & _). unfold logicals. now rewrite map_length, seq_length.
Qed.
