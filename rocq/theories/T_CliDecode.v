(** C58: the command line programs, from the detector error model to the report.

    `pymatching predict` reads a detector error model and shots, and writes the observables predicted for each shot.  `pymatching count_mistakes` also reads the
    observables that were flipped in each shot, and reports how many predictions differ from them, and the number of shots.  Both run with
    correlations or without.  Files are modelled by the records they hold.  Merging and logarithms are in exact real numbers, the discretisation and the reported weight in
    binary64; the decoder runs on radix heaps and 32-bit times. *)
From Coq Require Import Reals ZArith List Bool Arith Lia Lra.
From Verif Require Import M_Base M_CoreHeap M_Merge S_Merge M_Dem S_Dem P_Dem T_DemDecode T_CorrDecode S_DemDecode S_CorrDecode M_Cli M_CliDecode S_CliDecode P_CliDecode.
Import ListNotations.
Local Open Scope nat_scope.

(** Every line that is written is right for its shot, and the mistakes that are reported for the same shots are the lines that differ from the recorded observables. *)
Theorem C58_predict_and_count : forall correlations nd no M dem records,
  sound_for correlations nd no M dem -> Forall (fun r => readable correlations dem (hits r)) records ->
  exists K lines, (forall fuel, K <= fuel -> cli_predict fuel cyclic_ints correlations nd no dem records = Ok lines) /\
    Forall2 (fun r line => right_line correlations no M dem (hits r) line) records lines /\
    (no <= 64 -> forall obs source, Forall (fun o => length o = no) obs -> recorded obs source records -> forall fuel, K <= fuel ->
       cli_count_mistakes fuel cyclic_ints correlations nd no dem source records = Ok (differences lines obs, Z.of_nat (length records))).
Proof. exact cli_right. Qed.
Print Assumptions C58_predict_and_count.

(** If the file of recorded observables ends before the shots do, the program stops with an exception. *)
Theorem C58_missing_observables : forall correlations nd no M dem records masks,
  sound_for correlations nd no M dem -> Forall (fun r => readable correlations dem (hits r)) records -> length masks < length records ->
  exists K, forall fuel, K <= fuel -> cli_count_mistakes fuel cyclic_ints correlations nd no dem (Some masks) records = Throw.
Proof. exact cli_missing. Qed.
Print Assumptions C58_missing_observables.

(** With more than 64 observables the report does not depend on the predictions: it is the number of shots that have one of the first 64 observables set. *)
Theorem C58_many_observables : forall correlations nd no M dem records,
  sound_for correlations nd no M dem -> Forall (fun r => readable correlations dem (hits r)) records -> 64 < no ->
  exists K, forall obs source, recorded obs source records -> forall fuel, K <= fuel ->
    cli_count_mistakes fuel cyclic_ints correlations nd no dem source records = Ok (flagged obs, Z.of_nat (length records)).
Proof. exact cli_many. Qed.
Print Assumptions C58_many_observables.
(** So the bound on the number of observables is needed: here the one prediction that is written agrees with the recorded observables, and a mistake is reported. *)
Theorem C58_many_observables_refuted : exists dem r line, sound_for false 1 65 10 dem /\ readable false dem (hits r) /\ recorded [line] None [r] /\
  exists K, forall fuel, K <= fuel ->
    cli_predict fuel cyclic_ints false 1 65 dem [r] = Ok [line] /\ cli_count_mistakes fuel cyclic_ints false 1 65 dem None [r] = Ok (1, 1)%Z.
Proof. exact (ex_intro _ wide_model (ex_intro _ wide_shot (ex_intro _ wide_line (conj wide_sound (conj wide_readable (conj eq_refl wide_wrong)))))). Qed.
Print Assumptions C58_many_observables_refuted.

(** ** Cases that meet the hypotheses *)
(** The model of T_DemDecode.v, two shots with the observables appended. *)
Definition ex_shots : list shot := [{| hits := [0]; shot_obs_mask := 1 |}; {| hits := []; shot_obs_mask := 0 |}].
Example C58_example : sound_for false 2 1 10 ex_model /\ Forall (fun r => readable false ex_model (hits r)) ex_shots /\
  Forall (fun o => length o = 1) [[true]; [false]] /\ recorded [[true]; [false]] None ex_shots /\ recorded [[true]; [false]] (Some [1; 0; 1]%Z) ex_shots.
Proof.
  assert (F : forall X, number X <= 5 -> little ex_mechanisms X). { intros X H. left. eapply Nat.le_trans; [apply Nat.add_le_mono_l; apply filter_le|]. cbn. lia. }
  split; [exact (proj1 C55_example)|]. split; [|split; [repeat constructor|split; [reflexivity|exists [1%Z]; split; reflexivity]]].
  unfold readable. rewrite C55_example_mechanisms. constructor; [|constructor; [|constructor]].
  - split; [repeat constructor; intros []|]. exists [false; false; false; true; false]. split; [|apply F; cbn; lia]. split; [reflexivity|]. intros [|[|v]]; cbn; split; intros H; try reflexivity; try discriminate; try tauto; destruct H as [H|[]]; discriminate.
  - split; [constructor|]. exists [false; false; false; false; false]. split; [|apply F; cbn; lia]. split; [reflexivity|]. intros [|[|v]]; cbn; split; intros H; try reflexivity; try discriminate; tauto.
Qed.
(** The model of T_CorrDecode.v, one shot with events at its three detectors. *)
Example C58_correlated_example : sound_for true 3 1 10 ex_correlated /\ Forall (fun r => readable true ex_correlated (hits r)) [{| hits := [2; 0; 1]; shot_obs_mask := 1 |}].
Proof.
  split; [exact (proj1 C57_example)|]. constructor; [|constructor]. split; [repeat constructor; cbn; intuition discriminate|]. exists [(0, Some 1); (2, None)]. split; [|left; cbn; lia]. split; [|split].
  - constructor; [intros [H|[]]; discriminate H|]. constructor; [intros []|constructor].
  - intros k Hk. unfold pair_of_model. rewrite C57_example_mechanisms. destruct Hk as [<-|[<-|[]]]; [exists ((1/10)%R, (1, Some 0, [0]))|exists ((1/10)%R, (2, None, []))]; (split; [cbn; tauto|reflexivity]).
  - intros [|[|[|v]]]; cbn; split; intros H; try reflexivity; try discriminate; try tauto. repeat (destruct H as [H|H]; [discriminate|]). destruct H.
Qed.
