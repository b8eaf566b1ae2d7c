(** C79: the exit status of the command line programs. *)
From Coq Require Import Reals ZArith List String Bool Arith Lia.
From Verif Require Import M_Base M_CoreHeap M_Dem S_Dem M_Cli M_CliDecode S_CliDecode M_Program S_Program P_Program T_DemDecode T_CliDecode.
Import ListNotations.
Local Open Scope string_scope.
Local Open Scope list_scope.
Local Open Scope nat_scope.

(** The executable ends with status 0 exactly if the command is known and its program returns 0, and with status 1 if the command is unknown or
    its program stops with an exception. *)
Theorem C79_executable : forall predict count_mistakes animate argv,
  (executable predict count_mistakes animate argv = Ok 0%Z <-> chosen predict count_mistakes animate (command_of argv) (Ok 0%Z)) /\
  ((chosen predict count_mistakes animate (command_of argv) Throw \/ unknown (command_of argv)) -> executable predict count_mistakes animate argv = Ok 1%Z).
Proof. exact (fun p c a argv => conj (executable_ok p c a argv) (executable_throws p c a argv)). Qed.
Print Assumptions C79_executable.

(** The script of the Python package ends with status 1 if the command is unknown, and with status 0 if it is known, whether its program returns or stops with an exception. *)
Theorem C79_script : forall predict count_mistakes animate name args,
  (unknown (command_of (name :: args)) -> script predict count_mistakes animate (name :: args) = Ok 1%Z) /\
  (forall x, chosen predict count_mistakes animate (command_of (name :: args)) x -> (x = Throw \/ exists z, x = Ok z) -> script predict count_mistakes animate (name :: args) = Ok 0%Z).
Proof. exact script_cases. Qed.
Print Assumptions C79_script.

(** So the script hides failures: here the recorded observables end before the shots do, nothing is reported (C58), the executable ends with status 1
    and the script with status 0. *)
Theorem C79_script_refuted : exists correlations nd no dem masks records args K, forall fuel, K <= fuel ->
  let count := program (cli_count_mistakes fuel cyclic_ints correlations nd no dem (Some masks) records) in let predict := program (cli_predict fuel cyclic_ints correlations nd no dem records) in
  cli_count_mistakes fuel cyclic_ints correlations nd no dem (Some masks) records = Throw /\
  executable predict count Throw ("pymatching" :: args) = Ok 1%Z /\ script predict count Throw ("pymatching" :: args) = Ok 0%Z.
Proof.
  destruct (C58_missing_observables false 2 1 10%R ex_model ex_shots [1%Z] (proj1 C58_example) (proj1 (proj2 C58_example)) ltac:(cbn; lia)) as [K H].
  exists false, 2, 1, ex_model, [1%Z], ex_shots, ["count_mistakes"], K. intros fuel HF. cbv zeta. rewrite (H fuel HF). auto.
Qed.
Print Assumptions C79_script_refuted.

(** Both ways of starting the programs end with status 0 if the model and the shots are sound. *)
Theorem C79_sound_runs : forall correlations nd no M dem records, sound_for correlations nd no M dem -> Forall (fun r => readable correlations dem (hits r)) records ->
  exists K, forall fuel, K <= fuel -> forall count animate name more,
    let predict := program (cli_predict fuel cyclic_ints correlations nd no dem records) in
    executable predict count animate (name :: "predict" :: more) = Ok 0%Z /\ script predict count animate (name :: "predict" :: more) = Ok 0%Z.
Proof. exact sound_runs. Qed.
Print Assumptions C79_sound_runs.

(** Cases that meet the hypotheses: see C58_example for the last theorem. *)
Example C79_example : chosen (Ok 0%Z) Throw (Ok 0%Z) (command_of ["pymatching"; "predict"; "--dem"; "x.dem"]) (Ok 0%Z) /\
  chosen (Ok 0%Z) Throw (Ok 0%Z) (command_of ["pymatching"; "count_mistakes"]) Throw /\ unknown (command_of ["pymatching"; "prdict"]) /\ unknown (command_of ["pymatching"]).
Proof. unfold chosen, unknown. cbn. repeat split; try discriminate; auto. Qed.
