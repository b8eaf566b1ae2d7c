(** Exit status of the command line programs. *)
From Coq Require Import ZArith List String Bool Lia.
From Verif Require Import M_Base M_CoreHeap M_Cli M_CliDecode S_CliDecode P_CliDecode M_Program S_Program.
Import ListNotations.
Local Open Scope string_scope.
Local Open Scope list_scope.
Local Open Scope nat_scope.

Section Program.
Variables p c a : outcome Z.
Notation chosen := (chosen p c a).
Lemma main_cases : forall argv,
  (exists x, chosen (command_of argv) x /\ pm_main p c a argv = match x with Throw => Ok 1%Z | y => y end) \/ (unknown (command_of argv) /\ pm_main p c a argv = Throw).
Proof.
  intros argv. unfold pm_main, chosen, unknown. destruct (String.eqb_spec (command_of argv) "predict") as [E|E]; [left; exists p; auto|].
  destruct (String.eqb_spec (command_of argv) "count_mistakes") as [F|F]; [left; exists c; auto|]. destruct (String.eqb_spec (command_of argv) "animate") as [G|G]; [left; exists a; auto 6|right; auto].
Qed.
Lemma chosen_known : forall s x, chosen s x -> ~ unknown s.
Proof. intros s x H (U1 & U2 & U3). destruct H as [[H _]|[[H _]|[H _]]]; auto. Qed.
Lemma chosen_unique : forall s x y, chosen s x -> chosen s y -> x = y.
Proof. intros s x y H K. destruct H as [[-> ->]|[[-> ->]|[-> ->]]], K as [[E ->]|[[E ->]|[E ->]]]; try discriminate; reflexivity. Qed.
Lemma executable_ok : forall argv, executable p c a argv = Ok 0%Z <-> chosen (command_of argv) (Ok 0%Z).
Proof.
  intros argv. unfold executable. destruct (main_cases argv) as [(x & H & ->)|[H ->]].
  - split; [|intros K; now rewrite (chosen_unique _ _ _ H K)]. intros E. destruct x as [z| | |]; try discriminate. injection E as ->. exact H.
  - split; [discriminate|]. intros K. destruct (chosen_known _ _ K H).
Qed.
Lemma executable_throws : forall argv, (chosen (command_of argv) Throw \/ unknown (command_of argv)) -> executable p c a argv = Ok 1%Z.
Proof.
  intros argv [K|K]; unfold executable; destruct (main_cases argv) as [(x & H & ->)|[H ->]]; try reflexivity; [now rewrite (chosen_unique _ _ _ H K)|destruct (chosen_known _ _ H K)].
Qed.
Lemma script_cases : forall name args, (unknown (command_of (name :: args)) -> script p c a (name :: args) = Ok 1%Z) /\
  (forall x, chosen (command_of (name :: args)) x -> (x = Throw \/ exists z, x = Ok z) -> script p c a (name :: args) = Ok 0%Z).
Proof.
  intros name args. unfold script, python_cli. cbn [tl]. assert (E : command_of ("pymatching.main" :: args) = command_of (name :: args)) by reflexivity. rewrite <- E.
  destruct (main_cases ("pymatching.main" :: args)) as [(x & H & ->)|[H ->]].
  - split; [intros K; destruct (chosen_known _ _ H K)|]. intros y K C. rewrite <- (chosen_unique _ _ _ H K) in C. destruct C as [->|[z ->]]; reflexivity.
  - split; [reflexivity|]. intros y K. destruct (chosen_known _ _ K H).
Qed.
End Program.
Lemma sound_runs : forall correlations nd no M dem records, sound_for correlations nd no M dem -> Forall (fun r => readable correlations dem (hits r)) records ->
  exists K, forall fuel, K <= fuel -> forall count animate name more,
    let predict := program (cli_predict fuel cyclic_ints correlations nd no dem records) in
    executable predict count animate (name :: "predict" :: more) = Ok 0%Z /\ script predict count animate (name :: "predict" :: more) = Ok 0%Z.
Proof.
  intros correlations nd no M dem records HS HR. destruct (cli_right correlations nd no M dem records HS HR) as (K & lines & H & _). exists K. intros fuel HF count animate name more. cbv zeta. rewrite (H fuel HF). split; reflexivity.
Qed.
