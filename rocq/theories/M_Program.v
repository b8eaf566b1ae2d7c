(** Model of the ways to start the command line programs and of their exit status: driver/namespaced_main.cc:182-222 (pm::main), main.cc:20-27 (the executable),
    pymatching.pybind.cc:23-30 (pymatching.cli) and _cli_argv.py:6-7 with setup.py:153-155 (the script that is installed with the Python package).

    The three programs are given by their outcomes.  [Throw] is std::invalid_argument, the only exception that the modelled code throws.  What is printed is not modelled.
    Arguments hold no zero bytes. *)
From Coq Require Import ZArith List String.
From Verif Require Import M_Base.
Import ListNotations.
Local Open Scope string_scope.
Local Open Scope list_scope.

Section Program.
(** What main_predict, main_count_mistakes and main_animation return. *)
Variables predict count_mistakes animate : outcome Z.

(** namespaced_main.cc:183-186 *)
Definition command_of (argv : list string) : string := match argv with _ :: c :: _ => c | _ => "" end.
(** namespaced_main.cc:182-222: exceptions of a program are caught, an unknown command throws outside of the try block *)
Definition pm_main (argv : list string) : outcome Z :=
  let command := command_of argv in
  let caught (x : outcome Z) := match x with Throw => Ok 1%Z | y => y end in
  if String.eqb command "predict" then caught predict
  else if String.eqb command "count_mistakes" then caught count_mistakes
  else if String.eqb command "animate" then caught animate
  else Throw.
(** main.cc:20-27 *)
Definition executable (argv : list string) : outcome Z := match pm_main argv with Throw => Ok 1%Z | y => y end.
(** pymatching.pybind.cc:23-30; an exception becomes a Python exception *)
Definition python_cli (args : list string) : outcome Z := pm_main ("pymatching.main" :: args).
(** _cli_argv.py:6-7: what pymatching.cli returns is dropped.  The script that setup.py:153-155 installs calls sys.exit with what cli_argv returns, None, and that is status 0;
    a Python exception ends the script with status 1. *)
Definition script (argv : list string) : outcome Z :=
  match python_cli (tl argv) with Ok _ => Ok 0%Z | Throw => Ok 1%Z | y => y end.
End Program.
