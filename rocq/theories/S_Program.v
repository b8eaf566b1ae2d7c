(** Specification of the exit status of the command line programs. *)
From Coq Require Import ZArith List String.
From Verif Require Import M_Base.
Local Open Scope string_scope.

(** The command names the program with the outcome [x]; or no program. *)
Definition chosen (predict count_mistakes animate : outcome Z) (command : string) (x : outcome Z) : Prop :=
  (command = "predict" /\ x = predict) \/ (command = "count_mistakes" /\ x = count_mistakes) \/ (command = "animate" /\ x = animate).
Definition unknown (command : string) : Prop := command <> "predict" /\ command <> "count_mistakes" /\ command <> "animate".
(** A program that does its work returns EXIT_SUCCESS (namespaced_main.cc:88, 179). *)
Definition program {X} (work : outcome X) : outcome Z := bindO work (fun _ => Ok 0%Z).
