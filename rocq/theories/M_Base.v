(** Outcomes shared by all models. *)
From Coq Require Import ZArith List Bool.
Import ListNotations.

(** The result of running a piece of C++ code.
    [Ok a]    : normal return;
    [Throw]   : a C++ exception was thrown (std::invalid_argument and friends);
    [UB]      : undefined behaviour (null dereference, out-of-range index, over-wide shift, ...);
    [Fuel]    : the model's step bound ran out (only for loops with no evident bound). *)
Inductive outcome (A : Type) : Type :=
| Ok (a : A)
| Throw
| UB
| Fuel.
Arguments Ok {A} _.
Arguments Throw {A}.
Arguments UB {A}.
Arguments Fuel {A}.

Definition bindO {A B} (m : outcome A) (f : A -> outcome B) : outcome B :=
  match m with
  | Ok a => f a
  | Throw => Throw
  | UB => UB
  | Fuel => Fuel
  end.

Declare Scope outcome_scope.
Delimit Scope outcome_scope with outcome.
Notation "x <-- m ;; f" := (bindO m (fun x => f)) (at level 61, m at next level, right associativity) : outcome_scope.
Notation "' p <-- m ;; f" := (bindO m (fun x => match x with p => f end))
  (at level 61, p pattern, m at next level, right associativity) : outcome_scope.

(** Functional update of one cell of a total memory. *)
Definition upd {A} (f : nat -> A) (k : nat) (v : A) : nat -> A :=
  fun i => if Nat.eqb i k then v else f i.
