(** Specifications for the two attributes of a user graph that depend on its history. *)
From Coq Require Import Arith List Bool.
From Verif Require Import M_UserGraph S_UserGraph.
Import ListNotations.

Section History.
Context {N : numops}.

(** The call adds an edge that was not there: [before] are the calls made before it. *)
Definition adds_new_edge (before : list (op N)) (u : nat) (v : option nat) (w : num N) : Prop :=
  w_exceeds N w = false /\ ~ added before u v.

(** The calls ask for at least [m] fault ids: one of them ensures [m] of them, or adds a new edge with the
    fault id [m - 1]. *)
Definition asked_for (ops : list (op N)) (m : nat) : Prop :=
  exists before x after, ops = before ++ x :: after /\
  match x with
  | OpMinObs m' => m' = m
  | OpAdd u v o w p s => adds_new_edge before u v w /\ exists i, In i o /\ m = S i
  | OpSetBoundary _ => False
  end.

(** [m] is the largest of [k] and the numbers that satisfy [P]. *)
Definition greatest (k : nat) (P : nat -> Prop) (m : nat) : Prop :=
  k <= m /\ (m = k \/ P m) /\ forall m', P m' -> m' <= m.

End History.
