(** Specification of the small operators. *)
From Coq Require Import ZArith NArith List Bool Arith.
From Verif Require Import M_Core M_Compare.
Import ListNotations.
Local Open Scope nat_scope.

(** ** Clocks: what an operation does to a time without bounds. *)
Definition moved (x : Z) (o : cop) : Z :=
  match o with PreInc | PostInc => x + 1 | PreDec | PostDec => x - 1 | AddInt d | AddCyc d => x + d | SubInt d | SubCyc d => x - d end%Z.
Definition returns_old (o : cop) : bool := match o with PostInc | PostDec => true | _ => false end.
(** The times after each operation, and the times that the operations return. *)
Fixpoint final_time (x : Z) (ops : list cop) : Z := match ops with [] => x | o :: ops' => final_time (moved x o) ops' end.
Fixpoint returned_times (x : Z) (ops : list cop) : list Z :=
  match ops with [] => [] | o :: ops' => (if returns_old o then x else moved x o) :: returned_times (moved x o) ops' end.

(** ** Compressed edges summarise walks *)
(** A step from a place over an edge with some observables to another place; no place is the boundary. *)
Definition step : Type := option nat * N * option nat.
Inductive walk : option nat -> list step -> option nat -> Prop :=
| walk_nil a : walk a [] a
| walk_cons a m b l c : walk b l c -> walk a ((a, m, b) :: l) c.
Definition crosses (k : N) (st : step) : bool := N.testbit (snd (fst st)) k.
Definition summarises (e : cedge) (l : list step) : Prop :=
  walk (efrom e) l (eto e) /\ forall k, N.testbit (eobs e) k = Nat.odd (length (filter (crosses k) l)).
Definition back_step (st : step) : step := (snd st, snd (fst st), fst (fst st)).

(** ** Events: the same event, or the same collision told from the other side *)
Inductive same_event : mevent -> mevent -> Prop :=
| same_as_told x : same_event x x
| other_side r1 r2 u v m : same_event (HitRegion r1 r2 (mkE u v m)) (HitRegion r2 r1 (mkE v u m)).
