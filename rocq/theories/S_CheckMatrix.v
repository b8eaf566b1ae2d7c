(** Specification of check-matrix loading and of sampled noise. *)
From Coq Require Import Arith List Bool.
From Verif Require Import M_UserGraph S_UserGraph S_GraphMap M_CheckMatrix.
Import ListNotations.

Section Spec.
Context {N : numops}.

(** The edge of a column in layer [t]: its two rows, or its row and the boundary (the virtual one, or node
    [rows * reps]). *)
Definition layer_pair (rows reps : nat) (virtual : bool) (t : nat) (rs : list nat) : option (nat * option nat) :=
  match rs with
  | [r1; r2] => Some (t * rows + r1, Some (t * rows + r2))
  | [r] => Some (t * rows + r, if virtual then None else Some (reps * rows))
  | _ => None
  end.

(** {u,v} is the pair of that column in that layer. *)
Definition column_joins (rows reps : nat) (virtual : bool) (t : nat) (rs : list nat) (x : nat) (y : option nat) : Prop :=
  exists u v, layer_pair rows reps virtual t rs = Some (u, v) /\ ((u = x /\ v = y) \/ (y = Some u /\ v = Some x)).

(** {x,y} joins row [row] of layer [t] with the same row of the next layer. *)
Definition time_joins (rows t row x : nat) (y : option nat) : Prop :=
  (t * rows + row = x /\ Some (S t * rows + row) = y) \/ (y = Some (t * rows + row) /\ S t * rows + row = x).

(** Two columns have the same support. *)
Definition same_support (c d : list nat) : Prop := forall r, In r c <-> In r d.

(** Parity of the number of flips of position [i] among a list of positions. *)
Definition odd_count (i : nat) (l : list nat) : bool := Nat.odd (count_occ Nat.eq_dec l i).

(** The flipped edges. *)
Definition flipped (g : ugraph N) (draws : list bool) : list (uedge N) :=
  map fst (filter snd (combine (edges g) draws)).

(** End nodes of an edge (a loop has its node twice). *)
Definition ends (e : uedge N) : list nat := node1 e :: match node2 e with Some v => [v] | None => [] end.
End Spec.
