(** Specifications for bit conversions. *)
From Coq Require Import ZArith List Bool Sorted.
Import ListNotations.
Open Scope Z_scope.

(** A byte holding 0 or 1. *)
Definition is_bit (x : Z) : Prop := x = 0 \/ x = 1.

(** Bit [i] of a bit-packed row: bit (i mod 8) of byte (i / 8); bytes beyond the end are zero. *)
Definition packed_bit (bytes : list Z) (i : nat) : bool :=
  Z.testbit (nth (Nat.div i 8) bytes 0) (Z.of_nat (Nat.modulo i 8)).

(** [bytes] is a bit-packed form of the row [l] of numbers, in which nonzero stands for a set bit. *)
Definition packs (bytes l : list Z) : Prop :=
  forall i, packed_bit bytes i = negb (nth i l 0 =? 0).

(** All entries are bytes. *)
Definition bytes_ok (l : list Z) : Prop := forall b, In b l -> 0 <= b < 256.

(** A list of detection events lists exactly the indices satisfying [P], in increasing order. *)
Definition lists_exactly (events : list nat) (P : nat -> Prop) : Prop :=
  StronglySorted lt events /\ forall i, In i events <-> P i.
