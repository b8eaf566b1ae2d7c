(** A line: value(t) = icpt + slope * t with slope -1, 0 or 1. *)
From Coq Require Import ZArith.
Open Scope Z_scope.

Record line := mkLine { slope : Z; icpt : Z }.
Definition value (l : line) (t : Z) : Z := icpt l + slope l * t.

(** The packed word that stands for a line. *)
Definition word_of (l : line) : Z :=
  4 * icpt l + (if slope l =? 1 then 1 else if slope l =? -1 then 2 else 0).

Definition legal (l : line) : Prop := slope l = -1 \/ slope l = 0 \/ slope l = 1.
Definition in_int64 (x : Z) : Prop := - 2 ^ 63 <= x < 2 ^ 63.
