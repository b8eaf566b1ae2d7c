(** Model of cyclic<T> (tracker/cyclic.h).  [w] is the number of bits of the unsigned type T
    (32 for cyclic_time_int, ints.h).  A cyclic value is an integer in [0, 2^w). *)
From Coq Require Import ZArith.
Open Scope Z_scope.

(** Conversion to the unsigned type T: the cast (T)x. *)
Definition wrap (w x : Z) : Z := x mod 2 ^ w.

(** cyclic.h:34  HALF = ((T)-1 >> 1) + 1. *)
Definition HALF (w : Z) : Z := wrap w (Z.shiftr (wrap w (-1)) 1 + 1).

(** cyclic.h:43-48 operator+ and operator-. *)
Definition cyc_add (w a b : Z) : Z := wrap w (a + b).
Definition cyc_sub (w a b : Z) : Z := wrap w (a - b).

(** cyclic.h:73-75 operator<= *)
Definition cyc_le (w a b : Z) : bool := wrap w (b - a) <? HALF w.
(** cyclic.h:76-78 operator>= *)
Definition cyc_ge (w a b : Z) : bool := wrap w (a - b) <? HALF w.
(** cyclic.h:79-81 operator< *)
Definition cyc_lt (w a b : Z) : bool := wrap w (b - a - 1) <? wrap w (HALF w - 1).
(** cyclic.h:82-84 operator> *)
Definition cyc_gt (w a b : Z) : bool := wrap w (a - b - 1) <? HALF w - 1.

(** cyclic.h:99-109 widen_from_nearby_reference, for a wide type O in which nothing overflows
    (O = int64_t in the code; the unbounded Z here). *)
Definition widen (w v reference : Z) : Z :=
  let cyclic_reference := wrap w reference in
  let result := reference + wrap w (v - cyclic_reference) in
  if cyc_gt w cyclic_reference v then result - (wrap w (-1) + 1) else result.
