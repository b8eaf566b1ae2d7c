(** Model of Varying<T> (flooder_matcher_interop/varying.inl).  The packed word [data] is an integer;
    >> and << are arithmetic shifts and & is bitwise and.  Overflow of T is not modelled here; the
    range theorem in T_Varying.v gives bounds under which no operation leaves a 64-bit T. *)
From Coq Require Import ZArith Bool.
From Verif Require Import M_Base.
Open Scope Z_scope.

Definition vdata := Z.

(** varying.inl:204-211 y_intercept, is_shrinking, is_frozen, is_growing *)
Definition y_intercept (d : vdata) : Z := Z.shiftr d 2.
Definition is_growing (d : vdata) : bool := negb (Z.land d 1 =? 0).
Definition is_shrinking (d : vdata) : bool := negb (Z.land d 2 =? 0).
Definition is_frozen (d : vdata) : bool := Z.land d 3 =? 0.

(** varying.inl:24-33 get_distance_at_time *)
Definition get_distance_at_time (d t : Z) : Z :=
  if is_growing d then Z.shiftr d 2 + t
  else if is_shrinking d then Z.shiftr d 2 - t
  else Z.shiftr d 2.

(** varying.inl:35-43 *)
Definition get_growing_distance_at_time (d t : Z) : Z := Z.shiftr d 2 + t.
Definition get_shrinking_distance_at_time (d t : Z) : Z := Z.shiftr d 2 - t.

(** varying.inl:45-54 time_of_x_intercept *)
Definition time_of_x_intercept (d : vdata) : outcome Z :=
  if is_growing d then Ok (Z.shiftr d 2 * -1)
  else if is_shrinking d then Ok (Z.shiftr d 2)
  else Throw.

(** varying.inl:56-65 *)
Definition time_of_x_intercept_for_growing (d : vdata) : Z := - Z.shiftr d 2.
Definition time_of_x_intercept_for_shrinking (d : vdata) : Z := Z.shiftr d 2.

(** varying.inl:67-78 time_of_x_intercept_when_added_to *)
Definition time_of_x_intercept_when_added_to (d o : vdata) : Z :=
  let time_with_unit_slope := - Z.shiftr d 2 - Z.shiftr o 2 in
  if is_growing d && is_growing o then Z.shiftr time_with_unit_slope 1 else time_with_unit_slope.

(** varying.inl:80-84 *)
Definition time_of_x_intercept_when_added_to_giving_unit_slope (d o : vdata) : Z :=
  - Z.shiftr d 2 - Z.shiftr o 2.

(** varying.inl:86-89 colliding_with *)
Definition colliding_with (d o : vdata) : bool := Z.land (Z.lor d o) 3 =? 1.

(** varying.inl:91-107 then_growing/shrinking/frozen_at_time *)
Definition then_growing_at_time (d t : Z) : vdata := Z.shiftl (get_distance_at_time d t - t) 2 + 1.
Definition then_shrinking_at_time (d t : Z) : vdata := Z.shiftl (get_distance_at_time d t + t) 2 + 2.
Definition then_frozen_at_time (d t : Z) : vdata := Z.shiftl (get_distance_at_time d t) 2.

(** varying.inl:116-119 growing_varying_with_zero_distance_at_time *)
Definition growing_varying_with_zero_distance_at_time (t : Z) : vdata := Z.shiftl (- t) 2 + 1.

(** varying.inl:121-132 from_base_and_growth *)
Definition from_base_and_growth (base growth : Z) : outcome vdata :=
  let r := Z.shiftl base 2 in
  if growth =? 1 then Ok (Z.lor r 1)
  else if growth =? -1 then Ok (Z.lor r 2)
  else if negb (growth =? 0) then Throw else Ok r.

(** varying.inl:134-147 *)
Definition growing_value_at_time (y t : Z) : outcome vdata := from_base_and_growth (y - t) 1.
Definition shrinking_value_at_time (y t : Z) : outcome vdata := from_base_and_growth (y + t) (-1).
Definition frozen (base : Z) : outcome vdata := from_base_and_growth base 0.

(** varying.inl:176-200 operator+ / operator- with an offset *)
Definition v_add (d off : Z) : vdata := d + Z.shiftl off 2.
Definition v_sub (d off : Z) : vdata := d - Z.shiftl off 2.
