(** C18: region radii are exact linear functions of time. *)
From Coq Require Import ZArith Lia.
From Verif Require Import M_Base M_Varying S_Varying P_Varying.
Open Scope Z_scope.

(** The packed word evaluates to the line it stands for, and its direction flags are exclusive and right. *)
Theorem C18_packed_radius_evaluates_to_line :
  forall l t, legal l ->
    get_distance_at_time (word_of l) t = value l t /\
    is_growing (word_of l) = (slope l =? 1) /\ is_shrinking (word_of l) = (slope l =? -1) /\
    is_frozen (word_of l) = (slope l =? 0) /\ y_intercept (word_of l) = icpt l.
Proof. exact (fun l t H => conj (vf_distance l t H) (conj (vf_growing l H) (conj (vf_shrinking l H) (conj (vf_frozen l H) (vf_icpt l H))))). Qed.
Print Assumptions C18_packed_radius_evaluates_to_line.

(** Switching to growing / shrinking / frozen at time [t] gives a line of that slope with the same value at [t]. *)
Theorem C18_switching_direction_preserves_value :
  forall l t, legal l ->
    (exists g, then_growing_at_time (word_of l) t = word_of g /\ slope g = 1 /\ value g t = value l t) /\
    (exists s, then_shrinking_at_time (word_of l) t = word_of s /\ slope s = -1 /\ value s t = value l t) /\
    (exists f, then_frozen_at_time (word_of l) t = word_of f /\ slope f = 0 /\ value f t = value l t).
Proof. exact switch_correct. Qed.
Print Assumptions C18_switching_direction_preserves_value.

(** The time at which a line reaches zero is its unique root; a frozen line is rejected. *)
Theorem C18_zero_crossing_exact :
  forall l, legal l ->
    match time_of_x_intercept (word_of l) with
    | Ok t => slope l <> 0 /\ forall t', value l t' = 0 <-> t' = t
    | Throw => slope l = 0
    | _ => False
    end.
Proof. exact root_correct. Qed.
Print Assumptions C18_zero_crossing_exact.

(** Two radii approach each other exactly when [colliding_with] says so, and the computed meeting
    time is the unique time at which they add up to the edge weight [w].  (When both grow, the sum
    moves by two per unit of time, so the meeting time is an integer only if the gap is even.) *)
Theorem C18_colliding_exact :
  forall a b, legal a -> legal b ->
    (colliding_with (word_of a) (word_of b) = true <-> (0 < slope a + slope b /\ slope a <> -1 /\ slope b <> -1)).
Proof. exact colliding_correct. Qed.
Print Assumptions C18_colliding_exact.

Theorem C18_meeting_time_exact :
  forall a b w, legal a -> legal b -> slope a <> -1 -> slope b <> -1 -> 0 < slope a + slope b ->
    let t := time_of_x_intercept_when_added_to (word_of (mkLine (slope a) (icpt a - w))) (word_of b) in
    (slope a + slope b = 2 -> Z.Even (icpt a + icpt b - w)) ->
    forall t', value a t' + value b t' = w <-> t' = t.
Proof. exact meeting_time_correct. Qed.
Print Assumptions C18_meeting_time_exact.

(** The same for the functions that take the direction for granted. *)
Theorem C18_directed_exact :
  forall l, legal l ->
    (slope l = 1 -> forall t, get_growing_distance_at_time (word_of l) t = value l t /\ (value l t = 0 <-> t = time_of_x_intercept_for_growing (word_of l))) /\
    (slope l = -1 -> forall t, get_shrinking_distance_at_time (word_of l) t = value l t /\ (value l t = 0 <-> t = time_of_x_intercept_for_shrinking (word_of l))).
Proof. exact directed_correct. Qed.
Print Assumptions C18_directed_exact.

Theorem C18_unit_slope_meeting_time_exact :
  forall a b w, legal a -> legal b -> slope a <> -1 -> slope b <> -1 -> slope a + slope b = 1 ->
    forall t, value a t + value b t = w <-> t = time_of_x_intercept_when_added_to_giving_unit_slope (word_of (mkLine (slope a) (icpt a - w))) (word_of b).
Proof. exact unit_slope_correct. Qed.
Print Assumptions C18_unit_slope_meeting_time_exact.

(** The constructors and the addition of an offset produce the intended lines. *)
Theorem C18_constructors_exact :
  forall y t,
    growing_value_at_time y t = Ok (word_of (mkLine 1 (y - t))) /\
    shrinking_value_at_time y t = Ok (word_of (mkLine (-1) (y + t))) /\
    frozen y = Ok (word_of (mkLine 0 y)) /\
    growing_varying_with_zero_distance_at_time t = word_of (mkLine 1 (- t)).
Proof. exact constructors_correct. Qed.
Print Assumptions C18_constructors_exact.

(** A growth other than -1, 0 and 1 is refused. *)
Theorem C18_other_growth_refused :
  forall base growth, growth <> -1 -> growth <> 0 -> growth <> 1 -> from_base_and_growth base growth = Throw.
Proof. exact growth_refused. Qed.
Print Assumptions C18_other_growth_refused.
Example C18_ex_growth : from_base_and_growth 5 2 = Throw /\ from_base_and_growth 5 (-1) = Ok 22.
Proof. vm_compute. split; reflexivity. Qed.

Theorem C18_offset_exact :
  forall l o, legal l ->
    v_add (word_of l) o = word_of (mkLine (slope l) (icpt l + o)) /\
    v_sub (word_of l) o = word_of (mkLine (slope l) (icpt l - o)).
Proof. exact offset_correct. Qed.
Print Assumptions C18_offset_exact.

(** With intercepts and times up to 2^59 in absolute value no operation leaves the 64-bit range. *)
Theorem C18_no_overflow :
  forall l t, legal l -> Z.abs (icpt l) <= 2 ^ 59 -> Z.abs t <= 2 ^ 59 ->
    in_int64 (word_of l) /\ in_int64 (get_distance_at_time (word_of l) t) /\
    in_int64 (then_growing_at_time (word_of l) t) /\ in_int64 (then_shrinking_at_time (word_of l) t) /\
    in_int64 (then_frozen_at_time (word_of l) t).
Proof. exact range_correct. Qed.
Print Assumptions C18_no_overflow.

Example C18_ex1 : legal (mkLine (-1) 7) /\ get_distance_at_time (word_of (mkLine (-1) 7)) 3 = 4.
Proof. split; [left; reflexivity|vm_compute; reflexivity]. Qed.
Example C18_ex2 : (* two radii growing from -3 and -5 across an edge of weight 10 meet at time 9 *)
  time_of_x_intercept_when_added_to (word_of (mkLine 1 (-3 - 10))) (word_of (mkLine 1 (-5))) = 9
  /\ value (mkLine 1 (-3)) 9 + value (mkLine 1 (-5)) 9 = 10.
Proof. vm_compute. split; reflexivity. Qed.
Example C18_ex3 : (* a radius growing from -3 and one frozen at 5 meet across an edge of weight 10 at time 8; the first is zero at time 3 *)
  time_of_x_intercept_when_added_to_giving_unit_slope (word_of (mkLine 1 (-3 - 10))) (word_of (mkLine 0 5)) = 8 /\
  time_of_x_intercept_for_growing (word_of (mkLine 1 (-3))) = 3 /\ get_shrinking_distance_at_time (word_of (mkLine (-1) 7)) 3 = 4.
Proof. vm_compute. repeat split; reflexivity. Qed.
