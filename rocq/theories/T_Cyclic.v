(** C14: cyclic timestamps order correctly within half a period. *)
From Coq Require Import ZArith Lia Bool.
From Verif Require Import M_Cyclic P_Cyclic.
Open Scope Z_scope.

(** For a [w]-bit clock and unbounded times [x], [y] less than half a period apart, comparing the
    truncated clocks gives the same answers as comparing the times. *)
Theorem C14_cyclic_comparison_correct :
  forall w x y : Z, 1 <= w -> Z.abs (x - y) < 2 ^ (w - 1) ->
    cyc_lt w (x mod 2 ^ w) (y mod 2 ^ w) = (x <? y) /\
    cyc_le w (x mod 2 ^ w) (y mod 2 ^ w) = (x <=? y) /\
    cyc_gt w (x mod 2 ^ w) (y mod 2 ^ w) = (y <? x) /\
    cyc_ge w (x mod 2 ^ w) (y mod 2 ^ w) = (y <=? x).
Proof. exact cyc_order. Qed.
Print Assumptions C14_cyclic_comparison_correct.

(** Exactly half a period apart, neither time is before the other: all four comparisons give false. *)
Theorem C14_half_a_period_unordered :
  forall w x y : Z, 2 <= w -> Z.abs (x - y) = 2 ^ (w - 1) ->
    cyc_lt w (x mod 2 ^ w) (y mod 2 ^ w) = false /\ cyc_le w (x mod 2 ^ w) (y mod 2 ^ w) = false /\
    cyc_gt w (x mod 2 ^ w) (y mod 2 ^ w) = false /\ cyc_ge w (x mod 2 ^ w) (y mod 2 ^ w) = false.
Proof. exact cyc_half. Qed.
Print Assumptions C14_half_a_period_unordered.

(** An unbounded time is recovered exactly from its truncation and a reference at most half a period away. *)
Theorem C14_widen_recovers_time :
  forall w x reference : Z, 1 <= w -> - 2 ^ (w - 1) < x - reference <= 2 ^ (w - 1) ->
    widen w (x mod 2 ^ w) reference = x.
Proof. exact widen_exact. Qed.
Print Assumptions C14_widen_recovers_time.

(** A case across the 32-bit wrap-around: 2^32+5 against 2^32-7. *)
Example C14_ex_hyp : Z.abs ((2 ^ 32 + 5) - (2 ^ 32 - 7)) < 2 ^ (32 - 1).
Proof. vm_compute. reflexivity. Qed.
Example C14_ex_gt : cyc_gt 32 ((2 ^ 32 + 5) mod 2 ^ 32) ((2 ^ 32 - 7) mod 2 ^ 32) = true.
Proof. vm_compute. reflexivity. Qed.
Example C14_ex_widen : widen 32 ((2 ^ 32 + 5) mod 2 ^ 32) (2 ^ 32 - 7) = 2 ^ 32 + 5.
Proof. vm_compute. reflexivity. Qed.
Example C14_ex_half : Z.abs (7 - (7 + 2 ^ 31)) = 2 ^ (32 - 1).
Proof. vm_compute. reflexivity. Qed.
