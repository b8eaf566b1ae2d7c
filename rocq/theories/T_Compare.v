(** C77: arithmetic on cyclic clocks.  C78: compressed edges, events and results.  C18: equality of radii. *)
From Coq Require Import ZArith NArith List Bool Arith Lia.
From Verif Require Import M_Base M_Cyclic P_Cyclic M_Core M_Inspect M_Compare S_Compare S_Varying P_Compare.
Import ListNotations.
Local Open Scope nat_scope.

(** C77: whatever series of increments, decrements, additions and subtractions is applied to a clock of [w] bits, it shows the time modulo
    2^w, and so does every value returned on the way. *)
Theorem C77_clock_arithmetic : forall w x ops, (1 <= w)%Z ->
  cyc_run w (x mod 2 ^ w)%Z ops = ((final_time x ops mod 2 ^ w)%Z, map (fun t => t mod 2 ^ w)%Z (returned_times x ops)).
Proof. exact (fun w x ops H => cyc_run_ok w ops x H). Qed.
Print Assumptions C77_clock_arithmetic.

(** The comparisons fit together for any two values of the clock, however far apart; one is less than another exactly if fewer than half a
    period of increments leads from it to the other. *)
Theorem C77_comparisons : forall w a b, (1 <= w)%Z -> (0 <= a < 2 ^ w)%Z -> (0 <= b < 2 ^ w)%Z ->
  cyc_le w a b = cyc_lt w a b || cyc_eq a b /\ cyc_gt w a b = cyc_lt w b a /\ cyc_ge w a b = cyc_le w b a /\
  cyc_lt w a b && cyc_lt w b a = false /\ cyc_ne a b = negb (cyc_eq a b) /\
  (cyc_lt w a b = true <-> exists k, (0 < k < 2 ^ (w - 1))%Z /\ b = cyc_add w a k).
Proof. exact cyc_laws. Qed.
Print Assumptions C77_comparisons.

(** Two clocks that are moved on by the same time compare as before. *)
Theorem C77_moved_together : forall w x y d, (1 <= w)%Z ->
  cyc_lt w (cyc_add w (x mod 2 ^ w) d) (cyc_add w (y mod 2 ^ w) d) = cyc_lt w (x mod 2 ^ w) (y mod 2 ^ w) /\
  cyc_le w (cyc_add w (x mod 2 ^ w) d) (cyc_add w (y mod 2 ^ w) d) = cyc_le w (x mod 2 ^ w) (y mod 2 ^ w).
Proof. exact cyc_shift. Qed.
Print Assumptions C77_moved_together.

(** But "less than" is not an order: it goes round in a circle. *)
Theorem C77_transitive_refuted : exists a b c, (0 <= a < 2 ^ 32)%Z /\ (0 <= b < 2 ^ 32)%Z /\ (0 <= c < 2 ^ 32)%Z /\ cyc_lt 32 a b = true /\ cyc_lt 32 b c = true /\ cyc_lt 32 c a = true.
Proof. exists 0%Z, (2 ^ 31 - 1)%Z, (2 ^ 32 - 2)%Z. repeat split; vm_compute; congruence. Qed.
Print Assumptions C77_transitive_refuted.

Example C77_example : cyc_run 32 ((2 ^ 32 - 2) mod 2 ^ 32) [PostInc; PreInc; PreInc; SubInt 5; PostDec; AddInt (-3); AddCyc 9] =
  (1, [4294967294; 0; 1; 4294967292; 4294967292; 4294967288; 1])%Z /\
  final_time (2 ^ 32 - 2) [PostInc; PreInc; PreInc; SubInt 5; PostDec; AddInt (-3); AddCyc 9] = (2 ^ 32 + 1)%Z.
Proof. split; vm_compute; reflexivity. Qed.
Example C77_comparisons_example : (0 <= 4294967290 < 2 ^ 32)%Z /\ (0 <= 5 < 2 ^ 32)%Z /\ cyc_lt 32 4294967290 5 = true /\ (5 = cyc_add 32 4294967290 11)%Z.
Proof. repeat split; vm_compute; congruence. Qed.

(** C78: a compressed edge summarises a walk: where it starts, where it ends, and which observables it crosses an odd number of times.
    merged_with summarises one walk after another, and reversed the walk back. *)
Theorem C78_merged : forall e f l m, summarises e l -> summarises f m -> eto e = efrom f -> summarises (merged_with e f) (l ++ m).
Proof. exact merged_ok. Qed.
Print Assumptions C78_merged.
Theorem C78_reversed : forall e l, summarises e l -> summarises (rev_e e) (rev (map back_step l)).
Proof. exact reversed_ok. Qed.
Print Assumptions C78_reversed.
Theorem C78_edge_laws : forall e f h,
  merged_with (merged_with e f) h = merged_with e (merged_with f h) /\ rev_e (merged_with e f) = merged_with (rev_e f) (rev_e e) /\ rev_e (rev_e e) = e /\
  merged_with e (rev_e e) = mkE (efrom e) (efrom e) 0.
Proof. exact merged_laws. Qed.
Print Assumptions C78_edge_laws.

(** Two events are equal exactly if they are the same event, or the same collision told from the other side.  This is an equivalence. *)
Theorem C78_events : (forall x y, event_equal x y = true <-> same_event x y) /\ (forall x y, event_differs x y = negb (event_equal x y)) /\
  (forall x, event_equal x x = true) /\ (forall x y, event_equal x y = true -> event_equal y x = true) /\
  forall x y z, event_equal x y = true -> event_equal y z = true -> event_equal x z = true.
Proof.
  exact (conj event_equal_spec (conj event_differs_spec (conj (fun x => proj2 (event_equal_spec x x) (same_as_told x))
    (conj (fun x y H => proj2 (event_equal_spec y x) (same_event_sym x y (proj1 (event_equal_spec x y) H)))
      (fun x y z H K => proj2 (event_equal_spec x z) (same_event_trans x y z (proj1 (event_equal_spec x y) H) (proj1 (event_equal_spec y z) K))))))).
Qed.
Print Assumptions C78_events.
Theorem C78_region_edges : forall a b : option nat * cedge,
  (region_edge_equal a b = true <-> a = b) /\ (tree_edge_equal a b = true <-> snd a = snd b) /\ cedge_differs (snd a) (snd b) = negb (cedge_equal (snd a) (snd b)).
Proof. exact edge_comparisons. Qed.
Print Assumptions C78_region_edges.
(** An edge of an alternating tree can be equal to one that leads to another node. *)
Theorem C78_tree_edge_refuted : exists a b : option nat * cedge, tree_edge_equal a b = true /\ a <> b.
Proof. exists (Some 1, mkE (Some 3) (Some 4) 5), (Some 2, mkE (Some 3) (Some 4) 5). split; [reflexivity|discriminate]. Qed.
Print Assumptions C78_tree_edge_refuted.

(** Events in the queue of the flooder: equal if the times, the types, and (unless there is no event) the pointers are; an exception for types
    that do not exist. *)
Theorem C78_checks : forall x y,
  ((0 <= ce_type x <= 3)%Z -> exists b, check_equal x y = Ok b /\ check_differs x y = Ok (negb b) /\
     (b = true <-> ce_time x = ce_time y /\ ce_type x = ce_type y /\ (ce_type x = 0%Z \/ ce_data x = ce_data y))) /\
  ((3 < ce_type x)%Z -> ce_time x = ce_time y -> ce_type x = ce_type y -> check_equal x y = Throw).
Proof. exact (fun x y => conj (check_equal_spec x y) (check_unknown x y)). Qed.
Print Assumptions C78_checks.

(** Results add up, in any order: observables flip if exactly one of the two has them flipped; with many observables, entry by entry as long as the other one is not shorter, which is not checked in a release. *)
Theorem C78_results : forall a b c, (forall k, N.testbit (fst (result_add a b)) k = xorb (N.testbit (fst a) k) (N.testbit (fst b) k)) /\ snd (result_add a b) = (snd a + snd b)%Z /\ result_add a result_zero = a /\ result_add a b = result_add b a /\ result_add a (result_add b c) = result_add (result_add a b) c.
Proof. exact result_laws. Qed.
Print Assumptions C78_results.
Theorem C78_extended_results : forall a b,
  (length (fst a) <= length (fst b) -> exists l, extended_add a b = Ok (l, (snd a + snd b)%Z) /\ length l = length (fst a) /\ forall i, i < length (fst a) -> nth i l 0%Z = Z.lxor (nth i (fst a) 0%Z) (nth i (fst b) 0%Z)) /\
  (length (fst b) < length (fst a) -> extended_add a b = UB).
Proof. exact extended_ok. Qed.
Print Assumptions C78_extended_results.

(** A walk of two steps to the boundary after a walk of one step. *)
Example C78_merged_example : let l := [(Some 0, 5%N, Some 1)] in let m := [(Some 1, 1%N, Some 2); (Some 2, 4%N, None)] in
  let e := mkE (Some 0) (Some 1) 5 in let f := mkE (Some 1) None 5 in summarises e l /\ summarises f m /\ eto e = efrom f /\ merged_with e f = mkE (Some 0) None 0.
Proof.
  cbv zeta. assert (B : forall k, N.testbit 5 k = Nat.odd (length (filter (crosses k) [(Some 0, 5%N, Some 1)]))) by (intros k; cbn [filter crosses fst snd]; unfold crosses; cbn [fst snd]; destruct (N.testbit 5 k); reflexivity).
  split; [split; [repeat constructor|exact B]|]. split; [|split; reflexivity]. split; [repeat constructor|]. intros k. change 5%N with (N.lxor 1 4). cbn [eobs]. rewrite N.lxor_spec. unfold crosses. cbn [filter fst snd].
  destruct (N.testbit 1 k), (N.testbit 4 k); reflexivity.
Qed.
Example C78_events_example : event_equal (HitRegion (Some 1) (Some 2) (mkE (Some 3) (Some 4) 5)) (HitRegion (Some 2) (Some 1) (mkE (Some 4) (Some 3) 5)) = true /\
  event_equal (HitRegion (Some 1) (Some 2) (mkE (Some 3) (Some 4) 5)) (HitRegion (Some 2) (Some 1) (mkE (Some 3) (Some 4) 5)) = false.
Proof. split; reflexivity. Qed.
Example C78_checks_example : let x := mkCheck 7 100 1 in let y := mkCheck 8 100 1 in (0 <= ce_type x <= 3)%Z /\ check_equal x y = Ok false /\ check_equal (mkCheck 7 100 0) (mkCheck 8 100 0) = Ok true /\ check_equal (mkCheck 7 100 9) (mkCheck 7 100 9) = Throw.
Proof. cbv zeta. repeat split; cbn; lia. Qed.
Example C78_extended_example : let a := ([1; 0; 1], 4)%Z in let b := ([1; 1; 0], 7)%Z in length (fst a) <= length (fst b) /\ extended_add a b = Ok ([0; 1; 1], 11)%Z.
Proof. split; [cbn; lia|reflexivity]. Qed.

(** C18: two packed radii compare equal exactly if they have the same value at every time. *)
Theorem C18_equality : forall a b, legal a -> legal b ->
  (varying_equal (word_of a) (word_of b) = true <-> forall t, value a t = value b t) /\ varying_differs (word_of a) (word_of b) = negb (varying_equal (word_of a) (word_of b)).
Proof. exact varying_equal_ok. Qed.
Print Assumptions C18_equality.
Example C18_equality_example : let a := mkLine 1 (-3) in let b := mkLine (-1) 5 in
  legal a /\ legal b /\ value a 4 = value b 4 /\ varying_equal (word_of a) (word_of b) = false /\ varying_equal (word_of a) (word_of (mkLine 1 (-3))) = true.
Proof. cbv zeta. unfold legal. cbn. repeat split; auto. Qed.
