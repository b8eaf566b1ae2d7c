(** Specification of correcting errors: distances of graphs, check matrices and detector error models.

    The distance is the least that a set of errors without detection events costs if it flips an observable. *)
From Coq Require Import Reals ZArith List Bool Arith.
From Verif Require Import M_UserGraph M_Merge S_Merge S_Pipeline S_DemDecode S_MatrixDecode.
Import ListNotations.

(** [c] is less than half of [D], by a margin for rounding [n] weights of at most [M]; without one if weights are integers. *)
Definition under_half (integers : Prop) (n : nat) (M c D : R) : Prop := (integers /\ (2 * c < D)%R) \/ (2 * c + INR n * half_step M < D)%R.

(** Graphs. *)
Definition graph_distance (g : ugraph RN) (D : R) : Prop :=
  forall F k, corrects g F [] -> k < nobs g -> flips_observable k F = true -> (D <= total_weight F)%R.
Definition observables_of (g : ugraph RN) (F : list (uedge RN)) : list Z := map (fun k => Z.b2z (flips_observable k F)) (seq 0 (nobs g)).

(** Check matrices, measured in several rounds. *)
Definition matrix_distance (rows reps : nat) (cols faults : list (list nat)) (ws tws : list R) (nfaults : nat) (D : R) : Prop :=
  forall h k, explains rows reps cols (fun _ => False) h -> k < nfaults -> fault rows reps cols faults k h = true -> (D <= cost rows reps cols ws tws h)%R.

(** Detector error models in which all mechanisms have the same probability and no two act on the same detectors: the number of mechanisms counts. *)
Definition uniform_model (p : R) (ms : list mechanism) : Prop :=
  (0 < p < 1 / 2)%R /\ (forall m, In m ms -> fst m = p) /\
  forall i j m m', nth_error ms i = Some m -> nth_error ms j = Some m' -> on_same_pair m m' = true -> i = j.
Definition model_distance (ms : list mechanism) (observables d : nat) : Prop :=
  forall X k, explains_events ms (fun _ => False) X -> k < observables -> oddly (flips_logical k) ms X = true -> d <= number X.
Definition logicals (ms : list mechanism) (observables : nat) (X : list bool) : list bool := map (fun k => oddly (flips_logical k) ms X) (seq 0 observables).
