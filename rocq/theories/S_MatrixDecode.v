(** Specification of decoding with a check matrix, measured in several rounds. *)
From Coq Require Import Reals ZArith List Bool Arith.
From Verif Require Import M_UserGraph M_Merge S_CheckMatrix S_Pipeline.
Import ListNotations.
Local Open Scope nat_scope.

(** What can happen: the error of column [i] in round [t], or a wrong outcome of check [r] in round [t], which is not the last one. *)
Inductive site := Flip (t i : nat) | Wrong (t r : nat).
Definition sites (rows reps ncols : nat) : list site :=
  map (fun p => Flip (fst p) (snd p)) (list_prod (seq 0 reps) (seq 0 ncols)) ++ map (fun p => Wrong (fst p) (snd p)) (list_prod (seq 0 (reps - 1)) (seq 0 rows)).

Section Matrix.
Variables (rows reps : nat) (cols faults : list (list nat)) (ws tws : list R).
(** [h] says what happens. *)
Definition happening (h : site -> bool) : list site := filter h (sites rows reps (length cols)).
(** The outcome of check [r] in round [t], compared with the round before, is changed by the errors of this round in a column with a one in
    row [r], and by wrong outcomes in this round or the one before. *)
Definition changes (t r : nat) (s : site) : bool :=
  match s with
  | Flip t' i => (t' =? t) && odd_count r (nth i cols [])
  | Wrong t' r' => (r' =? r) && ((t' =? t) || (S t' =? t))
  end.
Definition detection (t r : nat) (h : site -> bool) : bool := Nat.odd (length (filter (changes t r) (happening h))).
Definition explains (P : nat -> Prop) (h : site -> bool) : Prop := forall t r, t < reps -> r < rows -> (detection t r h = true <-> P (t * rows + r)).
(** Fault [k] of the faults matrix is flipped. *)
Definition has_fault (k : nat) (s : site) : bool := match s with Flip _ i => odd_count k (nth i faults []) | Wrong _ _ => false end.
Definition fault (k : nat) (h : site -> bool) : bool := Nat.odd (length (filter (has_fault k) (happening h))).
Definition site_weight (s : site) : R := match s with Flip _ i => nth i ws 0%R | Wrong _ r => nth r tws 0%R end.
Definition cost (h : site -> bool) : R := fold_right Rplus 0%R (map site_weight (happening h)).

(** The row and the weight belong to something that explains the events [P] and costs no more than anything else that does, up to rounding
    weights of at most [M], and exactly if the weights are integers
    (and their sum is not so large that a double cannot represent it). *)
Definition cheapest (nfaults : nat) (M : R) (P : nat -> Prop) (row : list Z) (w : R) : Prop :=
  exists h, explains P h /\ row = map (fun k => Z.b2z (fault k h)) (seq 0 nfaults) /\
    (forall h', explains P h' -> cost h <= cost h' + INR (length (happening h) + length (happening h')) * half_step M)%R /\
    (Rabs (w - cost h) <= INR (length (happening h)) * half_step M)%R /\
    ((forall s, In s (sites rows reps (length cols)) -> exists z, site_weight s = IZR z) -> (forall h', explains P h' -> cost h <= cost h')%R /\ ((Rabs (cost h) <= IZR (2 ^ 52))%R -> w = cost h)).
End Matrix.

(** What the matrices have to be like: columns have at most two ones, within the rows; faults are below [nfaults]; weights are at most [M] in
    absolute value; columns that are zero cost something; different columns differ, or of equal columns the one that costs least is kept and none has a negative weight;
    weights that are not zero are not minute (2^-999 is about 10^-301). *)
Definition sound_matrix (rows reps : nat) (cols faults : list (list nat)) (ws tws : list R) (s : strategy) (nfaults : nat) (M : R) : Prop :=
  (forall c r, In c cols -> In r c -> r < rows) /\ (forall f k, In f faults -> In k f -> k < nfaults) /\
  (forall x, In x (sites rows reps (length cols)) -> Rabs (site_weight ws tws x) <= M)%R /\ (M <= max_user_weight)%R /\
  (forall i, nth_error cols i = Some [] -> 0 <= nth i ws 0)%R /\
  ((forall i j c d, nth_error cols i = Some c -> nth_error cols j = Some d -> c <> [] -> same_support c d -> i = j) \/
   (s = SMALLEST_WEIGHT /\ forall w, In w ws -> (0 <= w)%R)) /\
  (forall x, In x (sites rows reps (length cols)) -> site_weight ws tws x = 0 \/ / IZR (2 ^ 999) <= Rabs (site_weight ws tws x))%R.

(** One round, and the faults are the columns: the matrix times a vector of bits. *)
Definition ones (x : list bool) : list nat := filter (fun i => nth i x false) (seq 0 (length x)).
Definition product (cols : list (list nat)) (x : list bool) (r : nat) : bool := Nat.odd (length (filter (fun i => odd_count r (nth i cols [])) (ones x))).
Definition solves (rows : nat) (cols : list (list nat)) (P : nat -> Prop) (x : list bool) : Prop :=
  length x = length cols /\ forall r, r < rows -> (product cols x r = true <-> P r).
Definition vector_cost (ws : list R) (x : list bool) : R := fold_right Rplus 0%R (map (fun i => nth i ws 0%R) (ones x)).
