(** Specification of loading a check matrix from Python: what the arrays and the arguments stand for. *)
From Coq Require Import Arith ZArith List Bool.
From Verif Require Import M_UserGraph M_MatrixArgs.
Import ListNotations.
Local Open Scope nat_scope.

(** Value [k] is stored for row [r] of column [c], at position [i] of the arrays. *)
Definition holds_at (A : csc) (i r c : nat) (k : Z) : Prop :=
  c < csc_cols A /\ nth c (indptr A) 0 <= i < nth (S c) (indptr A) 0 /\ nth_error (indices A) i = Some r /\ nth_error (data A) i = Some k.
Definition holds (A : csc) (r c : nat) (k : Z) : Prop := exists i, holds_at A i r c k.
(** Compressed sparse columns: the offsets begin with 0, do not decrease and end with the number of values; rows are in range, none is twice in a column. *)
Definition well_formed (A : csc) : Prop :=
  length (indptr A) = csc_cols A + 1 /\ nth 0 (indptr A) 0 = 0 /\ (forall c, c < csc_cols A -> nth c (indptr A) 0 <= nth (S c) (indptr A) 0) /\
  nth (csc_cols A) (indptr A) 0 = length (indices A) /\ length (data A) = length (indices A) /\
  (forall r, In r (indices A) -> r < csc_rows A) /\ (forall i j r c k k', holds_at A i r c k -> holds_at A j r c k' -> i = j).
(** The arrays represent the matrix of bits [B]; zeros may be stored. *)
Definition represents (A : csc) (B : nat -> nat -> bool) : Prop :=
  well_formed A /\ forall r c, r < csc_rows A -> c < csc_cols A -> if B r c then holds A r c 1 else forall k, holds A r c k -> k = 0%Z.
(** The rows with a one, column by column. *)
Definition ones_of (rows cols : nat) (B : nat -> nat -> bool) : list (list nat) := map (fun c => filter (fun r => B r c) (seq 0 rows)) (seq 0 cols).

Section Spec.
Context {N : numops}.
(** The numbers that an argument with two names stands for; [d] is the default. *)
Definition means (n : nat) (d : num N) (a b : numbers) (l : list (num N)) : Prop :=
  match a, b with
  | NotGiven, NotGiven => l = repeat d n
  | Number x, NotGiven | NotGiven, Number x => l = repeat x n
  | Numbers m, NotGiven | NotGiven, Numbers m => l = m
  | _, _ => False
  end.
(** The check matrix, under either name. *)
Definition check_matrix (a : matrix_args (N := N)) (H : csc) : Prop := a_matrix a = Some H \/ (a_matrix a = None /\ a_H a = Some H).
Definition rounds (a : matrix_args (N := N)) : Z := match a_repetitions a with None => 1%Z | Some z => z end.
(** The faults matrix has [nfaults] rows and the bits [F]: the identity if it is not given.  It must not store zeros. *)
Definition faults_are (a : matrix_args (N := N)) (cols nfaults : nat) (F : nat -> nat -> bool) : Prop :=
  match a_faults a with
  | None => nfaults = cols /\ forall i j, F i j = (i =? j)
  | Some A => csc_rows A = nfaults /\ csc_cols A = cols /\ represents A F /\ ~ In 0%Z (data A)
  end.
(** The arguments stand for a check matrix of [rows] by [cols] with the bits [B], weights [ws] and error probabilities [ps], [reps] rounds with time-like weights [tws] and
    measurement error probabilities [mes], a merge strategy and the faults. *)
Definition call_means (one : num N) (a : matrix_args) (rows cols : nat) (B : nat -> nat -> bool) (ws ps : list (num N)) (reps : nat) (tws mes : option (list (num N)))
    (s : strategy) (nfaults : nat) (F : nat -> nat -> bool) : Prop :=
  (exists H, check_matrix a H /\ csc_rows H = rows /\ csc_cols H = cols /\ represents H B) /\
  means cols one (a_weights a) (a_spacelike a) ws /\ means cols (p_none N) (a_errors a) NotGiven ps /\ rounds a = Z.of_nat reps /\
  (if 1 <? reps then exists t m, tws = Some t /\ mes = Some m /\ means rows one (a_timelike a) NotGiven t /\ means rows (p_none N) (a_measurement a) (a_measurement_old a) m
   else tws = None /\ mes = None) /\
  a_strategy a = Some s /\ faults_are a cols nfaults F.
End Spec.
(** The matrix times a vector of bits is [P]. *)
Definition system (rows cols : nat) (B : nat -> nat -> bool) (P : nat -> Prop) (x : list bool) : Prop :=
  length x = cols /\ forall r, r < rows -> (fold_right xorb false (map (fun c => B r c && nth c x false) (seq 0 cols)) = true <-> P r).
