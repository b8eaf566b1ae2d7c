(** Model of loading a check matrix as it is called from Python: the arguments (src/pymatching/matching.py:1054-1238) and the arrays of the sparse
    matrices (driver/user_graph.pybind.cc:24-62 and 466-614).

    M_CheckMatrix.v takes the matrices as lists of columns; here they are the arrays of scipy.sparse.csc_matrix, read without bounds checks.
    Simplifications: values of the matrices are integers; row indices and offsets are natural numbers; scipy's conversion of other matrices to
    csc_matrix is not modelled, and its eliminate_zeros is modelled by what it does.  A ValueError, a TypeError, and an exception of the C++ code or of
    the conversion to its types are all [Throw]. *)
From Coq Require Import Arith ZArith List Bool.
From Verif Require Import M_Base M_Bits M_UserGraph M_CheckMatrix.
Import ListNotations.
Local Open Scope outcome_scope.
Local Open Scope nat_scope.

(** scipy.sparse.csc_matrix: shape, indptr, indices, data *)
Record csc := mkCsc { csc_rows : nat; csc_cols : nat; indptr : list nat; indices : list nat; data : list Z }.
(** What the arrays hold for column [c]. *)
Definition stored (A : csc) (c : nat) : list (nat * Z) :=
  firstn (nth (S c) (indptr A) 0 - nth c (indptr A) 0) (skipn (nth c (indptr A) 0) (combine (indices A) (data A))).
(** The arrays that hold given columns. *)
Fixpoint offsets (k : nat) (l : list (list (nat * Z))) : list nat :=
  match l with [] => [k] | c :: l' => k :: offsets (k + length c) l' end.
Definition of_columns (rows : nat) (l : list (list (nat * Z))) : csc := mkCsc rows (length l) (offsets 0 l) (map fst (concat l)) (map snd (concat l)).
(** matching.py:1200 check_matrix.eliminate_zeros() *)
Definition eliminate_zeros (A : csc) : csc :=
  of_columns (csc_rows A) (map (fun c => filter (fun x => negb (snd x =? 0)%Z) (stored A c)) (seq 0 (csc_cols A))).
(** user_graph.pybind.cc:480-485: scipy.sparse.eye *)
Definition identity_matrix (n : nat) : csc := of_columns n (map (fun i => [(i, 1%Z)]) (seq 0 n)).

(** user_graph.pybind.cc:24-62 CompressedSparseColumnCheckMatrix: data is cast to uint8 *)
Definition matrix_ok (A : csc) : bool :=
  (length (indptr A) =? csc_cols A + 1) && (length (data A) =? length (indices A)) && forallb (fun x => u8 x =? 1)%Z (data A).

Section Model.
Context {N : numops}.
Notation num := (num N).

(** [unchecked]: no check of the bounds *)
Definition read_at {X} (l : list X) (i : nat) : outcome X := match nth_error l i with Some x => Ok x | None => UB end.
Fixpoint read_all {X} (l : list X) (is : list nat) : outcome (list X) :=
  match is with [] => Ok [] | i :: is' => x <-- read_at l i ;; xs <-- read_all l is' ;; Ok (x :: xs) end.

(** user_graph.pybind.cc:520-563: column [c] of one repetition *)
Definition load_sparse_column (H F : csc) (reps : nat) (virtual : bool) (s : strategy) (ws ps : list num) (rep : nat) (g : ugraph N) (c : nat) : outcome (ugraph N) :=
  a <-- read_at (indptr H) c ;;
  b <-- read_at (indptr H) (S c) ;;
  if (length (indices H) <=? a) && negb (a =? b) then Throw
  else
    fa <-- read_at (indptr F) c ;;
    fb <-- read_at (indptr F) (S c) ;;
    if fb <? fa then Throw                         (* obs.reserve of a negative number *)
    else
      obs <-- read_all (indices F) (seq fa (fb - fa)) ;;
      if b <? a then Throw
      else
        match b - a with
        | 0 => Ok g
        | 1 =>
            r <-- read_at (indices H) a ;; w <-- read_at ws c ;; p <-- read_at ps c ;;
            addO (Ok g) (r + csc_rows H * rep) (if virtual then None else Some (csc_rows H * reps)) obs w p s
        | 2 =>
            r1 <-- read_at (indices H) a ;; r2 <-- read_at (indices H) (a + 1) ;; w <-- read_at ws c ;; p <-- read_at ps c ;;
            addO (Ok g) (r1 + csc_rows H * rep) (Some (r2 + csc_rows H * rep)) obs w p s
        | _ => Throw
        end.
(** user_graph.pybind.cc:590-600 *)
Definition load_sparse_timelike (H : csc) (s : strategy) (tws mes : list num) (rep : nat) (g : ugraph N) (row : nat) : outcome (ugraph N) :=
  w <-- read_at tws row ;; p <-- read_at mes row ;;
  addO (Ok g) (row + rep * csc_rows H) (Some (row + (rep + 1) * csc_rows H)) [] w p s.
(** user_graph.pybind.cc:466-614; [s] is None if the name of the merge strategy is not recognised (:68-82), [F] is None for py::none(). *)
Definition load_sparse (H : csc) (ws ps : list num) (s : option strategy) (virtual : bool) (reps : nat) (tws mes : option (list num)) (F : option csc) : outcome (ugraph N) :=
  let F := match F with Some F => F | None => identity_matrix (csc_cols H) end in
  if negb (matrix_ok H) || negb (matrix_ok F) then Throw
  else if negb (length ws =? csc_cols H) then Throw
  else if negb (length ps =? csc_cols H) then Throw
  else if negb (csc_cols H =? csc_cols F) then Throw
  else
    match s with
    | None => Throw
    | Some s =>
        g1 <-- foldO (fun g rep => foldO (load_sparse_column H F reps virtual s ws ps rep) (seq 0 (csc_cols H)) g) (seq 0 reps) (new_graph N (csc_rows H * reps) (csc_rows F)) ;;
        g2 <-- (if 1 <? reps then
                  match tws, mes with
                  | Some tws, Some mes =>
                      if negb (length tws =? csc_rows H) then Throw
                      else if negb (length mes =? csc_rows H) then Throw
                      else foldO (fun g rep => foldO (load_sparse_timelike H s tws mes rep) (seq 0 (csc_rows H)) g) (seq 0 (reps - 1)) g1
                  | _, _ => Throw
                  end
                else Ok g1) ;;
        Ok (if negb virtual && (num_nodes g2 =? csc_rows H * reps + 1) then set_boundary g2 [csc_rows H * reps] else g2)
    end.

(** An argument that is a number or an array: not given (None), a number, a one-dimensional array or list, or anything else. *)
Inductive numbers := NotGiven | Number (x : num) | Numbers (l : list num) | Otherwise.
Record matrix_args := mkMatrixArgs {
  a_matrix : option csc; a_H : option csc;                       (* check_matrix, H *)
  a_weights : numbers; a_spacelike : numbers;                    (* weights, spacelike_weights *)
  a_errors : numbers;                                            (* error_probabilities *)
  a_repetitions : option Z;
  a_timelike : numbers;                                          (* timelike_weights *)
  a_measurement : numbers; a_measurement_old : numbers;          (* measurement_error_probabilities, measurement_error_probability *)
  a_faults : option csc;                                         (* faults_matrix *)
  a_strategy : option strategy;                                  (* merge_strategy *)
  a_virtual : bool                                               (* use_virtual_boundary_node *)
}.
(** One argument that has two names: both may not be given. *)
Definition either (a b : numbers) : outcome numbers :=
  match a, b with NotGiven, _ => Ok b | _, NotGiven => Ok a | _, _ => Throw end.
(** A number stands for as many; [d] if not given.  (error_probabilities: a numpy scalar that is no Python float, such as float32, counts as
    [Otherwise] and raises in the conversion to an array; matching.py:1195-1198.) *)
Definition broadcast (n : nat) (d : num) (a : numbers) : outcome (list num) :=
  match a with NotGiven => Ok (repeat d n) | Number x => Ok (repeat x n) | Numbers l => Ok l | Otherwise => Throw end.

(** matching.py:1163-1238 load_from_check_matrix; [one] is 1.0 *)
Definition py_load_check_matrix (one : num) (a : matrix_args) : outcome (ugraph N) :=
  H <-- match a_matrix a, a_H a with Some H, _ | None, Some H => Ok H | None, None => Throw end ;;
  w <-- either (a_weights a) (a_spacelike a) ;;
  ws <-- broadcast (csc_cols H) one w ;;
  ps <-- broadcast (csc_cols H) (p_none N) (a_errors a) ;;
  let reps := match a_repetitions a with None => 1%Z | Some z => z end in
  let H := eliminate_zeros H in
  if (1 <? reps)%Z then
    tws <-- broadcast (csc_rows H) one (a_timelike a) ;;
    m <-- either (a_measurement a) (a_measurement_old a) ;;
    mes <-- broadcast (csc_rows H) (p_none N) m ;;
    load_sparse H ws ps (a_strategy a) (a_virtual a) (Z.to_nat reps) (Some tws) (Some mes) (a_faults a)
  else if (reps <? 0)%Z then Throw                               (* the conversion to size_t *)
  else load_sparse H ws ps (a_strategy a) (a_virtual a) (Z.to_nat reps) None None (a_faults a).
End Model.
