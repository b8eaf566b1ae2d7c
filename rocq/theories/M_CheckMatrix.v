(** Model of loading a check matrix (driver/user_graph.pybind.cc:466-614) and of add_noise. *)
From Coq Require Import Arith List Bool.
From Verif Require Import M_Base M_UserGraph.
Import ListNotations.

Section Model.
Context {N : numops}.
Notation num := (num N).

(** One column: its row indices, its fault ids, its weight and its error probability.
    Simplification: the compressed sparse column arrays (indptr, indices) are given as one list of row
    indices per column; scipy's conversion is not modelled. *)
Definition column : Type := list nat * list nat * num * num.

Definition addO (g : outcome (ugraph N)) (u : nat) (v : option nat) (o : list nat) (w p : num) (s : strategy)
  : outcome (ugraph N) :=
  bindO g (fun g => let (g', threw) := add_or_merge g u v o w p s in if threw then Throw else Ok g').

(** user_graph.pybind.cc:525-563: one column of one repetition. *)
Definition load_column (rows reps rep : nat) (virtual : bool) (s : strategy) (g : outcome (ugraph N)) (c : column)
  : outcome (ugraph N) :=
  let '(rs, fs, w, p) := c in
  match rs with
  | [r1; r2] => addO g (r1 + rows * rep) (Some (r2 + rows * rep)) fs w p s
  | [r] => if virtual then addO g (r + rows * rep) None fs w p s
           else addO g (r + rows * rep) (Some (rows * reps)) fs w p s
  | [] => g
  | _ => bindO g (fun _ => Throw)
  end.

(** user_graph.pybind.cc:590-600: one time-like edge. *)
Definition load_timelike (rows rep : nat) (s : strategy) (g : outcome (ugraph N)) (x : nat * (num * num)) : outcome (ugraph N) :=
  let '(row, (w, p)) := x in addO g (row + rep * rows) (Some (row + (rep + 1) * rows)) [] w p s.

(** user_graph.pybind.cc:476-603. [fault_rows] is the number of rows of the faults matrix.
    The time-like arrays are optional (py::none()). *)
Definition load_check_matrix (rows : nat) (cols faults : list (list nat)) (fault_rows : nat) (ws ps : list num)
    (s : strategy) (virtual : bool) (reps : nat) (tws mes : option (list num)) : outcome (ugraph N) :=
  if negb (length ws =? length cols) then Throw
  else if negb (length ps =? length cols) then Throw
  else if negb (length cols =? length faults) then Throw
  else
    let columns := map (fun '((c, f), (w, p)) => (c, f, w, p)) (combine (combine cols faults) (combine ws ps)) in
    let g0 := Ok (new_graph N (rows * reps) fault_rows) in
    let g1 := fold_left (fun g rep => fold_left (load_column rows reps rep virtual s) columns g) (seq 0 reps) g0 in
    let g2 := if 1 <? reps then
                bindO g1 (fun _ =>
                match tws, mes with
                | Some tws, Some mes =>
                    if negb (length tws =? rows) then Throw
                    else if negb (length mes =? rows) then Throw
                    else fold_left (fun g rep => fold_left (load_timelike rows rep s) (combine (seq 0 rows) (combine tws mes)) g)
                                   (seq 0 (reps - 1)) g1
                | _, _ => Throw
                end)
              else g1 in
    bindO g2 (fun g => Ok (if negb virtual && (length (nodes g) =? rows * reps + 1)
                           then set_boundary g [rows * reps] else g)).

(** user_graph.cc:228-248 add_noise; the outcome of each comparison [rand_float(0,1) < p] is given by the
    list [draws]. Writing outside an array is UB. The arrays start as zeros (user_graph.pybind.cc:162-164). *)
Fixpoint flip (l : list bool) (i : nat) : outcome (list bool) :=
  match l, i with
  | [], _ => UB
  | b :: l', O => Ok (negb b :: l')
  | b :: l', S i' => bindO (flip l' i') (fun l'' => Ok (b :: l''))
  end.

Fixpoint clear_at (l : list bool) (i : nat) : outcome (list bool) :=
  match l, i with
  | [], _ => UB
  | _ :: l', O => Ok (false :: l')
  | b :: l', S i' => bindO (clear_at l' i') (fun l'' => Ok (b :: l''))
  end.

Definition foldO {A B} (f : A -> B -> outcome A) (l : list B) (a : A) : outcome A :=
  fold_left (fun o b => bindO o (fun a => f a b)) l (Ok a).

Definition noise_edge (st : list bool * list bool) (x : uedge N * bool) : outcome (list bool * list bool) :=
  let '(errs, syn) := st in let '(e, hit) := x in
  if hit then
    bindO (foldO flip (obs e) errs) (fun errs' =>
    bindO (flip syn (node1 e)) (fun syn1 =>
    match node2 e with
    | None => Ok (errs', syn1)
    | Some v => bindO (flip syn1 v) (fun syn2 => Ok (errs', syn2))
    end))
  else Ok (errs, syn).

Definition add_noise (g : ugraph N) (draws : list bool) : outcome (list bool * list bool) :=
  let z := (repeat false (nobs g), repeat false (num_nodes g)) in
  if negb (allp g) then Ok z
  else bindO (foldO noise_edge (combine (edges g) draws) z) (fun '(errs, syn) =>
       bindO (foldO clear_at (bnodes g) syn) (fun syn' => Ok (errs, syn'))).
End Model.
