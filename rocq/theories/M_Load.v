(** Model of loading graphs into a Matching object that is in use (src/pymatching/matching.py:1054-1238, 1420-1434, 1488-1570, 1581-1659; the constructor,
    130-179, makes an object of the empty graph and then loads).

    Each of these functions makes a new graph and assigns it to _matching_graph as its last step.  M_MatrixArgs.v, M_GraphIO.v and M_Dem.v model the
    making.  Not modelled: the text of a detector error model (a model that stim can read is given), enable_correlations, subclasses of Matching. *)
From Coq Require Import Reals ZArith List Bool Arith.
From Verif Require Import M_Base M_Core M_CoreHeap M_Dem M_Merge S_Dem M_MatrixArgs M_GraphIO M_Matching M_UserGraph.
Import ListNotations.
Local Open Scope outcome_scope.
Local Open Scope nat_scope.

(** What can be loaded. *)
Inductive source :=
| FromMatrix (a : matrix_args (N := RN))                                     (* load_from_check_matrix *)
| FromGraph (G : pygraph RN) (min_num_fault_ids : option nat)                (* load_from_networkx, load_from_rustworkx *)
| FromModel (num_detectors num_observables : nat) (dem : list (instruction RD)).  (* _load_from_detector_error_model *)
(** The graph that is made. *)
Definition make_graph (x : source) : outcome (ugraph RN) :=
  match x with
  | FromMatrix a => py_load_check_matrix (N := RN) 1%R a
  | FromGraph G k => read_graph (N := RN) 1%R G k
  | FromModel nd no dem => Ok (load_dem RD nd no dem)
  end.

(** A call of a function that loads, or any other. *)
Inductive lcall := Load (x : source) | Use (c : mcall).
Section Load.
Variables (fuel : nat) (A : ints).
(** matching.py:1230, 1432, 1570, 1659: the assignment is the last step, so an exception leaves the object alone. *)
Definition lstep (m : matching) (c : lcall) : outcome (matching * mreply) :=
  match c with
  | Load x => unless_thrown (make_graph x) (fun g => Ok (new_matching g, Done)) (Ok (m, Raised))
  | Use c => mstep fuel A m c
  end.
Fixpoint lrun (m : matching) (cs : list lcall) : outcome (matching * list mreply) :=
  match cs with
  | [] => Ok (m, [])
  | c :: cs' => x <-- lstep m c ;; y <-- lrun (fst x) cs' ;; Ok (fst y, snd x :: snd y)
  end.
End Load.
