(** Model of the decoder that belongs to a user graph (M_Pipeline.v) on the queues and integers of the code: the matching
    flooder and the search flooder each have a radix heap (M_CoreHeap.v, M_SearchHeap.v).  Weights as in M_Pipeline.v. *)
From Coq Require Import Reals ZArith NArith List Bool Arith.
From Verif Require Import M_Base M_Core M_CoreHeap M_Build M_Flip M_Search M_ToEdges M_SearchHeap M_Pipeline.
Import ListNotations.
Local Open Scope outcome_scope.
Local Open Scope nat_scope.

(** What changes while decoding: both flooders with their heaps, and the FLIPPED marks of the search graph. *)
Record running := mkRun {
  r_state : state;
  r_heap : heap;
  r_search : search;
  r_sheap : heap;
  r_marks : marks }.

Section Decode.
Variables (d : decoder) (fuel : nat) (A : ints).

(** mwpm_decoding.cc:196-246 *)
Definition decode_events_h (r : running) (evs : list nat) : outcome (running * (list bool * Z)) :=
  if 64 <? d_nobs d then
    match d_search d with
    | None => UB
    | Some sg =>
        x <-- decode_many_observables_h (adj (d_graph d)) (sadj sg) fuel A (d_neg d) (neg_obss (d_graph d)) (r_state r) (r_heap r) (r_search r) (r_sheap r) evs ;;
        let '(s', h', q', hq', (o, w)) := x in Ok (mkRun s' h' q' hq' (r_marks r), (bits (d_nobs d) o, w))
    end
  else
    x <-- decode_h (adj (d_graph d)) fuel A (d_neg d) (r_state r) (r_heap r) evs ;;
    let '(s', h', (o, w, _)) := x in Ok (mkRun s' h' (r_search r) (r_sheap r) (r_marks r), (bits (d_nobs d) o, w)).

(** user_graph.pybind.cc:179-199 *)
Definition py_decode_h (r : running) (evs : list nat) : outcome (running * (list bool * R)) :=
  x <-- decode_events_h r evs ;;
  let '(r', (o, w)) := x in Ok (r', (o, reported (d_norm d) w)).

(** user_graph.pybind.cc:200-219 without correlations *)
Definition py_decode_to_edges_h (r : running) (evs : list nat) : outcome (running * list (nat * option nat)) :=
  match d_search d with
  | None => Throw
  | Some sg =>
      x <-- decode_to_edges_h (adj (d_graph d)) (sadj sg) fuel A (d_neg d) (sneg sg) (r_state r) (r_heap r) (r_search r) (r_sheap r) (r_marks r) evs ;;
      let '(s', h', q', hq', M', out) := x in Ok (mkRun s' h' q' hq' M', out)
  end.

(** Calls made one after another on the same decoder. *)
Inductive call := Decode (evs : list nat) | DecodeToEdges (evs : list nat).
Inductive reply := Answer (observables : list bool) (weight : R) | Edges (l : list (nat * option nat)).
Fixpoint calls_h (r : running) (cs : list call) : outcome (running * list reply) :=
  match cs with
  | [] => Ok (r, [])
  | Decode evs :: cs' =>
      x <-- py_decode_h r evs ;;
      y <-- calls_h (fst x) cs' ;;
      Ok (fst y, Answer (fst (snd x)) (snd (snd x)) :: snd y)
  | DecodeToEdges evs :: cs' =>
      x <-- py_decode_to_edges_h r evs ;;
      y <-- calls_h (fst x) cs' ;;
      Ok (fst y, Edges (snd x) :: snd y)
  end.
End Decode.

(** mwpm.cc:24-29, search_flooder.cc:19-23: a new decoder. *)
Definition run_init (d : decoder) : running :=
  mkRun init_state empty_heap search_init empty_heap (match d_search d with Some sg => marks_of sg | None => fun _ _ => 0%N end).
