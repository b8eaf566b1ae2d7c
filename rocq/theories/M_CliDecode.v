(** Model of the command line programs from the detector error model to the report: driver/namespaced_main.cc:30-172 (the loops are
    those of M_Cli.v), driver/mwpm_decoding.cc:72-80 (detector_error_model_to_mwpm) and 168-194
    (decode_detection_events_for_up_to_64_observables).

    The readers, writers and arguments of the programs are as in M_Cli.v.  The detector error model comes as in M_Dem.v: with its repeat
    blocks and shifts undone, and its numbers of detectors and observables ([nd], [no]).  The decoder is that of M_CorrDecode.v, on radix heaps
    with 32-bit cyclic times.  Weights are real numbers. *)
From Coq Require Import Reals ZArith NArith List Bool.
From Verif Require Import M_Base M_Core M_CoreHeap M_Build M_Pipeline M_PipelineHeap M_Dem S_Dem M_CorrDecode M_Cli.
Import ListNotations.
Local Open Scope outcome_scope.

(** mwpm_decoding.cc:72-80, called at namespaced_main.cc:61-66 and 131-136: the search graph is included if correlations are enabled *)
Definition cli_decoder (correlations : bool) (nd no : nat) (dem : list (instruction RD)) : outcome cdecoder :=
  G <-- load_model correlations nd no dem ;;
  build_correlated G correlations.

Section Cli.
Variables (fuel : nat) (A : ints).

(** mwpm_decoding.cc:181-187: the mask and the weight of a matching, whatever the number of observables *)
Definition mask_pass_h (evs : list nat) (d : decoder) (r : running) : outcome (running * (N * Z)) :=
  x <-- decode_h (adj (d_graph d)) fuel A (d_neg d) (r_state r) (r_heap r) evs ;;
  let '(s', h', (o, w, _)) := x in Ok (mkRun s' h' (r_search r) (r_sheap r) (r_marks r), (o, w)).
(** mwpm_decoding.cc:168-194 *)
Definition decode64_h (correlations : bool) (D : cdecoder) (x : crunning) (evs : list nat) : outcome (crunning * (Z * Z)) :=
  y <-- (if correlations then two_pass_h fuel A D x evs (mask_pass_h evs)
         else y <-- mask_pass_h evs (current D x) (cr_run x) ;; Ok (with_run x (fst y), snd y)) ;;
  let '(x', (o, w)) := y in Ok (x', (Z.of_N o, w)).

(** namespaced_main.cc:52-79: the records that are written *)
Definition cli_predict (correlations : bool) (nd no : nat) (dem : list (instruction RD)) (records : list shot) : outcome (list (list bool)) :=
  D <-- cli_decoder correlations nd no dem ;;
  y <-- main_predict crunning (correlated_into fuel A correlations D) no (d_nobs (cd_dec D)) (fresh D) records ;;
  Ok (snd y).
(** namespaced_main.cc:117-161: the number of mistakes and the number of shots that are reported *)
Definition cli_count_mistakes (correlations : bool) (nd no : nat) (dem : list (instruction RD)) (obs_records : option (list Z)) (records : list shot) : outcome (Z * Z) :=
  D <-- cli_decoder correlations nd no dem ;;
  y <-- main_count_mistakes crunning (decode64_h correlations D) (fresh D) obs_records records ;;
  Ok (snd y).
End Cli.
