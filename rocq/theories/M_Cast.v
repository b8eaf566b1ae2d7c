(** Model of the conversion of arrays of integers to arrays of uint8, which comes before everything else that is done with an array of detection events.

    matching.py:204 np.array(z, dtype=np.uint8) for decode, decode_to_edges_array, decode_to_matched_dets_array and decode_to_matched_dets_dict;
    user_graph.pybind.cc:250 py::array_t<uint8_t> for decode_batch, which pybind converts in the same way (forcecast, the default).
    Modelled for numpy arrays of integers (or bools), which numpy converts modulo 256.  Simplified: lists of Python ints are not modelled (depending on the version of numpy, ints outside
    0..255 raise an exception or are converted modulo 256), nor are floating-point numbers (which lose their fraction, so that 0.5 is no event). *)
From Coq Require Import Reals ZArith List.
From Verif Require Import M_Base M_Bits M_Core M_Merge M_UserGraph M_Matching.
Import ListNotations.

(** matching.py:204, user_graph.pybind.cc:250 *)
Definition as_uint8 (z : syndrome) : syndrome :=
  match z with Syn1 l => Syn1 (map u8 l) | Syn2 ncols rows => Syn2 ncols (map (map u8) rows) | SynOther => SynOther end.
(** matching.py:218-621: the methods that take an array *)
Definition cast_call (c : mcall) : mcall :=
  match c with
  | Modify x => Modify x
  | AskDecode z => AskDecode (as_uint8 z)
  | AskBatch ps pp z => AskBatch ps pp (as_uint8 z)
  | AskEdges z => AskEdges (as_uint8 z)
  | AskPairs z => AskPairs (as_uint8 z)
  | AskDict z => AskDict (as_uint8 z)
  end.
(** A series of calls, each with its conversion. *)
Definition int_run (fuel : nat) (A : ints) (m : matching) (cs : list mcall) : outcome (matching * list mreply) := mrun fuel A m (map cast_call cs).
