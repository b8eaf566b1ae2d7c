(** Model of the Matching object as its user sees it: a graph that can be changed, and the decoder made from it, kept until the
    graph changes (src/pymatching/matching.py, driver/user_graph.{h,cc}, driver/user_graph.pybind.cc, driver/mwpm_decoding.cc).

    It puts together M_UserGraph (changes), M_Bits (arrays of syndromes and predictions) and M_PipelineHeap (the decoder on its radix heaps).
    Not modelled: enable_correlations; arrays are those after the conversion to uint8 (M_Cast.v).  The object can be used after an exception,
    with what the exception left behind (M_Failing.v). *)
From Coq Require Import Reals ZArith NArith List Bool Arith.
From Verif Require Import M_Base M_Bits M_Core M_Session M_CoreHeap M_Failing M_Build M_Flip M_Search M_ToEdges M_SearchHeap M_Pipeline M_PipelineHeap M_Merge M_UserGraph.
Import ListNotations.
Local Open Scope outcome_scope.
Local Open Scope nat_scope.

(** matching.py:141 (self._matching_graph), user_graph.h:61-137: the graph and _mwpm; None stands for the decoder of no graph that
    belongs to a new UserGraph. *)
Record matching := mkMatching { m_graph : ugraph RN; m_mwpm : option (decoder * running) }.

(** mwpm_decoding.cc:57-58 and 222-227: observables are exclusive-ored into a buffer, which may be longer than the decoder's number
    of observables. *)
Fixpoint xor_bits (o : list bool) (buf : list Z) : outcome (list Z) :=
  match o, buf with
  | [], _ => Ok buf
  | _ :: _, [] => UB
  | b :: o', x :: buf' => bindO (xor_bits o' buf') (fun r => Ok (u8 (Z.lxor x (Z.b2z b)) :: r))
  end.

(** A search graph that was not built is one without nodes. *)
Definition with_search (d : decoder) : decoder :=
  mkDec (d_nobs d) (d_graph d) (Some (match d_search d with Some sg => sg | None => mkSG [] [] [] end)) (d_flags d) (d_norm d).
Definition search_size (d : decoder) : nat := match d_search d with Some sg => length (sadj sg) | None => 0 end.

Section Matching.
Variables (fuel : nat) (A : ints).

(** user_graph.cc:217-226: update_mwpm and get_mwpm *)
Definition make (g : ugraph RN) (ensure_search_graph : bool) : outcome (matching * decoder * running) :=
  d <-- build_decoder g ensure_search_graph ;;
  Ok (mkMatching (clear_needs g) (Some (d, run_init d)), d, run_init d).
Definition get_decoder (m : matching) : outcome (matching * decoder * running) :=
  match needs (m_graph m), m_mwpm m with
  | false, Some (d, r) => Ok (m, d, r)
  | _, _ => make (m_graph m) false
  end.
(** user_graph.cc:339-347 get_mwpm_with_search_graph *)
Definition get_decoder_with_search (m : matching) : outcome (matching * decoder * running) :=
  match needs (m_graph m), m_mwpm m with
  | false, Some (d, r) => if length (adj (d_graph d)) =? search_size d then Ok (m, d, r) else make (m_graph m) true
  | _, _ => make (m_graph m) true
  end.
Definition keep (m : matching) (d : decoder) (r : running) : matching := mkMatching (m_graph m) (Some (d, r)).

(** mwpm_decoding.cc:196-246 with the buffer, and the division of user_graph.pybind.cc:188 and 331 *)
Definition decode_into (d : decoder) (r : running) (evs : list nat) (buf : list Z) : outcome (running * list Z * R) :=
  x <-- py_decode_h d fuel A r evs ;;
  row <-- xor_bits (fst (snd x)) buf ;;
  Ok (fst x, row, snd (snd x)).

(** mwpm_decoding.cc:82-146, mwpm.cc:471-479: what an exception in process_timeline_until_completion leaves behind; Mwpm::reset resets
    the nodes of the search graph too.  Nothing that comes after process_timeline_until_completion throws. *)
Definition after_throw (d : decoder) (r : running) (evs : list nat) : outcome running :=
  x <-- left_h (adj (d_graph d)) fuel A (d_neg d) (r_state r) (r_heap r) evs ;;
  let '(s', h', was_reset) := x in
  Ok (mkRun s' h' (if was_reset : bool then fold_left sreset_node (seq 0 (search_size d)) (r_search r) else r_search r) (r_sheap r) (r_marks r)).
(** user_graph.pybind.cc:295-334: the same for a batch, of which one shot throws; those before it have been decoded. *)
Fixpoint batch_left (d : decoder) (num_obs : nat) (packed_shots packed_predictions : bool) (r : running) (shots : list (list Z)) : outcome running :=
  match shots with
  | [] => UB
  | shot :: shots' =>
      match decode_one running (decode_into d) num_obs packed_shots packed_predictions r shot with
      | Ok (r', _, _) => batch_left d num_obs packed_shots packed_predictions r' shots'
      | Throw => after_throw d r (if packed_shots then packed_events 0 shot else nonzero_positions 0 shot)
      | UB => UB
      | Fuel => Fuel
      end
  end.
(** The reply to a call, or the exception and what it left behind. *)
Definition unless_thrown {X Y} (a : outcome X) (go : X -> outcome Y) (thrown : outcome Y) : outcome Y :=
  match a with Ok x => go x | Throw => thrown | UB => UB | Fuel => Fuel end.

(** mwpm_decoding.cc:250-257 decode_detection_events_to_match_edges; None: the exception for negative weights *)
Definition match_edges_h (d : decoder) (r : running) (evs : list nat) : outcome (option (running * list cedge)) :=
  if negb (neg_sum (d_neg d) =? 0)%Z then Ok None else
  x <-- decode_h (adj (d_graph d)) fuel A (d_neg d) (r_state r) (r_heap r) evs ;;
  let '(s', h', (_, _, l)) := x in Ok (Some (mkRun s' h' (r_search r) (r_sheap r) (r_marks r), l)).
(** user_graph.pybind.cc:232-241: indices of the two ends, -1 (here None) for the boundary; e.loc_from is never null *)
Fixpoint pairs_of (l : list cedge) : outcome (list (nat * option nat)) :=
  match l with
  | [] => Ok []
  | e :: l' => match efrom e with None => UB | Some a => r <-- pairs_of l' ;; Ok ((a, eto e) :: r) end
  end.
(** user_graph.pybind.cc:349-360: the dictionary; an association list, the latest entry first *)
Definition dict := list (nat * option nat).
Definition dict_set (t : dict) (k : nat) (v : option nat) : dict := (k, v) :: filter (fun p => negb (fst p =? k)) t.
Definition dict_get (t : dict) (k : nat) : option (option nat) := option_map snd (find (fun p => fst p =? k) t).
Definition dict_of (l : list (nat * option nat)) : dict :=
  fold_left (fun t p => match snd p with Some b => dict_set (dict_set t (fst p) (Some b)) b (Some (fst p)) | None => dict_set t (fst p) None end) l [].

(** The calls a user makes. Arrays as in M_Bits. *)
Inductive mcall :=
| Modify (x : op RN)                                     (* add_edge, add_boundary_edge, set_boundary_nodes, ensure_num_fault_ids *)
| AskDecode (z : syndrome)                               (* matching.py:218-346 *)
| AskBatch (packed_shots packed_predictions : bool) (z : syndrome)  (* matching.py:348-460 *)
| AskEdges (z : syndrome)                                (* matching.py:462-524 *)
| AskPairs (z : syndrome)                                (* matching.py:526-575 *)
| AskDict (z : syndrome).                                (* matching.py:577-621 *)
Inductive mreply :=
| Done
| Raised                                                 (* an exception *)
| Row (predictions : list Z) (weight : R)
| Rows (l : list (list Z * R))
| EdgeList (l : list (nat * option nat))
| PairList (l : list (nat * option nat))
| PairDict (t : dict).

(** matching.py:202-216 *)
Definition events_in (g : ugraph RN) (z : syndrome) : outcome (list nat) :=
  syndrome_to_detection_events (num_detectors g) (length (bnodes g)) z.
(** user_graph.pybind.cc:256-275: the checks of decode_batch *)
Definition batch_shape_ok (g : ugraph RN) (packed_shots : bool) (ncols : nat) : bool :=
  if packed_shots then (packed_len (num_detectors g) <=? ncols) && (ncols <=? packed_len (num_nodes g))
  else (num_detectors g <=? ncols) && (ncols <=? num_nodes g).
(** user_graph.pybind.cc:91-152: whether the call raised an exception *)
Definition raises (g : ugraph RN) (x : op RN) : bool :=
  match x with OpAdd u v o w p s => snd (py_add g u v o w p s) | _ => false end.

(** What a call that needs the matched pairs does once the events are known. *)
Definition pairs_call (m : matching) (evs : list nat) (give : list (nat * option nat) -> mreply) : outcome (matching * mreply) :=
  unless_thrown (get_decoder m) (fun x =>
    let '(m', d, r) := x in
    unless_thrown (match_edges_h d r evs)
      (fun y => match y with
                | None => Ok (m', Raised)
                | Some (r', l) => p <-- pairs_of l ;; Ok (keep m' d r', give p)
                end)
      (r' <-- after_throw d r evs ;; Ok (keep m' d r', Raised)))
    (Ok (m, Raised)).

(** If making the decoder throws, _mwpm and the mark that it has to be made again are as before (user_graph.cc:217-220). *)
Definition mstep (m : matching) (c : mcall) : outcome (matching * mreply) :=
  match c with
  | Modify x => Ok (mkMatching (apply_op (m_graph m) x) (m_mwpm m), if raises (m_graph m) x then Raised else Done)
  | AskDecode z =>
      match events_in (m_graph m) z with
      | Ok evs =>
          unless_thrown (get_decoder m) (fun x =>
            let '(m', d, r) := x in
            unless_thrown (decode_into d r evs (repeat 0%Z (nobs (m_graph m))))
              (fun y => let '(r', row, w) := y in Ok (keep m' d r', Row row w))
              (r' <-- after_throw d r evs ;; Ok (keep m' d r', Raised)))
            (Ok (m, Raised))
      | _ => Ok (m, Raised)
      end
  | AskBatch packed_shots packed_predictions z =>
      match z with
      | Syn2 ncols shots =>
          if batch_shape_ok (m_graph m) packed_shots ncols then
            unless_thrown (get_decoder m) (fun x =>
              let '(m', d, r) := x in
              unless_thrown (decode_batch running (decode_into d) (nobs (m_graph m)) packed_shots packed_predictions r shots)
                (fun y => Ok (keep m' d (fst y), Rows (snd y)))
                (r' <-- batch_left d (nobs (m_graph m)) packed_shots packed_predictions r shots ;; Ok (keep m' d r', Raised)))
              (Ok (m, Raised))
          else Ok (m, Raised)
      | _ => Ok (m, Raised)
      end
  | AskEdges z =>
      match events_in (m_graph m) z with
      | Ok evs =>
          unless_thrown (get_decoder_with_search m) (fun x =>
            let '(m', d, r) := x in
            unless_thrown (py_decode_to_edges_h (with_search d) fuel A r evs)
              (fun y => Ok (keep m' d (fst y), EdgeList (snd y)))
              (if length (adj (d_graph d)) =? search_size d then r' <-- after_throw d r evs ;; Ok (keep m' d r', Raised) else Ok (m', Raised)))
            (Ok (m, Raised))
      | _ => Ok (m, Raised)
      end
  | AskPairs z =>
      match events_in (m_graph m) z with
      | Ok evs => pairs_call m evs PairList
      | _ => Ok (m, Raised)
      end
  | AskDict z =>
      match events_in (m_graph m) z with
      | Ok evs => pairs_call m evs (fun p => PairDict (dict_of p))
      | _ => Ok (m, Raised)
      end
  end.

Fixpoint mrun (m : matching) (cs : list mcall) : outcome (matching * list mreply) :=
  match cs with
  | [] => Ok (m, [])
  | c :: cs' =>
      x <-- mstep m c ;;
      y <-- mrun (fst x) cs' ;;
      Ok (fst y, snd x :: snd y)
  end.
End Matching.

(** A Matching object with a graph that was just made. *)
Definition new_matching (g : ugraph RN) : matching := mkMatching g None.
