(** Model of a Matching object whose edges have implied weights for other edges, as loaded from a detector error model with
    enable_correlations=True, and of decode, decode_batch and decode_to_edges_array on it, each with and without
    enable_correlations: driver/user_graph.h:138-201, driver/user_graph.cc:217-347 and 405-467, driver/mwpm_decoding.cc:196-248 and
    328-340, driver/user_graph.pybind.cc:179-219 and 243-339, matching.py:218-524.

    It puts together M_Dem (loading), M_Reweight and M_Correlated (rules, reweighting), M_Bits (arrays) and M_PipelineHeap (decoding on
    radix heaps with 32-bit cyclic times).  Weights are real numbers.  The graph of such an object is not changed after loading.
    A call during which an exception is thrown replies [Raised], and the object goes on with what the exception left behind. *)
From Coq Require Import Reals ZArith NArith List Bool Arith.
From Verif Require Import M_Base M_Bits M_Core M_CoreHeap M_Build M_Flip M_Search M_ToEdges M_SearchHeap M_Reweight M_Correlated M_Double M_Discretise M_Pipeline M_PipelineHeap
  M_Merge M_UserGraph M_Matching M_Dem S_Dem.
Import ListNotations.
Local Open Scope outcome_scope.
Local Open Scope nat_scope.

(** user_graph.h:35-46 and 61-66: the graph; for each edge its implied_weights_for_other_edges; loaded_from_dem_without_correlations *)
Record cgraph := mkCG { c_graph : ugraph RN; c_rules : list (list (key * R)); c_plain : bool }.

(** user_graph.cc:493-517 detector_error_model_to_user_graph (loaders of M_Dem.v) *)
Definition load_model (enable_correlations : bool) (num_detectors num_observables : nat) (dem : list (instruction RD)) : outcome cgraph :=
  if enable_correlations then
    x <-- load_dem_correlated RD num_detectors num_observables dem ;;
    let '(g, _, rules) := x in Ok (mkCG g rules false)
  else
    let g := load_dem RD num_detectors num_observables dem in Ok (mkCG g (map (fun _ => []) (M_UserGraph.edges g)) true).

(** user_graph.cc:405-415 and 445-458: the edge that a rule names exists and its weight keeps its sign *)
Definition rule_ok (g : ugraph RN) (r : key * R) : bool :=
  match get_edge_data g (fst (fst r)) (snd (fst r)) with
  | Some (_, w, _) => Rleb 0 (w * snd r)
  | None => false
  end.
(** user_graph.cc:422-467 get_edge_weight_normalising_constant, the checks of the rules being made first: which exception is raised
    is not modelled. *)
Definition correlated_constant (G : cgraph) : outcome R :=
  if forallb (forallb (rule_ok (c_graph G))) (c_rules G)
  then normalising_constant (map M_UserGraph.weight (M_UserGraph.edges (c_graph G)) ++ map snd (concat (c_rules G)))
  else Throw.

(** graph.cc:175-176 with the constant 2c passed to convert_implied_weights *)
Definition half_rule (c : R) (r : key * R) : urule := (fst (fst r), snd (fst r), round (fl (snd r * (2 * c / 2)))).
(** user_graph.h:144-160: edges with their rules *)
Definition ruled_edges (c : R) (G : cgraph) : list (sedge * list urule) :=
  map (fun x => (discretised_edge c (fst x), map (half_rule c) (snd x))) (combine (M_UserGraph.edges (c_graph G)) (c_rules G)).
(** user_graph.h:138-201: as M_Build.convert_all, the rules going with the edges; those of the boundary edge that is kept are kept *)
Definition rules_at : Type := nat -> option (Z * list nat * list urule).
Definition keep_best_rules (t : rules_at) (u : nat) (w : Z) (obs : list nat) (rs : list urule) : rules_at :=
  match t u with
  | None => upd t u (Some (w, obs, rs))
  | Some (w0, _, _) => if (w <? w0)%Z then upd t u (Some (w, obs, rs)) else t
  end.
Fixpoint convert_ruled (B : nat -> bool) (es : list (sedge * list urule)) (t : rules_at) : list (sedge * list urule) * rules_at :=
  match es with
  | [] => ([], t)
  | (e, rs) :: es' =>
      match convert_edge B e with
      | Edge e' => let (l, t') := convert_ruled B es' t in ((e', rs) :: l, t')
      | BoundaryEdge u w obs => convert_ruled B es' (keep_best_rules t u w obs rs)
      | Dropped => convert_ruled B es' t
      end
  end.
Definition boundary_ruled (n : nat) (t : rules_at) : list (sedge * list urule) :=
  flat_map (fun u => match t u with Some (w, obs, rs) => [((u, None, w, obs), rs)] | None => [] end) (seq 0 n).
Definition convert_all_ruled (n : nat) (B : nat -> bool) (es : list (sedge * list urule)) : list (sedge * list urule) :=
  let (l, t) := convert_ruled B es (fun _ => None) in l ++ boundary_ruled n t.

(** The parts of Mwpm that do not change while decoding, and the weights and previous_weights of both graphs. *)
Record cdecoder := mkCD {
  cd_dec : decoder;                         (* with the weights as loaded *)
  cd_rules : list (list (list rule));       (* neighbor_implied_weights of the matching graph *)
  cd_search_rules : list (list (list rule)); (* ... of the search graph *)
  cd_plain : bool }.                        (* flooder.graph.loaded_from_dem_without_correlations *)
Record crunning := mkCR { cr_graph : dgraph; cr_search : dgraph; cr_run : running }.

(** user_graph.cc:269-337: to_matching_graph, to_search_graph, to_mwpm, with the conversion of the rules *)
Definition build_correlated (G : cgraph) (ensure_search_graph : bool) : outcome cdecoder :=
  let g := c_graph G in
  if negb (ids_below (M_UserGraph.nobs g) (M_UserGraph.edges g)) then UB else
  c <-- correlated_constant G ;;
  let n := num_nodes g in
  let R := convert_all_ruled n (fun v => is_boundary_node g (Some v)) (ruled_edges c G) in
  mg <-- build (M_UserGraph.nobs g) n (map fst R) ;;
  T <-- convert_implied_weights (adj mg) (rules_table n R) ;;
  if (64 <? M_UserGraph.nobs g) || ensure_search_graph then
    sg <-- sbuild n (map fst R) ;;
    TS <-- convert_implied_weights (sadj sg) (rules_table n R) ;;
    Ok (mkCD (mkDec (M_UserGraph.nobs g) mg (Some sg) (boundary_flags g) (2 * c)%R) T TS (c_plain G))
  else Ok (mkCD (mkDec (M_UserGraph.nobs g) mg None (boundary_flags g) (2 * c)%R) T [] (c_plain G)).

Definition search_adj (d : decoder) : M_Core.graph := match d_search d with Some sg => sadj sg | None => [] end.
Definition fresh (D : cdecoder) : crunning := mkCR (adj (d_graph (cd_dec D)), []) (search_adj (cd_dec D), []) (run_init (cd_dec D)).
(** The decoder with the weights its graphs have now. *)
Definition current (D : cdecoder) (x : crunning) : decoder :=
  let d := cd_dec D in
  mkDec (d_nobs d) (M_Build.mkG (fst (cr_graph x)) (neg_dets (d_graph d)) (neg_obss (d_graph d)) (neg_total (d_graph d)))
    (match d_search d with Some sg => Some (mkSG (fst (cr_search x)) (smark sg) (sneg sg)) | None => None end) (d_flags d) (d_norm d).
Definition with_run (x : crunning) (r : running) : crunning := mkCR (cr_graph x) (cr_search x) r.

Section Correlated.
Variables (fuel : nat) (A : ints).

(** mwpm_decoding.cc:203-212 and 243-247 (and 328-340): decode to edges, reweight both graphs, decode again, undo; [second] is the second
    decoding. *)
Definition two_pass_h {X} (D : cdecoder) (x : crunning) (evs : list nat) (second : decoder -> running -> outcome (running * X)) : outcome (crunning * X) :=
  y <-- py_decode_to_edges_h (with_search (current D x)) fuel A (cr_run x) evs ;;
  let (r1, edges) := y in
  let (g1, o) := reweight_graph (cd_plain D) (cd_rules D) (flatten edges) (cr_graph x) in
  _ <-- o ;;
  let (s1, o1) := reweight_graph false (cd_search_rules D) (flatten edges) (cr_search x) in
  _ <-- o1 ;;
  z <-- second (current D (mkCR g1 s1 r1)) r1 ;;
  Ok (mkCR (undo_graph g1) (undo_graph s1) (fst z), snd z).

(** mwpm_decoding.cc:196-248 and user_graph.pybind.cc:188 *)
Definition correlated_decode_h (correlations : bool) (D : cdecoder) (x : crunning) (evs : list nat) : outcome (crunning * (list bool * R)) :=
  if correlations then two_pass_h D x evs (fun d r => py_decode_h d fuel A r evs)
  else y <-- py_decode_h (current D x) fuel A (cr_run x) evs ;; Ok (with_run x (fst y), snd y).
(** user_graph.pybind.cc:200-219 *)
Definition correlated_to_edges_h (correlations : bool) (D : cdecoder) (x : crunning) (evs : list nat) : outcome (crunning * list (nat * option nat)) :=
  if correlations then two_pass_h D x evs (fun d r => py_decode_to_edges_h (with_search d) fuel A r evs)
  else y <-- py_decode_to_edges_h (with_search (current D x)) fuel A (cr_run x) evs ;; Ok (with_run x (fst y), snd y).

(** What an exception leaves behind.  None of these functions has a handler: weights that were changed before it stay changed.  The first
    pass throws before it has changed any; it needs a search graph of the same size (mwpm_decoding.cc:270-273), and then throws only in
    process_timeline_until_completion, as in M_Matching.after_throw.  reweight_for_edges throws if the model was loaded without correlations. *)
Definition first_left (D : cdecoder) (x : crunning) (evs : list nat) : outcome crunning :=
  if length (adj (d_graph (cd_dec D))) =? search_size (cd_dec D)
  then r' <-- after_throw fuel A (current D x) (cr_run x) evs ;; Ok (with_run x r')
  else Ok x.
Definition two_pass_left (D : cdecoder) (x : crunning) (evs : list nat) : outcome crunning :=
  match py_decode_to_edges_h (with_search (current D x)) fuel A (cr_run x) evs with
  | Throw => first_left D x evs
  | Ok (r1, edges) =>
      let (g1, o) := reweight_graph (cd_plain D) (cd_rules D) (flatten edges) (cr_graph x) in
      match o with
      | Throw => Ok (mkCR g1 (cr_search x) r1)
      | Ok _ =>
          let (s1, o1) := reweight_graph false (cd_search_rules D) (flatten edges) (cr_search x) in
          match o1 with
          | Throw => Ok (mkCR g1 s1 r1)
          | Ok _ => first_left D (mkCR g1 s1 r1) evs
          | UB => UB
          | Fuel => Fuel
          end
      | UB => UB
      | Fuel => Fuel
      end
  | UB => UB
  | Fuel => Fuel
  end.
Definition decode_left (correlations : bool) (D : cdecoder) (x : crunning) (evs : list nat) : outcome crunning :=
  if correlations then two_pass_left D x evs else r' <-- after_throw fuel A (current D x) (cr_run x) evs ;; Ok (with_run x r').
Definition edges_left (correlations : bool) (D : cdecoder) (x : crunning) (evs : list nat) : outcome crunning :=
  if correlations then two_pass_left D x evs else first_left D x evs.

(** The object: the graph, whether the decoder has to be made again, and the decoder. *)
Record cmatching := mkCM { cm_graph : cgraph; cm_needs : bool; cm_mwpm : option (cdecoder * crunning) }.
(** user_graph.cc:217-226 and 339-347 *)
Definition cmake (G : cgraph) (ensure_search_graph : bool) : outcome (cmatching * cdecoder * crunning) :=
  D <-- build_correlated G ensure_search_graph ;;
  Ok (mkCM G false (Some (D, fresh D)), D, fresh D).
Definition cget (m : cmatching) : outcome (cmatching * cdecoder * crunning) :=
  match cm_needs m, cm_mwpm m with
  | false, Some (D, x) => Ok (m, D, x)
  | _, _ => cmake (cm_graph m) false
  end.
Definition cget_with_search (m : cmatching) : outcome (cmatching * cdecoder * crunning) :=
  match cm_needs m, cm_mwpm m with
  | false, Some (D, x) => if length (adj (d_graph (cd_dec D))) =? search_size (cd_dec D) then Ok (m, D, x) else cmake (cm_graph m) true
  | _, _ => cmake (cm_graph m) true
  end.
(** user_graph.pybind.cc:184 and 286 *)
Definition cget_for (correlations : bool) (m : cmatching) := if correlations then cget_with_search m else cget m.
Definition ckeep (m : cmatching) (D : cdecoder) (x : crunning) : cmatching := mkCM (cm_graph m) (cm_needs m) (Some (D, x)).

(** The exclusive or into the buffer, as M_Matching.decode_into. *)
Definition correlated_into (correlations : bool) (D : cdecoder) (x : crunning) (evs : list nat) (buf : list Z) : outcome (crunning * list Z * R) :=
  y <-- correlated_decode_h correlations D x evs ;;
  row <-- xor_bits (fst (snd y)) buf ;;
  Ok (fst y, row, snd (snd y)).

(** user_graph.pybind.cc:295-334: what is left of a batch of which one shot throws; those before it have been decoded. *)
Fixpoint correlated_batch_left (correlations : bool) (D : cdecoder) (num_obs : nat) (packed_shots packed_predictions : bool) (x : crunning) (shots : list (list Z)) : outcome crunning :=
  match shots with
  | [] => UB
  | shot :: shots' =>
      match decode_one crunning (correlated_into correlations D) num_obs packed_shots packed_predictions x shot with
      | Ok (x', _, _) => correlated_batch_left correlations D num_obs packed_shots packed_predictions x' shots'
      | Throw => decode_left correlations D x (if packed_shots then packed_events 0 shot else nonzero_positions 0 shot)
      | UB => UB
      | Fuel => Fuel
      end
  end.

Inductive ccall :=
| DecodeOne (correlations : bool) (z : syndrome)                                            (* matching.py:218-346 *)
| DecodeBatch (correlations packed_shots packed_predictions : bool) (z : syndrome)          (* matching.py:348-460 *)
| DecodeEdges (correlations : bool) (z : syndrome).                                         (* matching.py:462-524 *)

(** If making the decoder throws, the object is as before (user_graph.cc:217-220). *)
Definition corr_step (m : cmatching) (c : ccall) : outcome (cmatching * mreply) :=
  let g := c_graph (cm_graph m) in
  match c with
  | DecodeOne correlations z =>
      match events_in g z with
      | Ok evs =>
          unless_thrown (cget_for correlations m) (fun x =>
            let '(m', D, r) := x in
            unless_thrown (correlated_into correlations D r evs (repeat 0%Z (M_UserGraph.nobs g)))
              (fun y => let '(r', row, w) := y in Ok (ckeep m' D r', Row row w))
              (r' <-- decode_left correlations D r evs ;; Ok (ckeep m' D r', Raised)))
            (Ok (m, Raised))
      | _ => Ok (m, Raised)
      end
  | DecodeBatch correlations packed_shots packed_predictions z =>
      match z with
      | Syn2 ncols shots =>
          if batch_shape_ok g packed_shots ncols then
            unless_thrown (cget_for correlations m) (fun x =>
              let '(m', D, r) := x in
              unless_thrown (decode_batch crunning (correlated_into correlations D) (M_UserGraph.nobs g) packed_shots packed_predictions r shots)
                (fun y => Ok (ckeep m' D (fst y), Rows (snd y)))
                (r' <-- correlated_batch_left correlations D (M_UserGraph.nobs g) packed_shots packed_predictions r shots ;; Ok (ckeep m' D r', Raised)))
              (Ok (m, Raised))
          else Ok (m, Raised)
      | _ => Ok (m, Raised)
      end
  | DecodeEdges correlations z =>
      match events_in g z with
      | Ok evs =>
          unless_thrown (cget_with_search m) (fun x =>
            let '(m', D, r) := x in
            unless_thrown (correlated_to_edges_h correlations D r evs)
              (fun y => Ok (ckeep m' D (fst y), EdgeList (snd y)))
              (r' <-- edges_left correlations D r evs ;; Ok (ckeep m' D r', Raised)))
            (Ok (m, Raised))
      | _ => Ok (m, Raised)
      end
  end.
Fixpoint corr_run (m : cmatching) (cs : list ccall) : outcome (cmatching * list mreply) :=
  match cs with
  | [] => Ok (m, [])
  | c :: cs' =>
      x <-- corr_step m c ;;
      y <-- corr_run (fst x) cs' ;;
      Ok (fst y, snd x :: snd y)
  end.
End Correlated.

(** An object that was just loaded. *)
Definition new_cmatching (G : cgraph) : cmatching := mkCM G true None.
