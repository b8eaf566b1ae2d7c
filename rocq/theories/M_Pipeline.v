(** Model of the decoder that belongs to a user graph: driver/user_graph.h:138-161, driver/user_graph.cc:269-337 (to_matching_graph,
    to_search_graph, to_mwpm), driver/mwpm_decoding.cc:196-246 (decode_detection_events without correlations) and
    driver/user_graph.pybind.cc:179-219 (decode, decode_to_edges_array).

    It puts together the parts modelled elsewhere: M_UserGraph (calls), M_Discretise (weights), M_Build (conversion and matching
    graph), M_ToEdges (search graph), M_Core (matching).  Weights are doubles as in M_Discretise.v.  Graphs made by calls
    have no implied weights. *)
From Coq Require Import Reals ZArith NArith List Bool Arith.
From Verif Require Import M_Base M_Core M_UserGraph M_Merge M_Double M_Discretise M_Build M_Flip M_Search M_ToEdges.
Import ListNotations.
Local Open Scope outcome_scope.
Local Open Scope nat_scope.

(** user_graph.h:146-149 *)
Definition discretised_edge (c : R) (e : uedge RN) : sedge :=
  (M_UserGraph.node1 e, M_UserGraph.node2 e, discretise c (M_UserGraph.weight e), M_UserGraph.obs e).

(** user_graph.cc:288-293 *)
Definition boundary_flags (g : ugraph RN) : list bool :=
  match M_UserGraph.bnodes g with
  | [] => []
  | b => map (fun v => existsb (Nat.eqb v) b) (seq 0 (num_nodes g))
  end.

(** The parts of Mwpm that do not change while decoding (without correlations). *)
Record decoder := mkDec {
  d_nobs : nat;                 (* flooder.graph.num_observables *)
  d_graph : mgraph;             (* flooder.graph *)
  d_search : option sgraph;     (* search_flooder.graph, if included *)
  d_flags : list bool;          (* flooder.graph.is_user_graph_boundary_node *)
  d_norm : R }.                 (* flooder.graph.normalising_constant *)

(** A fault id of 64 or more is shifted by more than the width of the mask (graph.cc:57-61, see C23), and with more than 64
    observables an id not below their number is written outside of the array (mwpm.cc:454-468).  Simplified: every id that is
    not below num_fault_ids counts as undefined behaviour, already when the decoder is made. *)
Definition ids_below (k : nat) (E : list (uedge RN)) : bool := forallb (fun e => forallb (fun o => o <? k) (M_UserGraph.obs e)) E.

(** user_graph.cc:269-297, 299-321 and 323-337: to_mwpm *)
Definition build_decoder (g : ugraph RN) (ensure_search_graph : bool) : outcome decoder :=
  if negb (ids_below (M_UserGraph.nobs g) (M_UserGraph.edges g)) then UB else
  c <-- normalising_constant (map M_UserGraph.weight (M_UserGraph.edges g)) ;;
  let n := num_nodes g in
  let B := fun v => is_boundary_node g (Some v) in
  let E := map (discretised_edge c) (M_UserGraph.edges g) in
  mg <-- to_matching_graph (M_UserGraph.nobs g) n B E ;;
  if (64 <? M_UserGraph.nobs g) || ensure_search_graph then
    sg <-- to_search_graph n B E ;;
    Ok (mkDec (M_UserGraph.nobs g) mg (Some sg) (boundary_flags g) (2 * c)%R)
  else Ok (mkDec (M_UserGraph.nobs g) mg None (boundary_flags g) (2 * c)%R).

Definition d_neg (d : decoder) : neg_info := neg_info_of (d_nobs d) (d_graph d) (d_flags d).
(** fill_bit_vector_from_obs_mask (mwpm_decoding.cc:53-60, see C23), or the array of observables itself. *)
Definition bits (n : nat) (o : N) : list bool := map (fun k => N.testbit o (N.of_nat k)) (seq 0 n).

Section Decode.
Variables (d : decoder) (fuel fuel2 : nat) (orc orc2 : nat -> nat) (A : ints).

(** mwpm_decoding.cc:196-246 *)
Definition decode_events (s : state) (q : search) (evs : list nat) : outcome (state * search * (list bool * Z)) :=
  if 64 <? d_nobs d then
    match d_search d with
    | None => UB
    | Some sg =>
        r <-- decode_many_observables (adj (d_graph d)) (sadj sg) fuel fuel2 orc orc2 A (d_neg d) (neg_obss (d_graph d)) s q evs ;;
        let '(s', q', (o, w)) := r in Ok (s', q', (bits (d_nobs d) o, w))
    end
  else
    r <-- decode (adj (d_graph d)) fuel orc A (d_neg d) s evs ;;
    let '(s', (o, w, _)) := r in Ok (s', q, (bits (d_nobs d) o, w)).

(** user_graph.pybind.cc:188 and 331: the weight is cast to double and rescaled. *)
Definition reported (norm : R) (w : Z) : R := fl (fl (IZR w) / norm).
(** user_graph.pybind.cc:179-199 *)
Definition py_decode (s : state) (q : search) (evs : list nat) : outcome (state * search * (list bool * R)) :=
  r <-- decode_events s q evs ;;
  let '(s', q', (o, w)) := r in Ok (s', q', (o, reported (d_norm d) w)).

(** user_graph.pybind.cc:200-219 without correlations *)
Definition py_decode_to_edges (s : state) (q : search) (M : marks) (evs : list nat)
  : outcome (state * search * marks * list (nat * option nat)) :=
  match d_search d with
  | None => Throw
  | Some sg => decode_to_edges (adj (d_graph d)) (sadj sg) fuel fuel2 orc orc2 A (d_neg d) (sneg sg) s q M evs
  end.
End Decode.
