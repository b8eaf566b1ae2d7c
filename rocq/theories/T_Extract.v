(** C71: the two ways to take a finished matching apart agree.

    The code has two recursions over the blossoms of a finished matching.  One adds up observables and weights
    (shatter_blossom_and_extract_matches, for at most 64 observables), the other collects match edges
    (shatter_blossom_and_extract_match_edges, for more observables, for solution edges and for matched pairs). *)
From Coq Require Import ZArith NArith List Bool Arith Lia.
From Verif Require Import M_Base M_RadixHeap M_Tracker M_Core M_Session M_CoreHeap M_Extract S_Core S_Session S_Decode S_Reach S_CoreHeap M_Build M_Flip
  P_WfCheck P_Session P_Decode P_Extract P_Extract2 P_Extract3 T_Core T_ToEdges T_CoreHeap.
Import ListNotations.
Local Open Scope Z_scope.

(** Whatever the state of the decoder, both succeed or both fail in the same way; if they succeed they leave the same decoder
    behind, and the observables are those of the match edges. *)
Theorem C71_same_end : forall G fuel A I s h evs,
  match decode_masks_h G fuel A I s h evs, decode_edges_h G fuel A I s h evs with
  | Ok (s1, h1, (o, w)), Ok (s2, h2, l) => s1 = s2 /\ h1 = h2 /\ o = N.lxor (fold_right N.lxor 0%N (map eobs l)) (neg_obs I)
  | Throw, Throw | UB, UB | Fuel, Fuel => True
  | _, _ => False
  end.
Proof. exact same_end. Qed.
Print Assumptions C71_same_end.

(** From an idle decoder both end, with an idle decoder and an empty queue.  The observables and the weight are those of a best
    correction.  The match edges have every event once, each stands for a shortest path between its ends, and the lengths and
    observables of these paths add up to the weight and the observables of the other way. *)
Theorem C71_decode : forall G I s h evs F ev,
  wf_graph G -> (forall u x w o, In (x, w, o) (nbrs G u) -> w <= max_weight) -> idle G s -> drained s h -> valid_events G evs -> valid_events G (neg_events I) ->
  (forall v, In v ev <-> effective I evs v) -> explains G F ev -> weight_of F < 2 ^ 31 \/ within G ev (2 ^ 31) ->
  exists K s' h' o w l ws,
    (forall fuel, (K <= fuel)%nat -> decode_masks_h G fuel cyclic_ints I s h evs = Ok (s', h', (o, w)) /\ decode_edges_h G fuel cyclic_ints I s h evs = Ok (s', h', l)) /\
    idle G s' /\ drained s' h' /\
    ((exists F, NoDup F /\ explains G F ev /\ N.lxor (obs_of F) (neg_obs I) = o /\ weight_of F + neg_sum I = w) /\ forall F, explains G F ev -> w <= weight_of F + neg_sum I) /\
    NoDup (flat_map pair_ends l) /\ (forall v, In v (flat_map pair_ends l) <-> In v ev) /\
    Forall2 (stands_for_shortest G) l ws /\ fold_right Z.add 0 ws + neg_sum I = w /\ N.lxor (fold_right N.lxor 0%N (map eobs l)) (neg_obs I) = o.
Proof. exact (fun G I s h evs F ev WF HW HI HD V VN Hev HF HL => heap_both G I s h evs F ev WF HW HI HD V VN Hev (conj HF HL)). Qed.
Print Assumptions C71_decode.

(** decode_detection_events_to_match_edges does not look at the events made by negative weights; it is the same if there are none. *)
Theorem C71_match_edges : forall G fuel A I s h evs, neg_events I = [] -> decode_match_edges_h G fuel A I s h evs = decode_edges_h G fuel A I s h evs.
Proof. exact match_edges_same. Qed.
Print Assumptions C71_match_edges.
(** If there were some, their regions would stay behind in the decoder: this is what the exception for negative weights avoids. *)
Theorem C71_match_edges_with_negative_weights : exists g s' h' l,
  build 71 4 te_ex = Ok g /\ neg_events (neg_info_of 71 g []) <> [] /\
  decode_match_edges_h (adj g) 200 cyclic_ints (neg_info_of 71 g []) init_state empty_heap [0; 2]%nat = Ok (s', h', l) /\ ~ idle (adj g) s'.
Proof. exact pairs_left_behind. Qed.
Print Assumptions C71_match_edges_with_negative_weights.

(** ** Cases that meet the hypotheses *)
(** [kite] (T_Core.v) makes a blossom that is taken apart; C42_blossom_example and C51_session_example have its hypotheses. *)
Example C71_blossom_example :
  match decode_masks_h kite 60 cyclic_ints plain init_state empty_heap [4; 0; 2; 1]%nat, decode_edges_h kite 60 cyclic_ints plain init_state empty_heap [4; 0; 2; 1]%nat with
  | Ok (_, _, (o, w)), Ok (_, _, l) => w = 12 /\ length l = 2%nat /\ o = fold_right N.lxor 0%N (map eobs l)
  | _, _ => False end.
Proof. vm_compute. auto. Qed.
(** [te_ex] (T_ToEdges.v) has negative weights that make events. *)
Example C71_signed_example : exists g, build 71 4 te_ex = Ok g /\
  match decode_masks_h (adj g) 200 cyclic_ints (neg_info_of 71 g []) init_state empty_heap [0; 2]%nat, decode_edges_h (adj g) 200 cyclic_ints (neg_info_of 71 g []) init_state empty_heap [0; 2]%nat with
  | Ok (_, _, (_, w)), Ok (_, _, l) => w = 2 /\ neg_events (neg_info_of 71 g []) = [1; 2; 3]%nat /\ map (fun e => (efrom e, eto e)) l = [(Some 0, Some 1); (Some 3, None)]%nat
  | _, _ => False end.
Proof. eexists. split; [vm_compute; reflexivity|]. vm_compute. auto. Qed.
