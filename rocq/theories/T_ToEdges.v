(** Decoding through shortest paths: C05 (the list of solution edges), C46 (more than 64 observables).

    [build], [sbuild]: construction of the matching graph and of the search graph from the same edges (M_Build.v,
    M_ToEdges.v).  [decode_to_edges], [decode_many_observables]: the two drivers (M_ToEdges.v).  Integers are exact; any
    tie-breaking [orc], [orc2] of the two queues. *)
From Coq Require Import ZArith NArith List Bool Arith Lia Permutation.
From Verif Require Import M_Base M_Core M_Session S_Core S_Session M_Build S_Build S_Decode M_Flip S_Flip M_Search S_Search M_ToEdges S_ToEdges P_Search P_ToEdges P_ToEdges2 P_ToEdgesLoop P_Signed P_Decode T_Build T_Search.
Import ListNotations.
Local Open Scope nat_scope.

(** C05.  Whenever the decode answers with weight [w], the solution edges are listed (with enough fuel for the path
    search): each edge of some selection [X] once, the detectors of odd degree are the detection events, the weights add
    up to [w], and no selection does better.  Search graph and markers are left as they were. *)
Theorem C05_solution_edges : forall nobs n E g sg bnd, build nobs n E = Ok g -> sbuild n E = Ok sg ->
  ForallOrdPairs (fun e f => ~ parallel e f) E -> (forall e, In e E -> Z.even (s_weight e) = true) -> boundary_bare bnd E -> (forall e, In e E -> ~ negative_loop e) ->
  forall fuel orc orc2 s q M evs s' o w l, idle (adj g) s -> search_idle q -> valid_events (adj g) evs -> unmarked (sadj sg) M ->
  decode (adj g) fuel orc exact_ints (neg_info_of nobs g bnd) s evs = Ok (s', (o, w, l)) ->
  exists k q' M' out X,
    (forall fuel2, k <= fuel2 ->
      decode_to_edges (adj g) (sadj sg) fuel fuel2 orc orc2 exact_ints (neg_info_of nobs g bnd) (sneg sg) s q M evs = Ok (s', q', M', out)) /\
    search_idle q' /\ (forall u i, M' u i = M u i) /\
    lists_edges out (select E X) /\ solves E (wanted bnd evs) X /\ s_total (select E X) = w /\
    forall Y, solves E (wanted bnd evs) Y -> (w <= s_total (select E Y))%Z.
Proof.
  exact (fun nobs n E g sg bnd HB HS NP EV BN NL fuel orc orc2 s q M evs s' o w l HI HQ V UM D =>
    match to_edges_spec nobs n E g sg bnd HB HS NP EV BN fuel orc orc2 s q evs s' o w l HI HQ V D M NL UM with
    | ex_intro _ k (ex_intro _ q' (ex_intro _ M' (ex_intro _ out (ex_intro _ X (conj a (conj b (conj c (conj d (conj e (conj f h)))))))))) =>
        ex_intro _ k (ex_intro _ q' (ex_intro _ M' (ex_intro _ out (ex_intro _ X (conj a (conj b (conj c (conj h (conj d (conj e f))))))))))
    end).
Qed.
Print Assumptions C05_solution_edges.

(** Markers as left by the construction of the search graph have no edge flipped. *)
Theorem C05_fresh_graph_unmarked : forall nobs n E g sg, build nobs n E = Ok g -> sbuild n E = Ok sg -> unmarked (sadj sg) (marks_of sg).
Proof. exact fresh_unmarked. Qed.
Print Assumptions C05_fresh_graph_unmarked.

Theorem C05_raised_only_if_infeasible : forall nobs n E g sg bnd, build nobs n E = Ok g -> sbuild n E = Ok sg ->
  ForallOrdPairs (fun e f => ~ parallel e f) E -> (forall e, In e E -> Z.even (s_weight e) = true) -> boundary_bare bnd E ->
  forall fuel orc orc2 s q M evs, idle (adj g) s -> valid_events (adj g) evs ->
  decode (adj g) fuel orc exact_ints (neg_info_of nobs g bnd) s evs = Throw ->
  (forall fuel2, decode_to_edges (adj g) (sadj sg) fuel fuel2 orc orc2 exact_ints (neg_info_of nobs g bnd) (sneg sg) s q M evs = Throw) /\
  forall Y, ~ solves E (wanted bnd evs) Y.
Proof. exact (fun nobs n E g sg bnd HB HS NP EV BN fuel orc orc2 s q M evs => to_edges_throws nobs n E g sg bnd HB HS NP EV BN fuel orc orc2 s q M evs). Qed.
Print Assumptions C05_raised_only_if_infeasible.

(** C46.  With more than 64 observables the weight and every observable are taken from the paths: they are those of one
    minimum-weight selection.  ([nobs] is arbitrary.) *)
Theorem C46_any_number_of_observables : forall nobs n E g sg bnd, build nobs n E = Ok g -> sbuild n E = Ok sg ->
  ForallOrdPairs (fun e f => ~ parallel e f) E -> (forall e, In e E -> Z.even (s_weight e) = true) -> boundary_bare bnd E ->
  forall fuel orc orc2 s q evs s' o w l, idle (adj g) s -> search_idle q -> valid_events (adj g) evs ->
  decode (adj g) fuel orc exact_ints (neg_info_of nobs g bnd) s evs = Ok (s', (o, w, l)) ->
  exists k q' o' X,
    (forall fuel2, k <= fuel2 ->
      decode_many_observables (adj g) (sadj sg) fuel fuel2 orc orc2 exact_ints (neg_info_of nobs g bnd) (neg_obss g) s q evs = Ok (s', q', (o', w))) /\
    search_idle q' /\ solves E (wanted bnd evs) X /\ s_total (select E X) = w /\
    (forall Y, solves E (wanted bnd evs) Y -> (w <= s_total (select E Y))%Z) /\
    forall i, N.testbit o' (N.of_nat i) = s_flips i (select E X).
Proof.
  exact (fun nobs n E g sg bnd HB HS NP EV BN fuel orc orc2 s q evs s' o w l HI HQ V D =>
    many_spec nobs n E g sg bnd HB HS NP EV BN fuel orc orc2 s q evs s' o w l HI HQ V D).
Qed.
Print Assumptions C46_any_number_of_observables.

(** A square 0-1-2-3 with boundary edges; (1,2) and the boundary edge at 3 are negative; observable 70.  The negative
    edges turn over 1, 2 and 3, so for the detection events 0 and 2 the decoder matches 0 with 1, and 3 with the
    boundary; the second path cancels the negative boundary edge. *)
Definition te_ex : list sedge :=
  [ed 0 (Some 1) 4 [0]; ed 1 (Some 2) (-2) [70]; ed 2 (Some 3) 6 [1]; ed 0 (Some 3) 8 []; ed 3 None (-4) [2]; ed 0 None 20 [70; 3]].
Example te_hypotheses : ForallOrdPairs (fun e f => ~ parallel e f) te_ex /\ (forall e, In e te_ex -> Z.even (s_weight e) = true) /\ boundary_bare [] te_ex /\
  (forall e, In e te_ex -> ~ negative_loop e).
Proof.
  split; [repeat constructor; simpl; intuition congruence|]. split; [intros e He; simpl in He; intuition; subst e; reflexivity|]. split; [intros v Hv; destruct v; discriminate|].
  intros e He. simpl in He. intuition; subst e; simpl in *; intuition congruence.
Qed.
(** Example C05_example, C46_example: reading off the part of a result that is shown. *)
Definition shown_edges {S Q M L} (r : outcome (S * Q * M * L)) : option L := match r with Ok (_, _, _, out) => Some out | _ => None end.
Definition shown_answer {S Q R} (r : outcome (S * Q * R)) : option R := match r with Ok (_, _, x) => Some x | _ => None end.
Definition shown_decode {S R} (r : outcome (S * R)) : option R := match r with Ok (_, x) => Some x | _ => None end.

Example C05_example : exists g sg l, build 71 4 te_ex = Ok g /\ sbuild 4 te_ex = Ok sg /\ valid_events (adj g) [0; 2] /\
  shown_decode (decode (adj g) 200 (fun _ => 0) exact_ints (neg_info_of 71 g []) init_state [0; 2]) = Some (0%N, 2%Z, l) /\ length l = 2 /\
  shown_edges (decode_to_edges (adj g) (sadj sg) 200 200 (fun _ => 0) (fun _ => 0) exact_ints (neg_info_of 71 g []) (sneg sg) init_state search_init (marks_of sg) [0; 2])
    = Some [(1, Some 2); (0, Some 1)].
Proof.
  do 3 eexists. split; [vm_compute; reflexivity|]. split; [vm_compute; reflexivity|].
  split; [split; [repeat constructor; simpl; intuition discriminate|intros v Hv; simpl in Hv; simpl; intuition; subst v; lia]|].
  split; [vm_compute; reflexivity|]. split; [reflexivity|]. vm_compute. reflexivity.
Qed.
(** Observables 0 and 70. *)
Example C46_example : exists g sg, build 71 4 te_ex = Ok g /\ sbuild 4 te_ex = Ok sg /\
  shown_answer (decode_many_observables (adj g) (sadj sg) 200 200 (fun _ => 0) (fun _ => 0) exact_ints (neg_info_of 71 g []) (neg_obss g) init_state search_init [0; 2])
    = Some ((2 ^ 70 + 1)%N, 2%Z).
Proof. do 2 eexists. split; [vm_compute; reflexivity|]. split; [vm_compute; reflexivity|]. vm_compute. reflexivity. Qed.

(** The claim fails with a self-loop of negative weight (P_ToEdgesLoop.v: edge 0-1 of weight 2, loop at 0 of weight -4):
    the decoder's weight counts the loop, but the search graph does not hold it, so no selection with the reported edges
    has the reported weight. *)
Theorem C05_negative_loop_refuted : exists E g sg s' s2 q' M' o w l out, build 1 2 E = Ok g /\ sbuild 2 E = Ok sg /\
  ForallOrdPairs (fun e f => ~ parallel e f) E /\ (forall e, In e E -> Z.even (s_weight e) = true) /\
  decode (adj g) 100 (fun _ => 0) exact_ints (neg_info_of 1 g []) init_state [0; 1] = Ok (s', (o, w, l)) /\
  decode_to_edges (adj g) (sadj sg) 100 100 (fun _ => 0) (fun _ => 0) exact_ints (neg_info_of 1 g []) (sneg sg) init_state search_init (marks_of sg) [0; 1]
    = Ok (s2, q', M', out) /\
  ~ exists X, lists_edges out (select E X) /\ s_total (select E X) = w.
Proof. exact negative_loop_omitted. Qed.
Print Assumptions C05_negative_loop_refuted.
