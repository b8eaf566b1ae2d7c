(** C47: decoding ends, with the right answer.

    [fuel] bounds the loops and the recursion of the model, which returns [Fuel] when it is used up.  Here: beyond some
    bound the outcome no longer depends on it and is not [Fuel]; together with C01 to C04 this is total correctness.
    [orc] is any order in which the queue may deliver events of equal time; integers are exact (with 32-bit integers
    decoding may go on forever: C42_refuted). *)
From Coq Require Import ZArith NArith List Bool Arith Lia.
From Verif Require Import M_Base M_Core M_Session S_Core S_Session S_Decode M_Build S_Build M_Flip S_Flip M_Search S_Search M_ToEdges S_ToEdges P_WfCheck P_Decode P_Halt P_Halt2 T_Core T_Build T_Search T_ToEdges.
Import ListNotations.
Local Open Scope nat_scope.

Theorem C47_decoding_ends : forall G orc I s evs,
  wf_graph G -> idle G s -> valid_events G evs -> valid_events G (neg_events I) ->
  exists K r, r <> Fuel /\ forall fuel, K <= fuel -> decode G fuel orc exact_ints I s evs = r.
Proof. exact (fun G orc I s evs => decode_ends G orc I s evs). Qed.
Print Assumptions C47_decoding_ends.

(** A syndrome that has a correction is answered with one of minimum weight, ... *)
Theorem C47_feasible_is_answered : forall G orc s evs,
  wf_graph G -> idle G s -> valid_events G evs -> (exists F, explains G F evs) ->
  exists K s' o w l, (forall fuel, K <= fuel -> decode G fuel orc exact_ints plain s evs = Ok (s', (o, w, l))) /\ idle G s' /\
    (exists F, NoDup F /\ explains G F evs /\ obs_of F = o /\ weight_of F = w) /\ (forall F, explains G F evs -> (w <= weight_of F)%Z).
Proof. exact (fun G orc s evs => plain_ends G orc s evs). Qed.
Print Assumptions C47_feasible_is_answered.

(** ... and one that has none raises 'no perfect matching'. *)
Theorem C47_infeasible_is_raised : forall G orc s evs,
  wf_graph G -> idle G s -> valid_events G evs -> (forall F, ~ explains G F evs) ->
  exists K, forall fuel, K <= fuel -> decode G fuel orc exact_ints plain s evs = Throw.
Proof. exact (fun G orc s evs => plain_raises G orc s evs). Qed.
Print Assumptions C47_infeasible_is_raised.

(** A decoder with any history works through any list of syndromes: each is answered or found to have no matching. *)
Theorem C47_sessions_end : forall G orc I l s,
  wf_graph G -> valid_events G (neg_events I) -> Forall (valid_events G) l -> history G exact_ints I s ->
  exists K rs, (forall fuel, K <= fuel -> answers G fuel orc I s l = rs) /\ Forall (fun r => (exists x, r = Answer x) \/ r = NoMatching) rs.
Proof. exact session_ends. Qed.
Print Assumptions C47_sessions_end.

(** The same from the edges given by the caller, with signed weights (see C44): if some selection of edges explains the
    detection events, the answer is that of a best one; ... *)
Theorem C47_signed_weights : forall nobs n E g bnd orc s evs,
  build nobs n E = Ok g -> ForallOrdPairs (fun e f => ~ parallel e f) E -> (forall e, In e E -> Z.even (s_weight e) = true) -> boundary_bare bnd E ->
  idle (adj g) s -> valid_events (adj g) evs -> (exists Y, solves E (wanted bnd evs) Y) ->
  exists K s' o w l X, (forall fuel, K <= fuel -> decode (adj g) fuel orc exact_ints (neg_info_of nobs g bnd) s evs = Ok (s', (o, w, l))) /\
    solves E (wanted bnd evs) X /\ s_total (select E X) = w /\ (nobs <= 64 -> forall k, N.testbit o (N.of_nat k) = s_flips k (select E X)) /\
    forall Y, solves E (wanted bnd evs) Y -> (w <= s_total (select E Y))%Z.
Proof. exact (fun nobs n E g bnd orc s evs HB NP EV BN => signed_ends nobs n E g bnd HB NP EV BN orc s evs). Qed.
Print Assumptions C47_signed_weights.

(** ... if none does, an exception is raised. *)
Theorem C47_signed_weights_infeasible : forall nobs n E g bnd orc s evs,
  build nobs n E = Ok g -> ForallOrdPairs (fun e f => ~ parallel e f) E -> (forall e, In e E -> Z.even (s_weight e) = true) -> boundary_bare bnd E ->
  idle (adj g) s -> valid_events (adj g) evs -> (forall Y, ~ solves E (wanted bnd evs) Y) ->
  exists K, forall fuel, K <= fuel -> decode (adj g) fuel orc exact_ints (neg_info_of nobs g bnd) s evs = Throw.
Proof. exact (fun nobs n E g bnd orc s evs HB NP EV BN => signed_raises nobs n E g bnd HB NP EV BN orc s evs). Qed.
Print Assumptions C47_signed_weights_infeasible.

(** Decoding to solution edges (see C05) lists a best selection. *)
Theorem C47_solution_edges : forall nobs n E g sg bnd orc orc2 s q M evs,
  build nobs n E = Ok g -> sbuild n E = Ok sg ->
  ForallOrdPairs (fun e f => ~ parallel e f) E -> (forall e, In e E -> Z.even (s_weight e) = true) -> boundary_bare bnd E -> (forall e, In e E -> ~ negative_loop e) ->
  idle (adj g) s -> search_idle q -> valid_events (adj g) evs -> unmarked (sadj sg) M -> (exists Y, solves E (wanted bnd evs) Y) ->
  exists K s' q' M' out X,
    (forall fuel, K <= fuel -> decode_to_edges (adj g) (sadj sg) fuel fuel orc orc2 exact_ints (neg_info_of nobs g bnd) (sneg sg) s q M evs = Ok (s', q', M', out)) /\
    lists_edges out (select E X) /\ solves E (wanted bnd evs) X /\
    forall Y, solves E (wanted bnd evs) Y -> (s_total (select E X) <= s_total (select E Y))%Z.
Proof. exact (fun nobs n E g sg bnd orc orc2 s q M evs HB HS NP EV BN NL => edges_end nobs n E g bnd HB NP EV BN sg HS NL orc orc2 s q M evs). Qed.
Print Assumptions C47_solution_edges.

(** ** Cases that meet the hypotheses: [kite] forms a blossom, [no_way] has no correction for [0; 1; 2] *)
Example C47_example : wf_graph kite /\ idle kite init_state /\ valid_events kite [4; 0; 2; 1] /\ (exists F, explains kite F [4; 0; 2; 1]) /\
  decode kite 5 fifo exact_ints plain init_state [4; 0; 2; 1] = Fuel /\
  match decode kite 60 fifo exact_ints plain init_state [4; 0; 2; 1] with Ok (_, (_, w, _)) => w = 12%Z | _ => False end.
Proof.
  split; [exact kite_wf|]. split; [apply init_idle|]. split; [apply kite_valid|]. split; [destruct C02_example as (F & H & _); exists F; exact H|].
  split; vm_compute; reflexivity.
Qed.
Example C47_infeasible_example : wf_graph no_way /\ valid_events no_way [0; 1; 2] /\ (forall F, ~ explains no_way F [0; 1; 2]) /\
  decode no_way 60 fifo exact_ints plain init_state [0; 1; 2] = Throw.
Proof.
  destruct C03_example as [W E]. assert (V : valid_events no_way [0; 1; 2]).
  { split; [repeat constructor; simpl; intuition lia|]. intros v H. simpl in *. lia. }
  split; [exact W|]. split; [exact V|]. split; [|exact E]. intros F.
  exact (C03_raised_only_if_infeasible no_way 60 fifo plain init_state [0; 1; 2] W (init_idle _) V (plain_valid _) E F [0; 1; 2] (plain_effective _)).
Qed.
Example C47_session_example : Forall (valid_events no_way) [[0; 1; 2]; [0; 2]] /\
  answers no_way 60 fifo plain init_state [[0; 1; 2]; [0; 2]] = [NoMatching; Answer (1%N, 10%Z, [mkE (Some 0) (Some 2) 1%N])].
Proof.
  split; [|vm_compute; reflexivity]. constructor; [|constructor; [|constructor]]; (split; [repeat constructor; simpl; intuition lia|intros v H; simpl in *; lia]).
Qed.
(** [te_ex] (T_ToEdges.v, where the other hypotheses are shown) with the detection events 0 and 2; [no_bnd] has a negative edge and no correction for a single detection event. *)
Example C47_signed_example : exists g sg, build 71 4 te_ex = Ok g /\ sbuild 4 te_ex = Ok sg /\ idle (adj g) init_state /\ search_idle search_init /\
  valid_events (adj g) [0; 2] /\ unmarked (sadj sg) (marks_of sg) /\ solves te_ex (wanted [] [0; 2]) [true; true; false; false; false; false].
Proof.
  do 2 eexists. split; [vm_compute; reflexivity|]. split; [vm_compute; reflexivity|]. split; [apply init_idle|]. split; [apply idle_init|].
  split; [split; [repeat constructor; simpl; intuition discriminate|intros v Hv; simpl in Hv; simpl; intuition; subst v; lia]|].
  split; [eapply (C05_fresh_graph_unmarked 71 4 te_ex); vm_compute; reflexivity|]. split; [reflexivity|]. intros v. do 5 (destruct v as [|v]; [reflexivity|]). reflexivity.
Qed.
Definition no_bnd : list sedge := [ed 0 (Some 1) 4 [0]; ed 1 (Some 2) (-2) [1]].
Example C47_signed_infeasible_example : exists g, build 2 3 no_bnd = Ok g /\ valid_events (adj g) [0] /\ boundary_bare [] no_bnd /\
  (forall Y, ~ solves no_bnd (wanted [] [0]) Y) /\ decode (adj g) 100 fifo exact_ints (neg_info_of 2 g []) init_state [0] = Throw.
Proof.
  eexists. split; [vm_compute; reflexivity|]. split; [split; [repeat constructor; simpl; intuition discriminate|intros v Hv; simpl in *; intuition; subst; lia]|].
  split; [intros v Hv; destruct v; discriminate|]. split; [|vm_compute; reflexivity].
  intros Y [HL HY]. destruct Y as [|a [|b [|c Y]]]; try discriminate HL. pose proof (HY 0) as Q0. pose proof (HY 1) as Q1. pose proof (HY 2) as Q2. destruct a, b; vm_compute in Q0, Q1, Q2; discriminate.
Qed.
