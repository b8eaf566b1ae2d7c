(** C48: decoding with edge correlations (two passes).

    [R]: the edges with their implied weights for other edges.  [best E want X]: the selection [X] of edges of [E] has minimum
    weight among those with odd degree exactly at [want]; [lowered R X]: the edges with each weight lowered to the least weight
    implied for it by an edge selected in [X] (S_Correlated.v). *)
From Coq Require Import ZArith NArith List Bool Arith Lia.
From Verif Require Import M_Base M_Core M_Session S_Core S_Session S_Decode S_Reach M_Build S_Build M_Flip S_Flip M_Search S_Search M_ToEdges S_ToEdges M_Reweight S_Reweight
  M_Correlated S_Correlated P_Session P_CoreDecode P_Decode P_Correlated2 T_Core T_Build T_ToEdges.
Import ListNotations.
Local Open Scope nat_scope.

(** Up to 64 observables: the answer is that of a minimum-weight correction under the weights implied by a minimum-weight
    correction of the graph as given; and both graphs have their given weights again. *)
Theorem C48_two_passes : forall nobs n R D bnd evs orc orc2 orcb s q M,
  load nobs n R = Ok D -> ForallOrdPairs (fun e f => ~ parallel e f) (map fst R) ->
  (forall e, In e (map fst R) -> Z.even (s_weight e) = true) -> (forall e, In e (map fst R) -> (0 <= s_weight e)%Z) -> boundary_bare bnd (map fst R) ->
  valid_events (adj (lg D)) evs -> idle (adj (lg D)) s -> search_idle q -> unmarked (sadj (lsg D)) M ->
  (exists Y, solves (map fst R) (wanted bnd evs) Y) ->
  exists K s' q' M' o w X1 X2,
    (forall fuel, K <= fuel -> correlated_mask false (lt D) (lst D) fuel orc orc2 exact_ints (neg_info_of nobs (lg D) bnd) (sneg (lsg D)) orcb evs
        (adj (lg D), []) (sadj (lsg D), []) s q M = ((adj (lg D), []), (sadj (lsg D), []), Ok (s', q', M', (o, w)))) /\
    idle (adj (lg D)) s' /\ search_idle q' /\ unmarked (sadj (lsg D)) M' /\
    best (map fst R) (wanted bnd evs) X1 /\ best (lowered R X1) (wanted bnd evs) X2 /\
    s_total (select (lowered R X1) X2) = w /\ (nobs <= 64 -> forall k, N.testbit o (N.of_nat k) = s_flips k (select (map fst R) X2)).
Proof.
  exact (fun nobs n R D bnd evs orc orc2 orcb s q M HL NP EV POS BN V =>
    correlated_mask_spec nobs n R D bnd evs (NI := exact_ints) HL NP EV POS BN (fun _ _ _ _ => exact_able _ _ _) V orc orc2 orcb s q M).
Qed.
Print Assumptions C48_two_passes.

(** Any number of observables. *)
Theorem C48_many_observables : forall nobs n R D bnd evs orc orc2 orcb orc2b s q M,
  load nobs n R = Ok D -> ForallOrdPairs (fun e f => ~ parallel e f) (map fst R) ->
  (forall e, In e (map fst R) -> Z.even (s_weight e) = true) -> (forall e, In e (map fst R) -> (0 <= s_weight e)%Z) -> boundary_bare bnd (map fst R) ->
  valid_events (adj (lg D)) evs -> idle (adj (lg D)) s -> search_idle q -> unmarked (sadj (lsg D)) M ->
  (exists Y, solves (map fst R) (wanted bnd evs) Y) ->
  exists K s' q' M' o w X1 X2,
    (forall fuel, K <= fuel -> correlated_many false (lt D) (lst D) fuel orc orc2 exact_ints (neg_info_of nobs (lg D) bnd) (sneg (lsg D)) orcb orc2b evs (neg_obss (lg D))
        (adj (lg D), []) (sadj (lsg D), []) s q M = ((adj (lg D), []), (sadj (lsg D), []), Ok (s', q', M', (o, w)))) /\
    idle (adj (lg D)) s' /\ search_idle q' /\ unmarked (sadj (lsg D)) M' /\
    best (map fst R) (wanted bnd evs) X1 /\ best (lowered R X1) (wanted bnd evs) X2 /\
    s_total (select (lowered R X1) X2) = w /\ (forall k, N.testbit o (N.of_nat k) = s_flips k (select (map fst R) X2)).
Proof.
  exact (fun nobs n R D bnd evs orc orc2 orcb orc2b s q M HL NP EV POS BN V =>
    correlated_many_spec nobs n R D bnd evs (NI := exact_ints) HL NP EV POS BN (fun _ _ _ _ => exact_able _ _ _) V orc orc2 orcb orc2b s q M).
Qed.
Print Assumptions C48_many_observables.

(** To solution edges. *)
Theorem C48_solution_edges : forall nobs n R D bnd evs orc orc2 orcb orc2b s q M,
  load nobs n R = Ok D -> ForallOrdPairs (fun e f => ~ parallel e f) (map fst R) ->
  (forall e, In e (map fst R) -> Z.even (s_weight e) = true) -> (forall e, In e (map fst R) -> (0 <= s_weight e)%Z) -> boundary_bare bnd (map fst R) ->
  valid_events (adj (lg D)) evs -> idle (adj (lg D)) s -> search_idle q -> unmarked (sadj (lsg D)) M ->
  (exists Y, solves (map fst R) (wanted bnd evs) Y) ->
  exists K s' q' M' out X1 X2,
    (forall fuel, K <= fuel -> correlated_edges false (lt D) (lst D) fuel orc orc2 exact_ints (neg_info_of nobs (lg D) bnd) (sneg (lsg D)) orcb orc2b evs
        (adj (lg D), []) (sadj (lsg D), []) s q M = ((adj (lg D), []), (sadj (lsg D), []), Ok (s', q', M', out))) /\
    idle (adj (lg D)) s' /\ search_idle q' /\ unmarked (sadj (lsg D)) M' /\
    best (map fst R) (wanted bnd evs) X1 /\ best (lowered R X1) (wanted bnd evs) X2 /\ lists_edges out (select (map fst R) X2).
Proof.
  exact (fun nobs n R D bnd evs orc orc2 orcb orc2b s q M HL NP EV POS BN V =>
    correlated_edges_spec nobs n R D bnd evs (NI := exact_ints) HL NP EV POS BN (fun _ _ _ _ => exact_able _ _ _) V orc orc2 orcb orc2b s q M).
Qed.
Print Assumptions C48_solution_edges.

(** Any number of shots on one decoder: no shot leaves anything behind that the next one could see. *)
Theorem C48_batch : forall nobs n R D bnd orc orc2 orcb shots s q M,
  load nobs n R = Ok D -> ForallOrdPairs (fun e f => ~ parallel e f) (map fst R) ->
  (forall e, In e (map fst R) -> Z.even (s_weight e) = true) -> (forall e, In e (map fst R) -> (0 <= s_weight e)%Z) -> boundary_bare bnd (map fst R) ->
  idle (adj (lg D)) s -> search_idle q -> unmarked (sadj (lsg D)) M ->
  Forall (fun evs => valid_events (adj (lg D)) evs /\ exists Y, solves (map fst R) (wanted bnd evs) Y) shots ->
  exists K answers,
    (forall fuel, K <= fuel -> correlated_batch (correlated_mask false (lt D) (lst D) fuel orc orc2 exact_ints (neg_info_of nobs (lg D) bnd) (sneg (lsg D)) orcb)
        shots (adj (lg D), []) (sadj (lsg D), []) s q M = ((adj (lg D), []), (sadj (lsg D), []), Ok answers)) /\
    Forall2 (fun evs (a : N * Z) => exists X1 X2, best (map fst R) (wanted bnd evs) X1 /\ best (lowered R X1) (wanted bnd evs) X2 /\
      s_total (select (lowered R X1) X2) = snd a /\ (nobs <= 64 -> forall k, N.testbit (fst a) (N.of_nat k) = s_flips k (select (map fst R) X2))) shots answers.
Proof.
  exact (fun nobs n R D bnd orc orc2 orcb shots s q M HL NP EV POS BN => correlated_batch_spec nobs n R D bnd orc orc2 orcb HL NP EV POS BN shots s q M).
Qed.
Print Assumptions C48_batch.

(** Without a correction: an exception, raised before any weight is changed; whatever the second pass is. *)
Theorem C48_infeasible : forall nobs n R D bnd evs orc orc2 s q M,
  load nobs n R = Ok D -> ForallOrdPairs (fun e f => ~ parallel e f) (map fst R) ->
  (forall e, In e (map fst R) -> Z.even (s_weight e) = true) -> (forall e, In e (map fst R) -> (0 <= s_weight e)%Z) -> boundary_bare bnd (map fst R) ->
  valid_events (adj (lg D)) evs -> idle (adj (lg D)) s -> (forall Y, ~ solves (map fst R) (wanted bnd evs) Y) ->
  exists K, forall fuel wc (X : Type) (second : graph -> graph -> state -> search -> marks -> outcome (state * search * marks * X)), K <= fuel ->
    two_pass wc (lt D) (lst D) fuel orc orc2 exact_ints (neg_info_of nobs (lg D) bnd) (sneg (lsg D)) second (adj (lg D), []) (sadj (lsg D), []) s q M evs
      = ((adj (lg D), []), (sadj (lsg D), []), Throw).
Proof.
  exact (fun nobs n R D bnd evs orc orc2 s q M HL NP EV POS BN V =>
    correlated_raises nobs n R D bnd evs (NI := exact_ints) HL NP EV POS BN (fun _ _ _ _ => exact_able _ _ _) V orc orc2 s q M).
Qed.
Print Assumptions C48_infeasible.

(** A graph loaded without correlations: always an exception, and no weight is changed. *)
Theorem C48_refused_without_correlations : forall nobs n R D bnd evs orc orc2 s q M,
  load nobs n R = Ok D -> ForallOrdPairs (fun e f => ~ parallel e f) (map fst R) ->
  (forall e, In e (map fst R) -> Z.even (s_weight e) = true) -> (forall e, In e (map fst R) -> (0 <= s_weight e)%Z) -> boundary_bare bnd (map fst R) ->
  valid_events (adj (lg D)) evs -> idle (adj (lg D)) s -> search_idle q -> unmarked (sadj (lsg D)) M ->
  exists K, forall fuel (X : Type) (second : graph -> graph -> state -> search -> marks -> outcome (state * search * marks * X)), K <= fuel ->
    two_pass true (lt D) (lst D) fuel orc orc2 exact_ints (neg_info_of nobs (lg D) bnd) (sneg (lsg D)) second (adj (lg D), []) (sadj (lsg D), []) s q M evs
      = ((adj (lg D), []), (sadj (lsg D), []), Throw).
Proof.
  exact (fun nobs n R D bnd evs orc orc2 s q M HL NP EV POS BN V =>
    correlated_refused nobs n R D bnd evs (NI := exact_ints) HL NP EV POS BN (fun _ _ _ _ => exact_able _ _ _) V orc orc2 s q M).
Qed.
Print Assumptions C48_refused_without_correlations.

(** With 32-bit integers, if some correction weighs less than 2^31 in the graph as given, or no two nodes that paths join are further apart. *)
Theorem C48_machine_integers : forall nobs n R D bnd evs orc orc2 orcb orc2b s q M Y,
  load nobs n R = Ok D -> ForallOrdPairs (fun e f => ~ parallel e f) (map fst R) ->
  (forall e, In e (map fst R) -> Z.even (s_weight e) = true) -> (forall e, In e (map fst R) -> (0 <= s_weight e)%Z) -> boundary_bare bnd (map fst R) ->
  (forall e, In e (map fst R) -> (s_weight e <= max_weight)%Z) ->
  valid_events (adj (lg D)) evs -> idle (adj (lg D)) s -> search_idle q -> unmarked (sadj (lsg D)) M ->
  solves (map fst R) (wanted bnd evs) Y -> (s_total (select (map fst R) Y) < 2 ^ 31)%Z \/ s_within (map fst R) (2 ^ 31) ->
  exists K s' q' M' out X1 X2,
    (forall fuel, K <= fuel -> correlated_edges false (lt D) (lst D) fuel orc orc2 machine_ints (neg_info_of nobs (lg D) bnd) (sneg (lsg D)) orcb orc2b evs
        (adj (lg D), []) (sadj (lsg D), []) s q M = ((adj (lg D), []), (sadj (lsg D), []), Ok (s', q', M', out))) /\
    idle (adj (lg D)) s' /\ search_idle q' /\ unmarked (sadj (lsg D)) M' /\
    best (map fst R) (wanted bnd evs) X1 /\ best (lowered R X1) (wanted bnd evs) X2 /\ lists_edges out (select (map fst R) X2).
Proof.
  exact (fun nobs n R D bnd evs orc orc2 orcb orc2b s q M Y HL NP EV POS BN MW V HI HQ UM HY HT =>
    correlated_edges_spec nobs n R D bnd evs (NI := machine_ints) HL NP EV POS BN (correlated_able nobs n R bnd evs Y NP EV POS BN MW HY HT) V orc orc2 orcb orc2b s q M HI HQ UM (ex_intro _ Y HY)).
Qed.
Print Assumptions C48_machine_integers.

(** The hypothesis that no weight is negative is needed: edges 0-boundary of weight 4 and 1-boundary of weight -10, the first
    implying weight 2 for the second.  The event 0 has one correction, of weight 4, before and after reweighting; the
    weight reported is -4, because the sum of the negative weights is not updated by the reweighting. *)
Theorem C48_negative_weight_refuted : exists R D s' q' M' o w, load 2 2 R = Ok D /\ ForallOrdPairs (fun e f => ~ parallel e f) (map fst R) /\
  (forall e, In e (map fst R) -> Z.even (s_weight e) = true) /\ (forall e, In e (map fst R) -> ~ negative_loop e) /\
  correlated_mask false (lt D) (lst D) 200 (fun _ => 0) (fun _ => 0) exact_ints (neg_info_of 2 (lg D) []) (sneg (lsg D)) (fun _ => 0) [0]
    (adj (lg D), []) (sadj (lsg D), []) init_state search_init (marks_of (lsg D)) = ((adj (lg D), []), (sadj (lsg D), []), Ok (s', q', M', (o, w))) /\
  (exists Y, solves (map fst R) (wanted [] [0]) Y) /\
  forall Y, solves (map fst R) (wanted [] [0]) Y -> s_total (select (map fst R) Y) <> w /\ forall X, s_total (select (lowered R X) Y) <> w.
Proof. exact negative_weight_wrong. Qed.
Print Assumptions C48_negative_weight_refuted.

(** ** A case that meets the hypotheses *)

(** A path 0-1-2-3 with boundary edges at both ends and a chord 0-3.  Without correlations the events 0, 1, 2, 3 are explained by
    0-1 and 2-3 (weight 8).  Observing 0-1 lowers 1-2 from 10 to 2 and the chord 0-3 from 12 to 0, observing 2-3 lowers 1-2 only to 8
    and 3-boundary (which is then 6, not 30): the second pass takes 1-2 and 0-3, weight 2, observables 1 and 66. *)
Definition co_ex : list redge :=
  [(ed 0 (Some 1) 4 [0], [(2, Some 1, 1%Z); (0, Some 3, 0%Z)]); (ed 1 (Some 2) 10 [1], []); (ed 2 (Some 3) 4 [], [(1, Some 2, 4%Z); (3, None, (-3)%Z)]);
   (ed 0 (Some 3) 12 [66], [(0, Some 1, 0%Z)]); (ed 3 None 30 [2], []); (ed 0 None 20 [], [])].
Example co_hypotheses : ForallOrdPairs (fun e f => ~ parallel e f) (map fst co_ex) /\ (forall e, In e (map fst co_ex) -> Z.even (s_weight e) = true) /\
  (forall e, In e (map fst co_ex) -> (0 <= s_weight e)%Z) /\ (forall e, In e (map fst co_ex) -> (s_weight e <= max_weight)%Z) /\ boundary_bare [] (map fst co_ex).
Proof.
  split; [repeat constructor; simpl; intuition congruence|]. split; [intros e He; simpl in He; intuition; subst e; reflexivity|].
  split; [intros e He; simpl in He; intuition; subst e; simpl; lia|]. split; [intros e He; simpl in He; intuition; subst e; unfold max_weight; simpl; lia|]. intros v Hv; destruct v; discriminate.
Qed.
Definition both : list bool := [true; false; true; false; false; false].
Definition shown_correlated {A B S Q M X} (r : A * B * outcome (S * Q * M * X)) : option (A * B * X) := match r with (a, b, Ok (_, _, _, x)) => Some (a, b, x) | _ => None end.
Example C48_example : exists D, load 67 4 co_ex = Ok D /\ valid_events (adj (lg D)) [0; 1; 2; 3] /\ solves (map fst co_ex) (wanted [] [0; 1; 2; 3]) both /\
  (s_total (select (map fst co_ex) both) = 8)%Z /\ map s_weight (lowered co_ex both) = [4; 2; 4; 0; 6; 20]%Z /\
  shown_correlated (correlated_edges false (lt D) (lst D) 200 any any exact_ints (neg_info_of 67 (lg D) []) (sneg (lsg D)) any any [0; 1; 2; 3]
    (adj (lg D), []) (sadj (lsg D), []) init_state search_init (marks_of (lsg D))) = Some ((adj (lg D), []), (sadj (lsg D), []), [(0, Some 3); (1, Some 2)]) /\
  shown_correlated (correlated_many false (lt D) (lst D) 200 any any machine_ints (neg_info_of 67 (lg D) []) (sneg (lsg D)) any any [0; 1; 2; 3] (neg_obss (lg D))
    (adj (lg D), []) (sadj (lsg D), []) init_state search_init (marks_of (lsg D))) = Some ((adj (lg D), []), (sadj (lsg D), []), ((2 ^ 66 + 2)%N, 2%Z)).
Proof.
  eexists. split; [vm_compute; reflexivity|]. split; [split; [repeat constructor; simpl; intuition discriminate|intros v Hv; simpl in Hv; simpl; intuition; subst v; lia]|].
  split; [split; [reflexivity|]; intros v; do 5 (destruct v as [|v]; [reflexivity|]); reflexivity|]. split; [reflexivity|]. split; [reflexivity|]. split; vm_compute; reflexivity.
Qed.
(** Two shots on the same decoder with at most 64 observables; the edges without the observable 66. *)
Definition co_ex2 : list redge := map (fun e => let '((u, x, w, o), rs) := e in ((u, x, w, filter (fun k => k <? 64) o), rs)) co_ex.
Example C48_batch_example : exists D, load 3 4 co_ex2 = Ok D /\
  correlated_batch (correlated_mask false (lt D) (lst D) 200 any any exact_ints (neg_info_of 3 (lg D) []) (sneg (lsg D)) any) [[0; 1; 2; 3]; []; [0; 1; 2; 3]; [3]]
    (adj (lg D), []) (sadj (lsg D), []) init_state search_init (marks_of (lsg D))
  = ((adj (lg D), []), (sadj (lsg D), []), Ok [(2%N, 2%Z); (0%N, 0%Z); (2%N, 2%Z); (4%N, 30%Z)]).
Proof. eexists. split; [vm_compute; reflexivity|]. vm_compute. reflexivity. Qed.
Definition co_ex3 : list redge := [(ed 0 (Some 1) 4 [0], [(2, Some 1, 1%Z)]); (ed 1 (Some 2) 10 [1], [])].
(** The refusals: the event 0 alone in a graph without boundary edges; the flag of a graph loaded without correlations. *)
Example C48_refusal_example : exists D D', load 67 3 co_ex3 = Ok D /\ load 67 4 co_ex = Ok D' /\
  (forall Y, ~ solves (map fst co_ex3) (wanted [] [0]) Y) /\
  correlated_edges false (lt D) (lst D) 200 any any exact_ints (neg_info_of 67 (lg D) []) (sneg (lsg D)) any any [0]
    (adj (lg D), []) (sadj (lsg D), []) init_state search_init (marks_of (lsg D)) = ((adj (lg D), []), (sadj (lsg D), []), Throw) /\
  correlated_edges true (lt D') (lst D') 200 any any exact_ints (neg_info_of 67 (lg D') []) (sneg (lsg D')) any any [0; 1]
    (adj (lg D'), []) (sadj (lsg D'), []) init_state search_init (marks_of (lsg D')) = ((adj (lg D'), []), (sadj (lsg D'), []), Throw).
Proof.
  do 2 eexists. split; [vm_compute; reflexivity|]. split; [vm_compute; reflexivity|]. split; [|split; vm_compute; reflexivity].
  intros Y [L H]. cbn [length map co_ex3] in L. do 2 (destruct Y as [|? Y]; [discriminate|]). destruct Y; [|discriminate].
  pose proof (H 0) as H0. pose proof (H 1) as H1. pose proof (H 2) as H2. clear H L. destruct b, b0; vm_compute in H0, H1, H2; discriminate.
Qed.
