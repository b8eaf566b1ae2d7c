(** C28 (models), C34, C35: loading detector error models. Doubles are modelled by real numbers. *)
From Coq Require Import Arith List Bool Reals Lra.
From Verif Require Import M_Base M_UserGraph S_UserGraph S_GraphMap M_Merge S_Merge M_Dem S_Dem P_Dem P_Dem2 P_Dem3.
Import ListNotations.
Local Open Scope R_scope.

Definition I (p : R) (ts : list target) : instruction RD := (p, ts).

Definition ex_dem : list (instruction RD) :=
  [I (1/4) [Det 0; Sep; Det 1; Det 2; Obs 3]; I (1/10) [Det 2; Obs 0; Det 1];
   I (1/8) [Obs 0]; I (1/3) [Det 5]; I 0 [Det 0; Det 4]].

(** C34: the pair {x,y} has an edge iff some component with one or two detectors (the virtual boundary if one)
    of an instruction of positive probability acts on it; its observables are those of the first such
    component, its probability is that of an odd number of them happening, and its weight is the
    log-likelihood ratio. All other components contribute nothing. *)
Theorem C34_model_loads_as_its_graphlike_components :
  forall nd no (dem : list (instruction RD)) x y,
  (forall p ts, In (p, ts) dem -> p < 1) ->
  get_edge_data (load_dem RD nd no dem) x y =
    match filter (acting_on x y) (mechanisms RD dem) with
    | [] => None
    | (p, (_, os)) :: ms =>
        let q := odd_probability (p :: map fst ms) in
        Some (os, log_likelihood_ratio q, q)
    end.
Proof. exact load_dem_real. Qed.
Print Assumptions C34_model_loads_as_its_graphlike_components.

(** C34: with every detector below the declared number there are exactly that many nodes. *)
Theorem C34_number_of_nodes :
  forall (D : demops) nd no (dem : list (instruction D)),
  (forall p u v os, In (p, (u, v, os)) (mechanisms D dem) -> (u < nd)%nat /\ (forall w, v = Some w -> (w < nd)%nat)) ->
  num_nodes (load_dem D nd no dem) = nd.
Proof. exact load_dem_nodes. Qed.
Print Assumptions C34_number_of_nodes.

(** The components of the example, and what the theorem says about them: the edge {1,2} combines two
    mechanisms and keeps the observables of the first; the hyperedge and the undetectable error vanish. *)
Example C34_ex1 : map components [[Det 0; Sep; Det 1; Det 2; Obs 3]; [Det 1; Det 2; Det 3]; [Obs 0]; [Det 7; Sep; Sep; Obs 1]]
  = [[([0%nat], []); ([1%nat; 2%nat], [3%nat])]; [([1%nat; 2%nat; 3%nat], [])]; [([], [0%nat])];
     [([7%nat], []); ([], []); ([], [1%nat])]].
Proof. reflexivity. Qed.

Lemma ex_below_one : forall p ts, In (p, ts) ex_dem -> p < 1.
Proof. intros p ts H. cbn in H. repeat (destruct H as [H|H]; [injection H as <- <-; lra|]). destruct H. Qed.

Example C34_ex2 : get_edge_data (load_dem RD 6 4 ex_dem) 1 (Some 2%nat) =
  Some ([3%nat], log_likelihood_ratio (3/10), 3/10) /\
  get_edge_data (load_dem RD 6 4 ex_dem) 0 (Some 4%nat) = None.
Proof.
  rewrite !C34_model_loads_as_its_graphlike_components by exact ex_below_one.
  unfold mechanisms. cbn [ex_dem flat_map I]. cbn [p_pos RD].
  assert (E1 : Rltb 0 (1/4) = true) by (apply Rltb_true; lra).
  assert (E2 : Rltb 0 (1/10) = true) by (apply Rltb_true; lra).
  assert (E3 : Rltb 0 (1/8) = true) by (apply Rltb_true; lra).
  assert (E4 : Rltb 0 (1/3) = true) by (apply Rltb_true; lra).
  assert (E5 : Rltb 0 0 = false) by (apply Rltb_false; lra).
  rewrite E1, E2, E3, E4, E5. cbn.
  replace (exactly_one (1 / 4) (exactly_one (1 / 10) 0)) with (3/10) by (unfold exactly_one; lra). split; reflexivity.
Qed.

(** C35: loading with correlations throws exactly when some instruction has probability above 1/2, or
    positive probability and a component with no detector (unless it is the only one) or more than two;
    it never runs into undefined behaviour. *)
Theorem C35_accepted_models :
  forall nd no (dem : list (instruction RD)), (forall x, In x dem -> 0 <= fst x) ->
  (load_dem_correlated RD nd no dem = Throw <->
     exists x, In x dem /\ (1/2 < fst x \/ (0 < fst x /\ ~ acceptable (snd x)))) /\
  (load_dem_correlated RD nd no dem = Throw \/ exists r, load_dem_correlated RD nd no dem = Ok r).
Proof. exact load_correlated_total. Qed.
Print Assumptions C35_accepted_models.

(** C35: an accepted model has the same edges as without correlations. *)
Theorem C35_same_graph :
  forall nd no (dem : list (instruction RD)) g j rules, (forall x, In x dem -> 0 <= fst x) ->
  load_dem_correlated RD nd no dem = Ok (g, j, rules) ->
  forall x y, get_edge_data g x y = get_edge_data (load_dem RD nd no dem) x y.
Proof. exact load_correlated_same_graph. Qed.
Print Assumptions C35_same_graph.

(** C35: every rule of every edge refers to another edge of the graph, and its weight is the
    log-likelihood ratio of a conditional probability capped at 1/2, which is positive: so the weight is
    finite and non-negative. [jp] and [mp] are the joint and marginal probabilities recorded. *)
Theorem C35_rules_well_formed :
  forall nd no (dem : list (instruction RD)) g j rules, (forall x, In x dem -> 0 <= fst x) ->
  load_dem_correlated RD nd no dem = Ok (g, j, rules) ->
  length rules = length (edges g) /\
  forall i e rs b w, nth_error (edges g) i = Some e -> nth_error rules i = Some rs -> In (b, w) rs ->
    (exists e', In e' (edges g) /\ joins e' (fst b) (snd b)) /\ ~ joins e (fst b) (snd b) /\
    exists jp mp, joint_get RD j (minmax (node1 e) (node2 e)) b = Some jp /\
      joint_get RD j (minmax (node1 e) (node2 e)) (minmax (node1 e) (node2 e)) = Some mp /\
      0 < jp /\ 0 < mp /\ 0 < Rmin (1/2) (jp / mp) <= 1/2 /\
      w = log_likelihood_ratio (Rmin (1/2) (jp / mp)) /\ 0 <= w.
Proof. exact rules_well_formed. Qed.
Print Assumptions C35_rules_well_formed.

(** C35: if no instruction has two components on the same pair, the rules of an edge are exactly those for
    the other pairs it shares an error with, with conditional probability P(both) / P(this edge), where
    P is that of an odd number of the errors in question happening. *)
Theorem C35_rules_are_conditional_probabilities :
  forall nd no (dem : list (instruction RD)) g j rules, (forall x, In x dem -> 0 <= fst x) ->
  (forall x, In x dem -> NoDup (pairs_of (snd x))) ->
  load_dem_correlated RD nd no dem = Ok (g, j, rules) ->
  forall i e rs b w, nth_error (edges g) i = Some e -> nth_error rules i = Some rs ->
  let c := ordered (node1 e, node2 e, []) in
  (In (b, w) rs <-> b <> c /\ errors_with c b dem <> [] /\
     w = log_likelihood_ratio (Rmin (1/2) (odd_probability (errors_with c b dem) / odd_probability (errors_with c c dem)))).
Proof. exact rules_conditional'. Qed.
Print Assumptions C35_rules_are_conditional_probabilities.

Example C35_ex : (forall x, In x ex_dem -> 0 <= fst x) /\ (forall x, In x ex_dem -> NoDup (pairs_of (snd x))) /\
  (exists r, load_dem_correlated RD 6 4 ex_dem = Ok r) /\
  errors_with (0%nat, None) (1%nat, Some 2%nat) ex_dem = [1/4] /\
  errors_with (1%nat, Some 2%nat) (1%nat, Some 2%nat) ex_dem = [1/4; 1/10].
Proof.
  assert (H0 : forall x, In x ex_dem -> 0 <= fst x).
  { intros x H. cbn in H. repeat (destruct H as [<-|H]; [cbn; lra|]). destruct H. }
  split; [exact H0|]. split; [|split].
  - intros x H. cbn in H. repeat (destruct H as [<-|H]; [cbn; repeat constructor; cbn; intuition discriminate|]). destruct H.
  - destruct (C35_accepted_models 6 4 ex_dem H0) as [HT [HE|HE]]; [|exact HE]. exfalso. apply HT in HE.
    destruct HE as (x & Hx & HE). cbn in Hx.
    repeat (destruct Hx as [<-|Hx]; [cbn in HE; destruct HE as [HE|[_ HE]]; [lra|apply HE]|]); try destruct Hx.
    all: first [right; eexists; reflexivity | left; intros c Hc; cbn in Hc; repeat (destruct Hc as [<-|Hc]; [discriminate|]); destruct Hc].
  - unfold errors_with. cbn [ex_dem I filter fst p_pos RD].
    assert (E1 : Rltb 0 (1/4) = true) by (apply Rltb_true; lra).
    assert (E2 : Rltb 0 (1/10) = true) by (apply Rltb_true; lra).
    assert (E3 : Rltb 0 (1/8) = true) by (apply Rltb_true; lra).
    assert (E4 : Rltb 0 (1/3) = true) by (apply Rltb_true; lra).
    assert (E5 : Rltb 0 0 = false) by (apply Rltb_false; lra).
    rewrite E1, E2, E3, E4, E5. split; reflexivity.
Qed.

(** C35 refuted without that hypothesis: for an error of probability 1/4 with the same pair twice, the
    recorded marginal is not the probability of the error (nor of the merged edge, 3/8). *)
Theorem C35_repeated_component_refuted :
  exists (dem : list (instruction RD)) g j rules,
    load_dem_correlated RD 1 0 dem = Ok (g, j, rules) /\
    errors_with (0%nat, None) (0%nat, None) dem = [1/4] /\
    joint_get RD j (0%nat, None) (0%nat, None) = Some (15/32).
Proof. exact repeated_component. Qed.
Print Assumptions C35_repeated_component_refuted.

(** C28, for models: every edge's weight is the log-likelihood ratio of its probability. *)
Theorem C28_model_weights :
  forall nd no (dem : list (instruction RD)) e,
  (forall p ts, In (p, ts) dem -> p < 1) -> In e (edges (load_dem RD nd no dem)) ->
  0 < prob e < 1 /\ weight e = log_likelihood_ratio (prob e).
Proof. exact model_llr. Qed.
Print Assumptions C28_model_weights.
