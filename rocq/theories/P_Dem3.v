(** Loading a detector error model: statement-level lemmas. *)
From Coq Require Import Arith List Bool Lia Reals Lra.
From Verif Require Import M_Base M_UserGraph S_UserGraph P_UserGraph S_GraphMap P_GraphMap M_Merge P_Merge S_Merge P_Merge2 M_Dem S_Dem P_Dem P_Dem2.
Import ListNotations.
Local Open Scope R_scope.

Lemma rules_conditional' : forall nd no (dem : list (instruction RD)) g j rules, (forall x, In x dem -> 0 <= fst x) ->
  (forall x, In x dem -> NoDup (pairs_of (snd x))) ->
  load_dem_correlated RD nd no dem = Ok (g, j, rules) ->
  forall i e rs b w, nth_error (edges g) i = Some e -> nth_error rules i = Some rs ->
  let c := ordered (node1 e, node2 e, []) in
  (In (b, w) rs <-> b <> c /\ errors_with c b dem <> [] /\
     w = log_likelihood_ratio (Rmin (1/2) (odd_probability (errors_with c b dem) / odd_probability (errors_with c c dem)))).
Proof.
  intros nd no dem g j rules H1 H2 H3 i e rs b w H4 H5. rewrite <- minmax_ordered. exact (rules_conditional nd no dem g j rules H1 H2 H3 i e rs b w H4 H5).
Qed.

Lemma odd_range : forall ps p, (forall q, In q (p :: ps) -> 0 < q < 1) -> 0 < odd_probability (p :: ps) < 1.
Proof. intros ps p H. rewrite <- merge_probs_odd. apply merge_list_is_llr. exact H. Qed.

Lemma model_llr : forall nd no (dem : list (instruction RD)) e,
  (forall p ts, In (p, ts) dem -> p < 1) -> In e (edges (load_dem RD nd no dem)) ->
  0 < prob e < 1 /\ weight e = log_likelihood_ratio (prob e).
Proof.
  intros nd no dem e H He.
  assert (HI : Inv (load_dem RD nd no dem)).
  { unfold load_dem. rewrite load_dem_calls. apply (calls_effect _ (new_graph (base RD) nd no) (new_inv nd no)). }
  pose proof (edge_data_exists _ e HI He) as HD.
  pose proof (load_dem_real nd no dem (node1 e) (node2 e) H) as HR.
  pose proof (eq_trans (eq_sym HR) HD) as HE. clear HR HD.
  assert (HM : forall m, In m (filter (@acting_on R (node1 e) (node2 e)) (mechanisms RD dem)) -> 0 < fst m < 1).
  { intros [p c] Hm. apply filter_In in Hm. eapply mechanisms_range; [exact H|apply Hm]. }
  change (filter (@acting_on (num (base RD)) (node1 e) (node2 e)) (mechanisms RD dem)) with (filter (@acting_on R (node1 e) (node2 e)) (mechanisms RD dem)) in HE.
  destruct (filter (@acting_on R (node1 e) (node2 e)) (mechanisms RD dem)) as [|[p [c os]] ms]; [discriminate|].
  cbv zeta in HE. unfold attributes_of in HE.
  assert (HQ : 0 < odd_probability (p :: map fst ms) < 1).
  { apply odd_range. intros q [<-|Hq]; [apply (HM _ (or_introl eq_refl))|]. apply in_map_iff in Hq. destruct Hq as (m & <- & Hm). apply HM. right. exact Hm. }
  assert (HF : forall q : R, Some (os, log_likelihood_ratio q, q) = Some (obs e, weight e, prob e) -> 0 < q < 1 ->
    0 < prob e < 1 /\ weight e = log_likelihood_ratio (prob e)).
  { intros q E Hq. injection E as _ E2 E1. rewrite E1 in Hq, E2. split; [exact Hq|]. symmetry. exact E2. }
  exact (HF _ HE HQ).
Qed.

Lemma repeated_component :
  exists (dem : list (instruction RD)) g j rules,
    load_dem_correlated RD 1 0 dem = Ok (g, j, rules) /\
    errors_with (0%nat, None) (0%nat, None) dem = [1/4] /\
    joint_get RD j (0%nat, None) (0%nat, None) = Some (15/32).
Proof.
  set (dem := [(1/4, [Det 0; Sep; Det 0])] : list (instruction RD)).
  assert (H0 : forall x, In x dem -> 0 <= fst x) by (intros x [<-|[]]; cbn; lra).
  assert (E0 : Rltb 0 (1/4) = true) by (apply Rltb_true; lra).
  destruct (load_correlated_total 1 0 dem H0) as [HT [HE|[[[g j] r] HE]]].
  - exfalso. apply HT in HE. destruct HE as (x & [<-|[]] & [HE|[_ HE]]); [cbn in HE; lra|].
    apply HE. left. intros c Hc. cbn in Hc. repeat (destruct Hc as [<-|Hc]; [discriminate|]). destruct Hc.
  - exists dem, g, j, r. split; [exact HE|]. split.
    + unfold errors_with, dem. cbn [filter fst p_pos RD]. rewrite E0. reflexivity.
    + destruct (load_correlated_graph 1 0 dem g j r H0 HE) as (_ & _ & -> & _).
      unfold dem. cbn [fold_left]. unfold instr_joint, use. cbn [fst snd p_pos RD]. rewrite E0. rewrite xors_get.
      match goal with |- context [count_occ ?d ?l ?x] => let v := eval vm_compute in (count_occ d l x) in replace (count_occ d l x) with v by reflexivity end.
      cbn. unfold step_get, bernoulli. cbn. f_equal. unfold bernoulli_xor. lra.
Qed.
