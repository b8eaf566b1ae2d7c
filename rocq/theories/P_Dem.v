(** Loading a detector error model: proofs. *)
From Coq Require Import Arith List Bool Lia Reals Lra.
From Verif Require Import M_Base M_UserGraph S_UserGraph P_UserGraph S_GraphMap P_GraphMap M_Merge P_Merge S_Merge P_Merge2 M_Dem S_Dem.
Import ListNotations.

Section Generic.
Local Open Scope nat_scope.
Variable D : demops.
Notation N := (base D).

Definition mcall (m : num N * (nat * option nat * list nat)) : call N :=
  let '(p, (u, v, os)) := m in mkCall u v os (llr D p) p INDEPENDENT.

Definition ccalls (p : num N) (cs : list (list nat * list nat)) : list (call N) :=
  map mcall (map (fun c => (p, c)) (flat_map (fun c => match graphlike c with Some k => [k] | None => [] end) cs)).

Lemma handle_calls : forall g p ds os, handle_dem_instruction D g p ds os = do_calls g (ccalls p [(ds, os)]).
Proof. intros g p [|d [|d' [|]]] os; reflexivity. Qed.

Lemma do_calls_app : forall (g : ugraph N) a b, do_calls g (a ++ b) = do_calls (do_calls g a) b.
Proof. intros. unfold do_calls. apply fold_left_app. Qed.

Lemma ccalls_cons : forall p c cs, ccalls p (c :: cs) = ccalls p [c] ++ ccalls p cs.
Proof. intros. unfold ccalls. rewrite <- !map_app. f_equal. f_equal. cbn [flat_map]. rewrite app_nil_r. reflexivity. Qed.

Definition prefix (ds os : list nat) (cs : list (list nat * list nat)) :=
  match cs with [] => [] | (ds', os') :: cs' => (ds ++ ds', os ++ os') :: cs' end.

Lemma components_nonnil : forall ts, components ts <> [].
Proof. induction ts as [|[d|o|] ts IH]; cbn; try discriminate; destruct (components ts) as [|[? ?] ?]; try congruence; discriminate. Qed.

Lemma iter_targets_calls : forall ts g p ds os,
  iter_targets D g p ds os ts = if p_pos D p then do_calls g (ccalls p (prefix ds os (components ts))) else g.
Proof.
  induction ts as [|t ts IH]; intros g p ds os; cbn [iter_targets components].
  - rewrite handle_calls. cbn [prefix]. rewrite !app_nil_r. reflexivity.
  - pose proof (components_nonnil ts) as Hne.
    destruct t as [d|o|].
    + rewrite IH. destruct (p_pos D p); [|reflexivity]. destruct (components ts) as [|[ds' os'] cs]; [congruence|].
      cbn [prefix]. rewrite <- app_assoc. reflexivity.
    + rewrite IH. destruct (p_pos D p); [|reflexivity]. destruct (components ts) as [|[ds' os'] cs]; [congruence|].
      cbn [prefix]. rewrite <- app_assoc. reflexivity.
    + destruct (p_pos D p) eqn:E; rewrite IH, E; [|reflexivity]. rewrite handle_calls. cbn [prefix]. rewrite !app_nil_r.
      rewrite (ccalls_cons p (ds, os) (components ts)), do_calls_app. f_equal.
      destruct (components ts) as [|[ds' os'] cs]; [congruence|reflexivity].
Qed.

Lemma load_dem_calls : forall dem g,
  fold_left (fun g '(p, ts) => iter_targets D g p [] [] ts) dem g = do_calls g (map mcall (mechanisms D dem)).
Proof.
  induction dem as [|[p ts] dem IH]; intros g; [reflexivity|].
  cbn [fold_left]. rewrite IH, iter_targets_calls. cbn [mechanisms flat_map]. rewrite map_app, do_calls_app. f_equal.
  destruct (p_pos D p); [|reflexivity]. unfold ccalls, graphlike_components. pose proof (components_nonnil ts).
  destruct (components ts) as [|[ds' os'] cs]; [congruence|reflexivity].
Qed.

Lemma load_dem_map : forall nd no dem x y,
  get_edge_data (load_dem D nd no dem) x y = effects x y None (map mcall (mechanisms D dem)).
Proof.
  intros. unfold load_dem. rewrite load_dem_calls.
  destruct (calls_effect (map mcall (mechanisms D dem)) (new_graph N nd no) (new_inv nd no)) as (_ & H & _).
  rewrite H. f_equal. apply data_none; [apply new_inv|]. intros e [].
Qed.

Lemma load_dem_nodes : forall nd no dem,
  (forall p u v os, In (p, (u, v, os)) (mechanisms D dem) -> u < nd /\ (forall w, v = Some w -> w < nd)) ->
  num_nodes (load_dem D nd no dem) = nd.
Proof.
  intros nd no dem H. unfold load_dem, num_nodes. rewrite load_dem_calls.
  destruct (calls_effect (map mcall (mechanisms D dem)) (new_graph N nd no) (new_inv nd no)) as (_ & _ & -> & _).
  unfold new_graph. cbn [nodes]. rewrite repeat_length. clear -H.
  induction (mechanisms D dem) as [|[p [[u v] os]] ms IH]; [reflexivity|].
  cbn [map fold_left]. cbn [mcall c_u c_v].
  replace (Nat.max nd (S (max_node u v))) with nd.
  - apply IH. intros. eapply H. right. eassumption.
  - destruct (H p u v os (or_introl eq_refl)) as [A B]. unfold max_node. destruct v as [v|]; [specialize (B v eq_refl)|]; lia.
Qed.
End Generic.

(** Reals *)
Local Open Scope R_scope.

Lemma Rltb_true : forall a b, Rltb a b = true <-> a < b.
Proof. intros. unfold Rltb. destruct (Rlt_dec a b); split; intros; try lra; try discriminate; reflexivity. Qed.
Lemma Rltb_false : forall a b, Rltb a b = false <-> b <= a.
Proof. intros. unfold Rltb. destruct (Rlt_dec a b); split; intros; try lra; try discriminate; reflexivity. Qed.

Lemma filter_calls : forall x y (ms : list (R * (nat * option nat * list nat))),
  filter (on_pair x y) (map (mcall RD) ms) = map (mcall RD) (filter (acting_on x y) ms).
Proof.
  induction ms as [|[p [[u v] os]] ms IH]; [reflexivity|]. cbn [map filter]. rewrite IH.
  change (on_pair x y (mcall RD (p, (u, v, os)))) with (acting_on x y (p, (u, v, os))).
  destruct (acting_on x y (p, (u, v, os))); reflexivity.
Qed.

Lemma mechanisms_range : forall dem, (forall p ts, In (p, ts) dem -> p < 1) ->
  forall p c, In (p, c) (mechanisms RD dem) -> 0 < p < 1.
Proof.
  intros dem H p c Hin. unfold mechanisms in Hin. apply in_flat_map in Hin. destruct Hin as ([q ts] & Hq & Hin).
  destruct (p_pos RD q) eqn:E; [|destruct Hin]. apply in_map_iff in Hin. destruct Hin as (c' & E' & _). injection E' as -> _.
  split; [apply Rltb_true; exact E|eapply H; eauto].
Qed.

Lemma load_dem_real : forall nd no (dem : list (instruction RD)) x y,
  (forall p ts, In (p, ts) dem -> p < 1) ->
  get_edge_data (load_dem RD nd no dem) x y =
    match filter (acting_on x y) (mechanisms RD dem) with
    | [] => None
    | (p, (_, os)) :: ms =>
        let q := odd_probability (p :: map fst ms) in
        Some (os, log_likelihood_ratio q, q)
    end.
Proof.
  intros nd no dem x y H. rewrite load_dem_map.
  etransitivity.
  { apply (effects_independent_none x y (map (mcall RD) (mechanisms RD dem))).
    intros c Hc. apply in_map_iff in Hc. destruct Hc as ([p [[u v] os]] & <- & _). reflexivity. }
  rewrite filter_calls.
  change (filter (@acting_on (num (base RD)) x y) (mechanisms RD dem)) with (filter (@acting_on R x y) (mechanisms RD dem)).
  assert (HR : forall m, In m (filter (@acting_on R x y) (mechanisms RD dem)) -> 0 < fst m < 1).
  { intros [p c] Hm. apply filter_In in Hm. eapply mechanisms_range; [exact H|apply Hm]. }
  destruct (filter (@acting_on R x y) (mechanisms RD dem)) as [|[p [[u v] os]] ms]; [reflexivity|].
  cbn [map]. cbn [mcall c_obs c_w c_p].
  assert (E1 : map (@c_w RN) (map (mcall RD) ms) = map to_weight (map fst ms)).
  { rewrite !map_map. apply map_ext. intros [q [[a b] o]]. reflexivity. }
  assert (E2 : map (@c_p RN) (map (mcall RD) ms) = map fst ms).
  { rewrite map_map. apply map_ext. intros [q [[a b] o]]. reflexivity. }
  rewrite E1, E2.
  assert (HR' : forall q, In q (p :: map fst ms) -> 0 < q < 1).
  { intros q [<-|Hq]; [apply (HR _ (or_introl eq_refl))|]. apply in_map_iff in Hq. destruct Hq as (m & <- & Hm). apply HR. right. exact Hm. }
  rewrite fold_fp by (intros q Hq; specialize (HR' q Hq); lra).
  destruct (merge_list_is_llr (map fst ms) p HR') as [HL _].
  cbv zeta. rewrite <- merge_probs_odd. f_equal. f_equal. f_equal. exact HL.
Qed.
