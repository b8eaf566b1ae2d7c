(** Correlated decoding with a detector error model: the pairs of the model and the edges of the graph. *)
From Coq Require Import Reals ZArith List Bool Arith Lia Lra Permutation.
From Verif Require Import S_Reach S_Spread P_Spread P_Compact M_Base M_Core M_CoreHeap M_Bits M_Build S_Build P_Build S_Flip M_Merge P_Merge S_Merge P_Merge2 M_Dem S_Dem P_Dem P_Dem2 P_Dem3 M_Discretise P_Discretise M_Matching S_Matching P_Matching P_Pipeline S_GraphMap P_GraphMap M_UserGraph S_UserGraph P_UserGraph S_Pipeline S_DemDecode P_DemDecode
  M_CorrDecode P_CorrDecode P_CorrBuild P_CorrGraph P_CorrSession S_CorrDecode.
Import ListNotations.
Local Open Scope R_scope.

(** ** Probabilities *)
Lemma llr_anti : forall a b, 0 < a -> a <= b -> b < 1 -> log_likelihood_ratio b <= log_likelihood_ratio a.
Proof.
  intros a b Ha Hab Hb. unfold log_likelihood_ratio. destruct Hab as [L|<-]; [|lra]. left. apply ln_increasing.
  - apply Rdiv_lt_0_compat; lra.
  - apply Rmult_lt_reg_r with (a * b); [nra|]. replace ((1 - b) / b * (a * b)) with ((1 - b) * a) by (field; lra). replace ((1 - a) / a * (a * b)) with ((1 - a) * b) by (field; lra). nra.
Qed.
Lemma llr_half : log_likelihood_ratio (1/2) = 0.
Proof. unfold log_likelihood_ratio. replace ((1 - 1/2) / (1/2)) with 1 by field. apply ln_1. Qed.
Lemma llr_pos : forall p, 0 < p <= 1/2 -> 0 <= log_likelihood_ratio p.
Proof. intros p H. rewrite <- llr_half. apply llr_anti; lra. Qed.
Lemma llr_max : forall a b, 0 < a < 1 -> 0 < b < 1 -> log_likelihood_ratio (Rmax a b) = Rmin (log_likelihood_ratio a) (log_likelihood_ratio b).
Proof.
  intros a b Ha Hb. destruct (Rle_dec a b) as [L|L].
  - rewrite Rmax_right, Rmin_right; [reflexivity|apply llr_anti; lra|lra].
  - rewrite Rmax_left, Rmin_left; [reflexivity|apply llr_anti; lra|lra].
Qed.
Lemma odd_half : forall ps, (forall q, In q ps -> 0 < q <= 1/2) -> 0 <= odd_probability ps <= 1/2 /\ forall q, In q ps -> q <= odd_probability ps.
Proof.
  induction ps as [|p ps IH]; intros H; [cbn; split; [lra|intros q []]|]. destruct (IH (fun q Hq => H q (or_intror Hq))) as [R L]. pose proof (H p (or_introl eq_refl)) as Hp. cbn [odd_probability]. unfold exactly_one. split; [nra|].
  intros q [<-|Hq]; [nra|]. specialize (L q Hq). nra.
Qed.

(** ** Mechanisms and pairs *)
Local Notation kin := (in_dec (prod_eq_dec Nat.eq_dec (option_eq_dec Nat.eq_dec))).
Definition okey (x : nat) (y : option nat) : key := ordered (x, y, []).
Lemma okey_ordered : forall x y os, ordered (x, y, os) = okey x y.
Proof. intros x [y|] os; reflexivity. Qed.
Lemma acting_key : forall (p : R) u v os x y, acting_on x y (p, (u, v, os)) = true <-> okey u v = okey x y.
Proof. intros. cbn [acting_on]. rewrite (same_pair_ordered u v os), (minmax_ordered x y []), okey_ordered. reflexivity. Qed.
Lemma okey_idem : forall k, k = okey (fst k) (snd k) -> forall x y, okey x y = k <-> okey x y = okey (fst k) (snd k).
Proof. intros k E x y. rewrite <- E. reflexivity. Qed.
Lemma okey_fst : forall x y, okey (fst (okey x y)) (snd (okey x y)) = okey x y.
Proof. intros x y. unfold okey at 1. rewrite <- minmax_ordered. unfold okey. apply minmax_idem. Qed.

Lemma filter_in_pairs : forall (p : R) x y cs, NoDup (map ordered cs) ->
  map fst (filter (acting_on x y) (map (fun c => (p, c)) cs)) = if kin (okey x y) (map ordered cs) then [p] else [].
Proof.
  intros p x y. induction cs as [|[[u v] os] cs IH]; intros ND; [reflexivity|]. cbn [map] in ND. apply NoDup_cons_iff in ND as [N1 N2]. specialize (IH N2). cbn [map filter].
  destruct (acting_on x y (p, (u, v, os))) eqn:Ea.
  - apply acting_key in Ea. cbn [map fst]. rewrite IH. rewrite okey_ordered, Ea in N1.
    destruct (kin (okey x y) (map ordered cs)) as [H|_]; [contradiction|]. destruct (kin (okey x y) (ordered (u, v, os) :: map ordered cs)) as [_|H]; [reflexivity|]. elim H. left. rewrite okey_ordered. exact Ea.
  - rewrite IH. assert (NE : okey u v <> okey x y) by (intros E; rewrite <- (acting_key p u v os) in E; congruence).
    destruct (kin (okey x y) (map ordered cs)) as [H|H], (kin (okey x y) (ordered (u, v, os) :: map ordered cs)) as [H'|H']; try reflexivity.
    + elim H'. now right.
    + destruct H' as [H'|H']; [|contradiction]. rewrite okey_ordered in H'. contradiction.
Qed.
Lemma on_pair_errors : forall (dem : list (instruction RD)) x y, (forall p ts, In (p, ts) dem -> NoDup (S_Dem.pairs_of ts)) ->
  map fst (filter (acting_on x y) (mechanisms RD dem)) = errors_with (okey x y) (okey x y) dem.
Proof.
  induction dem as [|[p ts] dem IH]; intros x y ND; [reflexivity|]. unfold mechanisms, errors_with in *. cbn [flat_map filter fst]. rewrite filter_app, map_app, (IH x y) by (intros; eapply ND; right; eassumption).
  destruct (p_pos RD p); [|reflexivity]. cbn [flat_map]. f_equal. pose proof (filter_in_pairs p x y (graphlike_components ts) (ND p ts (or_introl eq_refl))) as X. unfold S_Dem.pairs_of.
  change (num (base RD)) with R. rewrite X. destruct (kin (okey x y) (map ordered (graphlike_components ts))) as [H|H]; [|reflexivity]. reflexivity.
Qed.
Lemma in_errors : forall a b (dem : list (instruction RD)) p, In p (errors_with a b dem) <-> exists ts, In (p, ts) dem /\ 0 < p /\ In a (S_Dem.pairs_of ts) /\ In b (S_Dem.pairs_of ts).
Proof.
  intros a b dem p. unfold errors_with. rewrite in_flat_map. split.
  - intros ([q ts] & Hx & Hp). apply filter_In in Hx as [Hx Hu]. cbn [fst] in Hu. apply Rltb_true in Hu. destruct (kin a (S_Dem.pairs_of ts)) as [Ha|]; [|destruct Hp]. destruct (kin b (S_Dem.pairs_of ts)) as [Hb|]; [|destruct Hp]. destruct Hp as [<-|[]]. exists ts. auto.
  - intros (ts & Hx & Hp & Ha & Hb). exists (p, ts). split; [apply filter_In; split; [exact Hx|]; now apply Rltb_true|]. destruct (kin a (S_Dem.pairs_of ts)) as [_|]; [|contradiction]. destruct (kin b (S_Dem.pairs_of ts)) as [_|]; [|contradiction]. now left.
Qed.
Lemma pair_mechanism : forall (dem : list (instruction RD)) p ts k, In (p, ts) dem -> 0 < p -> In k (S_Dem.pairs_of ts) -> exists c, In (p, c) (mechanisms RD dem) /\ ordered c = k.
Proof.
  intros dem p ts k Hx Hp Hk. apply in_map_iff in Hk as (c & E & Hc). exists c. split; [|exact E]. unfold mechanisms. apply in_flat_map. exists (p, ts). split; [exact Hx|].
  assert (p_pos RD p = true) as -> by now apply Rltb_true. now apply in_map.
Qed.
Lemma mechanism_pair : forall (dem : list (instruction RD)) p c, In (p, c) (mechanisms RD dem) -> exists ts, In (p, ts) dem /\ 0 < p /\ In (ordered c) (S_Dem.pairs_of ts).
Proof.
  intros dem p c H. unfold mechanisms in H. apply in_flat_map in H as ([q ts] & Hx & H). destruct (p_pos RD q) eqn:E; [|destruct H]. apply in_map_iff in H as (c' & E' & Hc). injection E' as -> ->. exists ts. split; [exact Hx|]. split; [now apply Rltb_true in E|]. now apply in_map.
Qed.

Section Model.
Variables (nd no : nat) (dem : list (instruction RD)) (M : R).
Hypothesis SM : sound_correlated_model nd no M dem.
Let ms : list mechanism := mechanisms RD dem.
Lemma sm_nonneg : forall x, In x dem -> 0 <= fst x.
Proof. intros [p ts] Hx. apply (proj1 SM p ts Hx). Qed.
Lemma sm_nodup : forall p ts, In (p, ts) dem -> NoDup (S_Dem.pairs_of ts).
Proof. intros p ts Hx. apply (proj1 SM p ts Hx). Qed.
Lemma sm_below : forall p ts, In (p, ts) dem -> p < 1.
Proof. intros p ts Hx. pose proof (proj1 (proj1 SM p ts Hx)). lra. Qed.
Lemma sm_range : forall p a b os, In (p, (a, b, os)) ms -> (a < nd)%nat /\ (forall c, b = Some c -> (c < nd)%nat /\ c <> a) /\ forall k, In k os -> (k < no)%nat.
Proof. exact (proj1 (proj2 (proj2 (proj2 SM)))). Qed.
Lemma errors_range : forall a b q, In q (errors_with a b dem) -> 0 < q <= 1/2 /\ log_likelihood_ratio q <= M.
Proof.
  intros a b q Hq. apply in_errors in Hq as (ts & Hx & Hp & Ha & _). split; [pose proof (proj1 (proj1 SM q ts Hx)); lra|].
  destruct (pair_mechanism dem q ts a Hx Hp Ha) as (c & Hm & _). exact (proj1 (proj2 SM) _ Hm).
Qed.
(** a probability that comes of some error *)
Lemma odd_weight : forall a b, errors_with a b dem <> [] -> 0 < odd_probability (errors_with a b dem) <= 1/2 /\ exists q, In q (errors_with a b dem) /\ q <= odd_probability (errors_with a b dem).
Proof.
  intros a b NE. destruct (odd_half (errors_with a b dem) (fun q Hq => proj1 (errors_range a b q Hq))) as [R L]. destruct (errors_with a b dem) as [|q l] eqn:El; [congruence|]. specialize (L q (or_introl eq_refl)).
  assert (Hq : In q (errors_with a b dem)) by (rewrite El; now left). pose proof (proj1 (errors_range a b q Hq)). split; [lra|]. exists q. split; [now left|exact L].
Qed.
Lemma weight_range : forall p q, 0 < q <= p -> p <= 1/2 -> log_likelihood_ratio q <= M -> 0 <= log_likelihood_ratio p <= M.
Proof. intros p q Hq Hp HM. split; [apply llr_pos; lra|]. eapply Rle_trans; [|exact HM]. apply llr_anti; lra. Qed.
Lemma errors_both : forall a b, errors_with a b dem <> [] -> errors_with a a dem <> [] /\ errors_with b b dem <> [].
Proof.
  intros a b NE. destruct (errors_with a b dem) as [|q l] eqn:El; [congruence|]. assert (Hq : In q (errors_with a b dem)) by (rewrite El; now left). apply in_errors in Hq as (ts & Hx & Hp & Ha & Hb).
  split; intros E; [assert (X : In q (errors_with a a dem))|assert (X : In q (errors_with b b dem))]; try (apply in_errors; exists ts; auto); rewrite E in X; destruct X.
Qed.
Lemma given_range : forall f k, errors_with f k dem <> [] -> 0 < given dem f k <= 1/2 /\ 0 <= log_likelihood_ratio (given dem f k) <= M.
Proof.
  intros f k NE. destruct (odd_weight f k NE) as (R & q & Hq & Lq). destruct (odd_weight f f (proj1 (errors_both f k NE))) as (R' & _). pose proof (errors_range f k q Hq) as [Rq Mq]. unfold given, alone.
  assert (D : odd_probability (errors_with f k dem) <= odd_probability (errors_with f k dem) / odd_probability (errors_with f f dem)).
  { apply Rmult_le_reg_r with (odd_probability (errors_with f f dem)); [lra|]. unfold Rdiv. rewrite Rmult_assoc, Rinv_l by lra. nra. }
  assert (X : q <= Rmin (1/2) (odd_probability (errors_with f k dem) / odd_probability (errors_with f f dem)) <= 1/2) by (split; [apply Rmin_glb; lra|apply Rmin_l]).
  split; [lra|]. apply (weight_range _ q); lra.
Qed.

Lemma model_loads : exists G, load_model true nd no dem = Ok G.
Proof.
  destruct (load_correlated_total nd no dem sm_nonneg) as [HT [HE|[[[g j] r] HE]]].
  - exfalso. apply HT in HE as ([p ts] & Hx & H). cbn [fst snd] in H. destruct (proj1 SM p ts Hx) as (Hp & _ & Ha). destruct H as [H|[H1 H2]]; [lra|]. exact (H2 (Ha H1)).
  - exists (mkCG g r false). unfold load_model. rewrite HE. reflexivity.
Qed.

Variable G : cgraph.
Hypothesis HG : load_model true nd no dem = Ok G.
Let g : ugraph RN := c_graph G.
Lemma loaded_as : exists j, load_dem_correlated RD nd no dem = Ok (g, j, c_rules G) /\ c_plain G = false.
Proof.
  unfold load_model in HG. destruct (load_dem_correlated RD nd no dem) as [[[g0 j] r]| | |] eqn:E; cbn [bindO] in HG; try discriminate. exists j. unfold g. injection HG as <-. split; reflexivity.
Qed.
Lemma loaded_calls : g = do_calls (new_graph RN nd no) (flat_map instr_calls dem).
Proof.
  destruct loaded_as as (j & H & _). unfold load_dem_correlated in H. destruct (correlated_instructions RD _ dem) as [[g0 j0]| | |] eqn:E; cbn [bindO] in H; try discriminate.
  apply correlated_instructions_ok in E; [|exact sm_nonneg]. destruct E as (_ & E1 & _). destruct (mapO _ _) as [r| | |]; cbn [bindO] in H; try discriminate. injection H as H _ _. exact (eq_trans (eq_sym H) E1).
Qed.
Lemma call_of : forall cl, In cl (flat_map instr_calls dem) -> exists p a b os, In (p, (a, b, os)) ms /\ c_u cl = fst (okey a b) /\ c_v cl = snd (okey a b) /\ c_obs cl = os.
Proof.
  intros cl H. apply in_flat_map in H as ([p ts] & Hx & H). unfold instr_calls in H. destruct (use (p, ts)) eqn:Eu; [|destruct H]. cbn [fst snd] in H. apply in_map_iff in H as ([[a b] os] & <- & Hc).
  exists p, a, b, os. split.
  - unfold ms, mechanisms. apply in_flat_map. exists (p, ts). split; [exact Hx|]. unfold use in Eu. cbn [fst] in Eu. rewrite Eu. now apply in_map.
  - unfold sorted_comp. cbn [snd]. rewrite okey_ordered. destruct (okey a b) as [u v]. repeat split.
Qed.
Lemma loaded_inv : Inv g.
Proof. rewrite loaded_calls. apply calls_effect. apply new_inv. Qed.
Lemma loaded_flags : flags_ok RN g.
Proof. rewrite loaded_calls. apply calls_flags. apply flags_new. Qed.
Lemma loaded_bare : bnodes g = [].
Proof. rewrite loaded_calls. destruct (calls_effect (flat_map instr_calls dem) (new_graph RN nd no) (new_inv nd no)) as (_ & _ & _ & H). exact H. Qed.
Lemma loaded_nobs : nobs g = no.
Proof.
  rewrite loaded_calls, calls_nobs; [reflexivity|]. intros cl x Hc Hx. apply call_of in Hc as (p & a & b & os & Hm & _ & _ & Eo). rewrite Eo in Hx. exact (proj2 (proj2 (sm_range p a b os Hm)) x Hx).
Qed.
Lemma loaded_nodes : num_nodes g = nd.
Proof.
  rewrite loaded_calls. unfold num_nodes. destruct (calls_effect (flat_map instr_calls dem) (new_graph RN nd no) (new_inv nd no)) as (_ & _ & -> & _).
  unfold new_graph. cbn [nodes]. rewrite repeat_length. pose proof call_of as H. revert H. generalize (flat_map instr_calls dem). induction l as [|cl l IH]; intros H; [reflexivity|]. cbn [fold_left].
  replace (Nat.max nd (S (max_node (c_u cl) (c_v cl)))) with nd; [apply IH; intros; apply H; now right|].
  destruct (H cl (or_introl eq_refl)) as (p & a & b & os & Hm & -> & -> & _). destruct (sm_range p a b os Hm) as (A & B & _). unfold max_node, okey, ordered. destruct b as [b|]; cbn [fst snd]; [specialize (proj1 (B b eq_refl))|]; lia.
Qed.
Lemma loaded_data : forall x y, get_edge_data g x y = match filter (acting_on x y) ms with [] => None | (p, (_, os)) :: l => let q := odd_probability (p :: map fst l) in Some (os, log_likelihood_ratio q, q) end.
Proof.
  intros x y. destruct loaded_as as (j & H & _). destruct (load_correlated_graph nd no dem _ j _ sm_nonneg H) as (_ & HD & _). etransitivity; [apply HD|]. exact (load_dem_real nd no dem x y sm_below).
Qed.
Definition ekey (e : uedge RN) : key := okey (node1 e) (node2 e).
Lemma loaded_edge : forall e, In e (edges g) -> exists m l, filter (acting_on (node1 e) (node2 e)) ms = m :: l /\ obs e = snd (snd m) /\ weight e = log_likelihood_ratio (alone dem (ekey e)).
Proof.
  intros e He. pose proof (edge_data_exists g e loaded_inv He) as D. rewrite (loaded_data (node1 e) (node2 e)) in D.
  pose proof (on_pair_errors dem (node1 e) (node2 e) sm_nodup) as A. fold ms in A. destruct (filter (acting_on (node1 e) (node2 e)) ms) as [|[p [k os]] l] eqn:El; [discriminate|]. cbv zeta in D. injection D as D1 D2 D3.
  exists (p, (k, os)), l. split; [reflexivity|]. split; [now symmetry|]. unfold alone, ekey. rewrite <- D2. f_equal. exact (eq_trans (f_equal (fun z => odd_probability (map fst z)) (eq_sym El)) (f_equal odd_probability A)).
Qed.
Lemma edge_mechanism : forall e, In e (edges g) -> exists p a b os, In (p, (a, b, os)) ms /\ okey a b = ekey e.
Proof.
  intros e He. destruct (loaded_edge e He) as ([p [[a b] os]] & l & El & _). assert (H : In (p, (a, b, os)) (filter (acting_on (node1 e) (node2 e)) ms)) by (rewrite El; now left).
  apply filter_In in H as [H1 H2]. apply acting_key in H2. exists p, a, b, os. auto.
Qed.
Lemma mechanism_edge : forall p a b os, In (p, (a, b, os)) ms -> exists e, In e (edges g) /\ ekey e = okey a b.
Proof.
  intros p a b os Hm. pose proof (loaded_data a b) as D. destruct (filter (acting_on a b) ms) as [|[q [k os']] l] eqn:El.
  - assert (X : In (p, (a, b, os)) (filter (acting_on a b) ms)) by (apply filter_In; split; [exact Hm|]; now apply acting_key). rewrite El in X. destruct X.
  - cbv zeta in D. apply (proj1 (get_edge_data_spec (N := RN) g a b _ loaded_inv)) in D. destruct D as (e & He & J & _). exists e. split; [exact He|]. unfold ekey, okey. rewrite <- !minmax_ordered. now apply joins_minmax.
Qed.
Lemma pair_edge : forall k, pair_of_model dem k <-> exists e, In e (edges g) /\ ekey e = k.
Proof.
  intros k. split.
  - intros ([p [[a b] os]] & Hm & E). cbn [snd] in E. rewrite okey_ordered in E. destruct (mechanism_edge p a b os Hm) as (e & He & Ek). exists e. split; [exact He|congruence].
  - intros (e & He & <-). destruct (edge_mechanism e He) as (p & a & b & os & Hm & E). exists (p, (a, b, os)). split; [exact Hm|]. cbn [snd]. now rewrite okey_ordered.
Qed.
Lemma pair_errors : forall k, pair_of_model dem k -> errors_with k k dem <> [].
Proof.
  intros k ([p c] & Hm & E) N. cbn [snd] in E. destruct (mechanism_pair dem p c Hm) as (ts & Hx & Hp & Hk). rewrite E in Hk. assert (X : In p (errors_with k k dem)) by (apply in_errors; exists ts; auto). rewrite N in X. destruct X.
Qed.
Lemma alone_range : forall k, pair_of_model dem k -> 0 < alone dem k <= 1/2.
Proof. intros k Hk. exact (proj1 (odd_weight k k (pair_errors k Hk))). Qed.
Lemma edge_key_inj : forall e f, In e (edges g) -> In f (edges g) -> ekey e = ekey f -> e = f.
Proof.
  intros e f He Hf E. apply (joined_same g loaded_inv e f He Hf). unfold ekey in E. pose proof (proj2 (same_pair_ordered (node1 f) (node2 f) [] (node1 e) (node2 e))) as X.
  rewrite (minmax_ordered _ _ []), okey_ordered in X. specialize (X (eq_sym E)). apply joins_same_pair. apply same_pair_spec in X. apply same_pair_spec. destruct X as [[X1 X2]|[X1 X2]]; [left|right]; split; congruence.
Qed.
Lemma rule_spec : forall i e rs b w, nth_error (edges g) i = Some e -> nth_error (c_rules G) i = Some rs ->
  (In (b, w) rs <-> b <> ekey e /\ errors_with (ekey e) b dem <> [] /\ w = log_likelihood_ratio (given dem (ekey e) b)).
Proof.
  intros i e rs b w He Hr. destruct loaded_as as (j & H & _). refine (rules_conditional' nd no dem _ j _ sm_nonneg _ H i e rs b w He Hr). intros [p ts] Hx. exact (sm_nodup p ts Hx).
Qed.
Lemma rules_length : length (c_rules G) = length (edges g).
Proof. destruct loaded_as as (j & H & _). exact (proj1 (rules_well_formed nd no dem _ j _ sm_nonneg H)). Qed.
Lemma errors_pair : forall a b, errors_with a b dem <> [] -> pair_of_model dem b.
Proof.
  intros a b NE. destruct (errors_with a b dem) as [|q l] eqn:El; [congruence|]. assert (Hq : In q (errors_with a b dem)) by (rewrite El; now left). apply in_errors in Hq as (ts & Hx & Hp & _ & Hb).
  destruct (pair_mechanism dem q ts b Hx Hp Hb) as (c & Hm & E). exists (q, c). auto.
Qed.
Lemma loaded_sound : sound_graph G M.
Proof.
  split; try exact loaded_inv; try exact loaded_flags; try exact loaded_bare; try exact rules_length.
  - intros e x He Hx. fold g. rewrite loaded_nobs. destruct (loaded_edge e He) as ([p [[a b] os]] & l & El & Ho & _). rewrite Ho in Hx. cbn in Hx. apply (sm_range p a b os); [|exact Hx].
    apply (proj1 (proj1 (filter_In (acting_on (node1 e) (node2 e)) _ _) ltac:(rewrite El; now left))).
  - exact (proj2 (proj1 (proj2 (proj2 SM)))).
  - intros e He. destruct (loaded_edge e He) as (m & l & _ & _ & Ew). fold g in He.
    assert (Hk : pair_of_model dem (ekey e)) by (apply pair_edge; eauto). destruct (odd_weight _ _ (pair_errors _ Hk)) as (R & q & Hq & L). pose proof (errors_range _ _ q Hq). rewrite Ew. unfold alone. apply (weight_range _ q); lra.
  - intros e He E. destruct (edge_mechanism e He) as (p & a & b & os & Hm & Ek). destruct (sm_range p a b os Hm) as (_ & B & _). unfold ekey in Ek. rewrite E in Ek. unfold okey, ordered in Ek. destruct b as [b|]; [|discriminate].
    injection Ek as E1 E2. apply (proj2 (B b eq_refl)). lia.
  - intros rs k w Hr Hk. apply In_nth_error in Hr as [i Hi]. destruct (nth_error (edges g) i) as [e|] eqn:Ee.
    2: { exfalso. apply nth_error_None in Ee. pose proof rules_length. assert (i < length (c_rules G))%nat by (apply nth_error_Some; congruence). lia. }
    destruct (proj1 (rule_spec i e rs k w Ee Hi) Hk) as (Hne & NE & Hw). rewrite Hw. split; [exact (proj2 (given_range _ _ NE))|]. apply errors_pair in NE. apply pair_edge in NE as (e' & He' & E'). exists e'. split; [exact He'|]. apply minmax_joins. rewrite (minmax_ordered _ _ []). exact E'.
  - destruct (proj2 (proj2 (proj2 (proj2 SM)))) as [H|(k & Hk & H)].
    + assert (Z : edges g = []). { destruct (edges g) as [|e l] eqn:E; [reflexivity|]. elim (H (ekey e)). apply pair_edge. exists e. split; [rewrite E; now left|reflexivity]. }
      assert (ZR : c_rules G = []) by (pose proof rules_length as L; rewrite Z in L; destruct (c_rules G); [reflexivity|discriminate]). fold g. rewrite Z, ZR. left. intros w [].
    + right. apply pair_edge in Hk as (e & He & <-). exists (weight e). split; [apply in_or_app; left; apply in_map_iff; exists e; split; [reflexivity|exact He]|].
      destruct (loaded_edge e He) as (m & l & _ & _ & Ew). eapply Rle_trans; [exact H|]. rewrite Ew. apply Rle_abs.
  - destruct loaded_as as (j & _ & H). exact H.
Qed.

(** ** Choices of edges and sets of pairs *)
Section Order.
Variable Q : list ruled.
Hypothesis PQ : Permutation Q (combine (edges g) (c_rules G)).
Definition keyof (q : ruled) : key := ekey (fst q).
Lemma q_edge : forall q, In q Q -> In (fst q) (edges g).
Proof. intros q Hq. exact (proj1 (Q_in G M loaded_sound Q PQ q Hq)). Qed.
Lemma q_pair : forall q, In q Q -> pair_of_model dem (keyof q).
Proof. intros q Hq. apply pair_edge. exists (fst q). split; [now apply q_edge|reflexivity]. Qed.
Lemma pair_q : forall k, pair_of_model dem k -> exists q, In q Q /\ keyof q = k.
Proof.
  intros k Hk. apply pair_edge in Hk as (e & He & E). pose proof (es_fst G M loaded_sound) as X. fold g in X. rewrite <- X in He. apply in_map_iff in He as (q & Eq & Hq).
  exists q. split; [exact (Permutation_in q (Permutation_sym PQ) Hq)|]. unfold keyof. rewrite Eq. exact E.
Qed.
Lemma keys_NoDup : NoDup (map keyof Q).
Proof.
  assert (P : Permutation (map keyof Q) (map ekey (edges g))).
  { pose proof (es_fst G M loaded_sound) as X. fold g in X. rewrite <- X, map_map. exact (Permutation_map keyof PQ). }
  apply (Permutation_NoDup (Permutation_sym P)). pose proof (edges_NoDup g loaded_inv) as N. pose proof edge_key_inj as I. revert N I. generalize (edges g). induction l as [|e l IH]; intros N I; [constructor|]. apply NoDup_cons_iff in N as [N1 N2]. cbn [map]. constructor.
  - intros H. apply in_map_iff in H as (f & E & Hf). rewrite (I f e (or_intror Hf) (or_introl eq_refl) E) in Hf. contradiction.
  - apply IH; [exact N2|]. intros a b Ha Hb. apply I; now right.
Qed.
Lemma q_weight_key : forall q, In q Q -> q_weight q = log_likelihood_ratio (alone dem (keyof q)).
Proof. intros q Hq. destruct (loaded_edge (fst q) (q_edge q Hq)) as (m & l & _ & _ & H). exact H. Qed.
Lemma q_rule : forall q b w, In q Q -> (In (b, w) (snd q) <-> b <> keyof q /\ errors_with (keyof q) b dem <> [] /\ w = log_likelihood_ratio (given dem (keyof q) b)).
Proof.
  intros [e rs] b w Hq. apply (Permutation_in _ PQ) in Hq. apply In_nth_error in Hq as [i Hi]. cbn [fst snd]. unfold keyof. cbn [fst].
  assert (X : forall (l : list (uedge RN)) (l' : list (list (key * R))) i, nth_error (combine l l') i = Some (e, rs) -> nth_error l i = Some e /\ nth_error l' i = Some rs).
  { induction l as [|a l IH]; intros [|a' l'] [|i0] H; try discriminate; [injection H as <- <-; auto|]. cbn in *. now apply IH. }
  destruct (X _ _ _ Hi) as [X1 X2]. exact (rule_spec i e rs b w X1 X2).
Qed.

(** what is learned, and the lowered weights *)
Lemma learned_range : forall S k, (forall q, In q S -> In q Q) -> pair_of_model dem k -> alone dem k <= learned dem (map keyof S) k <= 1/2.
Proof.
  intros S k HS Hk. pose proof (alone_range k Hk). induction S as [|q S IH]; [cbn; lra|]. specialize (IH (fun q' Hq => HS q' (or_intror Hq))). unfold learned in *. cbn [map fold_right]. split; [eapply Rle_trans; [apply IH|apply Rmax_r]|].
  apply Rmax_lub; [|apply IH]. destruct (S_CorrDecode.key_dec (keyof q) k); [lra|]. unfold given. apply Rmin_l.
Qed.
Lemma same_edge_keys : forall a b, same_edge a b = true <-> okey (fst a) (snd a) = okey (fst b) (snd b).
Proof.
  intros [a1 a2] [b1 b2]. pose proof (same_pair_ordered a1 a2 [] b1 b2) as X. rewrite (minmax_ordered b1 b2 []), !okey_ordered in X. cbn [fst snd]. rewrite <- X, same_pair_spec. unfold same_edge, same_end. cbn [fst snd].
  rewrite orb_true_iff, !andb_true_iff, Nat.eqb_eq. destruct a2 as [a2|], b2 as [b2|]; rewrite ?Nat.eqb_eq; split; intros H; repeat match goal with H : _ \/ _ |- _ => destruct H | H : _ /\ _ |- _ => destruct H end; try discriminate; subst; auto; try (left; split; congruence); try (right; split; congruence).
Qed.
Lemma min_const : forall a v l, (forall x, In x l -> x = v) -> fold_right Rmin a l = match l with [] => a | _ => Rmin v a end.
Proof.
  intros a v. induction l as [|x l IH]; intros H; [reflexivity|]. cbn [fold_right]. rewrite IH by (intros; apply H; now right). rewrite (H x (or_introl eq_refl)). destruct l; [reflexivity|]. rewrite (Rmin_right v (Rmin v a)); [reflexivity|apply Rmin_l].
Qed.
Lemma lowered_learned : forall S q, (forall q, In q S -> In q Q) -> In q Q ->
  fold_right Rmin (q_weight q) (map snd (filter (fun r => same_edge (fst r) (q_ends q)) (concat (map snd S)))) = log_likelihood_ratio (learned dem (map keyof S) (keyof q)).
Proof.
  intros S q HS Hq. pose proof (q_pair q Hq) as Pk. induction S as [|s S IH]; [apply q_weight_key; exact Hq|].
  specialize (IH (fun q' Hq' => HS q' (or_intror Hq'))). pose proof (learned_range S (keyof q) (fun q' Hq' => HS q' (or_intror Hq')) Pk) as LR. pose proof (alone_range _ Pk) as AR.
  cbn [map concat]. rewrite filter_app, map_app, fold_right_app. match goal with |- fold_right Rmin ?x _ = _ => replace x with (log_likelihood_ratio (learned dem (map keyof S) (keyof q))) by (symmetry; exact IH) end. change (learned dem (keyof s :: map keyof S) (keyof q)) with (Rmax (if S_CorrDecode.key_dec (keyof s) (keyof q) then 0 else given dem (keyof s) (keyof q)) (learned dem (map keyof S) (keyof q))).
  match goal with |- fold_right Rmin _ (map snd ?f) = _ => set (FL := f) end.
  assert (HI : forall b w, In (b, w) FL <-> b = keyof q /\ b <> keyof s /\ errors_with (keyof s) b dem <> [] /\ w = log_likelihood_ratio (given dem (keyof s) b)).
  { intros b w. unfold FL. rewrite filter_In. rewrite (q_rule s b w (HS s (or_introl eq_refl))). cbn [fst]. rewrite same_edge_keys. unfold q_ends. cbn [fst snd]. split.
    - intros [(H1 & H2 & H3) H4]. split; [|auto]. destruct (errors_pair _ _ H2) as ([p [[x y] os]] & _ & E). cbn [snd] in E. rewrite okey_ordered in E. rewrite <- E in H4. rewrite okey_fst in H4. rewrite <- E. exact H4.
    - intros (H1 & H2 & H3 & H4). split; [auto|]. rewrite H1. unfold keyof, ekey. apply okey_fst. }
  clearbody FL. rewrite (min_const _ (log_likelihood_ratio (given dem (keyof s) (keyof q)))).
  2: { intros x Hx. apply in_map_iff in Hx as ([b w] & <- & Hx). apply HI in Hx as (-> & _ & _ & ->). reflexivity. }
  destruct (S_CorrDecode.key_dec (keyof s) (keyof q)) as [E|NE].
  - destruct FL as [|[b w] l]; [|exfalso; destruct (proj1 (HI b w) (or_introl eq_refl)) as (-> & H & _); congruence]. cbn [map]. now rewrite Rmax_right by lra.
  - destruct (list_eq_dec Req_EM_T (errors_with (keyof s) (keyof q) dem) []) as [E0|N0].
    + destruct FL as [|[b w] l]; [|exfalso; destruct (proj1 (HI b w) (or_introl eq_refl)) as (-> & _ & H & _); contradiction]. cbn [map]. rewrite Rmax_right; [reflexivity|]. unfold given. rewrite E0. cbn [odd_probability]. unfold Rdiv. rewrite Rmult_0_l. rewrite Rmin_right; lra.
    + destruct FL as [|[b w] l]; [exfalso; apply (proj2 (HI (keyof q) _) (conj eq_refl (conj (not_eq_sym NE) (conj N0 eq_refl))))|]. cbn [map]. symmetry. pose proof (proj1 (given_range _ _ N0)). apply llr_max; lra.
Qed.
Lemma sel_in : forall X q, In q (sel Q X) -> In q Q. Proof. intros X q. apply sel_In. Qed.

(** ** From choices to sets of pairs and back *)
Lemma xsum_parity : forall (f : key -> bool) S, parity f (map keyof S) = xsum (fun q => f (keyof q)) S.
Proof. intros f. induction S as [|q S IH]; [reflexivity|]. cbn. unfold parity in IH. cbn in IH. now rewrite IH. Qed.
Lemma xsum_map : forall A B (f : B -> bool) (h : A -> B) l, xsum f (map h l) = xsum (fun a => f (h a)) l.
Proof. intros A B f h. induction l as [|a l IH]; [reflexivity|]. cbn. now rewrite IH. Qed.
Lemma ends_touch : forall e v, node2 e <> Some (node1 e) -> Nat.odd (edge_ends v e) = touches v (ekey e).
Proof.
  intros e v NL. unfold edge_ends, touches, ekey, okey, ordered. rewrite Nat.odd_add. destruct (node2 e) as [b|]; cbn [fst snd].
  - assert (b <> node1 e) by congruence. destruct (Nat.eqb_spec (node1 e) v), (Nat.eqb_spec b v), (Nat.eqb_spec (Nat.min (node1 e) b) v), (Nat.eqb_spec (Nat.max (node1 e) b) v); try reflexivity; exfalso; lia.
  - destruct (node1 e =? v)%nat; reflexivity.
Qed.
Lemma degree_touches : forall v S, (forall q, In q S -> In q Q) -> Nat.odd (total_degree v (map fst S)) = parity (touches v) (map keyof S).
Proof.
  intros v S HS. rewrite degree_xsum, xsum_map, xsum_parity. apply xsum_ext. intros q Hq. apply ends_touch. exact (sg_loop _ _ loaded_sound _ (q_edge q (HS q Hq))).
Qed.
Lemma find_head : forall A (f : A -> bool) l, find f l = match filter f l with [] => None | a :: _ => Some a end.
Proof. induction l as [|a l IH]; [reflexivity|]. cbn. destruct (f a); [reflexivity|exact IH]. Qed.
Lemma acting_fst : forall e (m : mechanism), acting_on (fst (ekey e)) (snd (ekey e)) m = acting_on (node1 e) (node2 e) m.
Proof. intros e [p [[u v] os]]. apply eq_iff_eq_true. rewrite !acting_key. unfold ekey. rewrite okey_fst. reflexivity. Qed.
Lemma obs_flips : forall i e, In e (edges g) -> Nat.odd (count_occ Nat.eq_dec (obs e) i) = pair_flips dem i (ekey e).
Proof.
  intros i e He. destruct (loaded_edge e He) as ([p [c os]] & l & El & Eo & _). unfold pair_flips.
  assert (X : find (acting_on (fst (ekey e)) (snd (ekey e))) ms = Some (p, (c, os))).
  { rewrite find_head. pose proof (eq_trans (filter_ext _ _ (acting_fst e) ms) El) as X. match goal with |- match ?a with _ => _ end = _ => replace a with ((p, (c, os)) :: l) by (symmetry; exact X) end. reflexivity. }
  change (mechanisms RD dem) with ms. change (find (@acting_on (num (base RD)) (fst (ekey e)) (snd (ekey e))) ms) with (find (@acting_on R (fst (ekey e)) (snd (ekey e))) ms). rewrite X. rewrite Eo. reflexivity.
Qed.
Lemma flips_pairs : forall i S, (forall q, In q S -> In q Q) -> flips_observable i (map fst S) = parity (pair_flips dem i) (map keyof S).
Proof. intros i S HS. rewrite flips_xsum, xsum_map, xsum_parity. apply xsum_ext. intros q Hq. apply obs_flips. exact (q_edge q (HS q Hq)). Qed.
Lemma cost_sum : forall wt p S, (forall q, In q S -> wt q = log_likelihood_ratio (p (keyof q))) -> rsum (map wt S) = cost p (map keyof S).
Proof. intros wt p. unfold cost, rsum. induction S as [|q S IH]; intros H; [reflexivity|]. cbn [map fold_right]. rewrite (H q (or_introl eq_refl)), IH by (intros; apply H; now right). reflexivity. Qed.
Lemma cost_perm : forall p F F', Permutation F F' -> cost p F = cost p F'.
Proof. intros p F F' H. unfold cost. induction H; cbn; lra. Qed.
Lemma parity_perm : forall f F F', Permutation F F' -> parity f F = parity f F'.
Proof. intros f F F' H. unfold parity. induction H; cbn; [reflexivity|now rewrite IHPermutation| |congruence]. destruct (f x), (f y), (fold_right xorb false (map f l)); reflexivity. Qed.

Section Events.
Variables (evs : list nat) (P : nat -> Prop).
Hypothesis HE : forall v, In v evs <-> P v.
Lemma sums_accounts : forall X, sums_to Q evs X -> accounts_for dem P (map keyof (sel Q X)).
Proof.
  intros X [L H]. split; [|split].
  - pose proof (sel_NoDup (map keyof Q) X keys_NoDup) as N. assert (E : forall (Q' : list ruled) X', sel (map keyof Q') X' = map keyof (sel Q' X')). { induction Q' as [|q Q' IH]; intros [|[|] X']; cbn; try reflexivity; now rewrite IH. } rewrite E in N. exact N.
  - intros k Hk. apply in_map_iff in Hk as (q & <- & Hq). apply q_pair. exact (sel_in X q Hq).
  - intros v. rewrite <- (degree_touches v (sel Q X) (sel_in X)), H, memb_In. apply HE.
Qed.
Definition chosen (F : list key) : list bool := map (fun q => if in_dec S_CorrDecode.key_dec (keyof q) F then true else false) Q.
Lemma chosen_keys : forall F, NoDup F -> (forall k, In k F -> pair_of_model dem k) -> Permutation (map keyof (sel Q (chosen F))) F.
Proof.
  intros F N HF. unfold chosen. rewrite sel_filter. apply NoDup_Permutation; [|exact N|].
  - pose proof (sel_NoDup (map keyof Q) (chosen F) keys_NoDup) as N'. assert (E : forall (Q' : list ruled) X', sel (map keyof Q') X' = map keyof (sel Q' X')). { induction Q' as [|q Q' IH]; intros [|[|] X']; cbn; try reflexivity; now rewrite IH. } rewrite E in N'. unfold chosen in N'. rewrite sel_filter in N'. exact N'.
  - intros k. rewrite in_map_iff. split.
    + intros (q & <- & Hq). apply filter_In in Hq as [_ Hq]. destruct (in_dec _ (keyof q) F); [assumption|discriminate].
    + intros Hk. destruct (pair_q k (HF k Hk)) as (q & Hq & E). exists q. split; [exact E|]. apply filter_In. split; [exact Hq|]. destruct (in_dec _ (keyof q) F) as [|N']; [reflexivity|]. elim N'. rewrite E. exact Hk.
Qed.
Lemma accounts_sums : forall F, accounts_for dem P F -> sums_to Q evs (chosen F) /\ Permutation (map keyof (sel Q (chosen F))) F.
Proof.
  intros F (N & HF & HP). pose proof (chosen_keys F N HF) as PF. split; [|exact PF]. split; [unfold chosen; now rewrite map_length|]. intros v. rewrite (degree_touches v _ (sel_in (chosen F))), (parity_perm _ _ _ PF). apply eq_iff_eq_true. rewrite HP, memb_In. symmetry. apply HE.
Qed.
Lemma near_cheapest : forall wt p X, (forall q, In q Q -> wt q = log_likelihood_ratio (p (keyof q))) -> near Q M wt evs X -> cheapest dem M p P (map keyof (sel Q X)).
Proof.
  intros wt p X HW [H1 H2]. split; [now apply sums_accounts|]. intros F' HF. destruct (accounts_sums F' HF) as [S' PF]. specialize (H2 _ S').
  rewrite (cost_sum wt p (sel Q X)) in H2 by (intros q Hq; apply HW; exact (sel_in X q Hq)). rewrite (cost_sum wt p (sel Q (chosen F'))) in H2 by (intros q Hq; apply HW; exact (sel_in _ q Hq)).
  rewrite (cost_perm p _ _ PF) in H2. rewrite map_length. rewrite <- (Permutation_length PF), map_length. exact H2.
Qed.
Lemma counts_decided : forall cor wt X, counts Q M cor evs wt -> near Q M wt evs X ->
  exists p, (forall q, In q Q -> wt q = log_likelihood_ratio (p (keyof q))) /\ decided dem M cor P p (map keyof (sel Q X)).
Proof.
  intros cor wt X HC HN. unfold counts in HC. destruct cor.
  - destruct HC as (X1 & N1 & ->). assert (W : forall q, In q Q -> q_lowered (q_active Q X1) q = log_likelihood_ratio (learned dem (map keyof (sel Q X1)) (keyof q))).
    { intros q Hq. unfold q_lowered, q_active. exact (lowered_learned (sel Q X1) q (sel_in X1) Hq). }
    exists (learned dem (map keyof (sel Q X1))). split; [exact W|]. split; [exact (near_cheapest _ _ X W HN)|]. exists (map keyof (sel Q X1)). split; [|reflexivity]. exact (near_cheapest _ _ X1 q_weight_key N1).
  - subst wt. exists (alone dem). split; [exact q_weight_key|]. split; [|reflexivity]. exact (near_cheapest _ _ X q_weight_key HN).
Qed.
Lemma right_row : forall cor row w, right_sel G M Q evs cor row w -> length row = no /\ right_prediction dem no M cor P (map Z.b2z row) w.
Proof.
  intros cor row w (X & wt & HC & HN & Er & Hw). fold g in Er. rewrite loaded_nobs in Er. split; [rewrite Er, map_length; apply seq_length|]. destruct (counts_decided cor wt X HC HN) as (p & W & D). exists p, (map keyof (sel Q X)). split; [exact D|]. split.
  - rewrite Er, map_map. apply map_ext. intros i. f_equal. exact (flips_pairs i (sel Q X) (sel_in X)).
  - rewrite map_length. rewrite <- (cost_sum wt p (sel Q X)); [exact Hw|]. intros q Hq. apply W. exact (sel_in X q Hq).
Qed.
Lemma right_list : forall cor out, right_out M Q evs cor out -> right_listing dem M cor P out.
Proof.
  intros cor out (X & wt & HC & HN & l & PL & F). destruct (counts_decided cor wt X HC HN) as (p & _ & D). exists p, (map keyof (sel Q X)). split; [exact D|].
  replace (map (fun e => ordered (e, [])) out) with (map keyof l); [now apply Permutation_map|]. clear -F. induction F as [|[a b] q out l H F IH]; [reflexivity|]. cbn [map]. f_equal; [|exact IH]. apply same_edge_keys in H. symmetry. exact H.
Qed.
Lemma pairs_few : few_steps (pair_of_model dem) -> few_steps (fun p => exists q, In q Q /\ q_ends q = p).
Proof.
  assert (OK : forall q, keyof q = q_ends q \/ exists u v, q_ends q = (u, Some v) /\ keyof q = (v, Some u)).
  { intros q. unfold keyof, ekey, okey, q_ends. destruct (node2 (fst q)) as [v|]; [|now left]. cbn [ordered]. destruct (Nat.le_ge_cases (node1 (fst q)) v) as [H|H].
    - left. rewrite Nat.min_l, Nat.max_r by exact H. reflexivity.
    - right. exists (node1 (fst q)), v. rewrite Nat.min_r, Nat.max_l by exact H. auto. }
  apply few_covers.
  - intros k Hk. destruct (pair_q k Hk) as (q & Hq & <-). destruct (OK q) as [E|(u & v & E1 & E2)]; [left; exists q; auto|right; exists v, u; split; [exact E2|exists q; auto]].
  - intros p (q & Hq & <-). destruct (OK q) as [E|(u & v & E1 & E2)]; [left; rewrite <- E; now apply q_pair|right; exists u, v; split; [exact E1|rewrite <- E2; now apply q_pair]].
Qed.
Lemma able_sums : accountable dem P -> exists Y, sums_to Q evs Y /\ enough Q Y.
Proof.
  intros (F & HF & L). destruct (accounts_sums F HF) as [S' PF]. exists (chosen F). split; [exact S'|]. destruct L as [L|L]; [left; rewrite <- (map_length keyof), (Permutation_length PF); exact L|right; now apply pairs_few].
Qed.
End Events.
End Order.
Lemma narrow_few : narrow nd dem -> few_steps (pair_of_model dem).
Proof.
  intros [L|L]; [|exact L]. apply few_nodes_close with (n := nd); [|exact L]. destruct SM as (_ & _ & _ & HD & _). intros v x ([p [[a b] os]] & Hm & E). cbn [snd] in E. destruct (HD p a b os Hm) as (H1 & H2 & _).
  destruct b as [c|]; cbn [ordered] in E; injection E as <- <-.
  - destruct (H2 c eq_refl) as [H3 _]. split; [lia|]. intros u Eu. injection Eu as <-. lia.
  - split; [exact H1|discriminate].
Qed.
Definition hopeless (P : nat -> Prop) : Prop := ~ accounted dem P /\ narrow nd dem /\ forall v, P v -> (v < nd)%nat.
Lemma answerable_cases : forall P, answerable nd dem P -> (accountable dem P /\ accounted dem P) \/ (hopeless P /\ ~ accounted dem P).
Proof.
  intros P [HA|[HN HP]]; [left; split; [exact HA|destruct HA as (F & HF & _); exists F; exact HF]|]. destruct (Classical_Prop.classic (accounted dem P)) as [HA|HA]; [left|right; repeat split; auto].
  split; [|exact HA]. destruct HA as (F & HF). exists F. split; [exact HF|right; now apply narrow_few].
Qed.

Lemma model_session : forall cs, Forall (fair_question nd dem) cs -> exists K m' rs,
  (forall fuel, (K <= fuel)%nat -> corr_run fuel cyclic_ints (new_cmatching G) cs = Ok (m', rs)) /\ Forall2 (right_answer nd no M dem) cs rs.
Proof.
  intros cs FQ. pose proof loaded_sound as SG. destruct (ruled_constant G M SG) as (c & HC & HCC). destruct (rounded_order G M SG c) as (Q & PQ & EQ). destruct (Rs_loaded G M SG c Q PQ) as (L & HL).
  refine (run_c G nd no loaded_nodes loaded_nobs loaded_bare (made G c Q L) _ _ (accountable dem) hopeless (right_prediction dem no M) (right_listing dem M) _ _ (answerable nd dem) (accounted dem) answerable_cases _ cs (new_cmatching G) (new_fits_c G _) FQ).
  - intros ens. exact (build_made G M SG c HCC Q EQ L HL ens).
  - exact (fresh_resting G c Q L HL).
  - intros D x evs P cor MD RS ND HE AB SZ. destruct (able_sums Q PQ evs P HE AB) as (Y & HY & FEW). destruct (graph_decode G M SG c HC Q PQ L HL D x evs Y MD RS ND HY FEW cor SZ) as (K & x' & row & w & H1 & H2 & H3).
    destruct (right_row Q PQ evs P HE cor row w H3) as [H4 H5]. exists K, x', row, w. auto.
  - intros D x evs P cor MD RS ND HE AB SZ. destruct (able_sums Q PQ evs P HE AB) as (Y & HY & FEW). destruct (graph_edges G M SG c HC Q PQ L HL D x evs Y MD RS ND HY FEW cor SZ) as (K & x' & out & H1 & H2 & H3).
    exists K, x', out. split; [exact H1|]. split; [exact H2|]. exact (right_list Q PQ evs P HE cor out H3).
  - intros D x evs P MD RS ND HE (HA & HN & HP). apply (graph_stuck G M SG c HC Q PQ L HL D x evs MD RS ND).
    + intros v Hv. refine (eq_ind_r (fun k => (v < k)%nat) (HP v _) loaded_nodes). now apply HE.
    + exact (pairs_few Q PQ (narrow_few HN)).
    + intros Y HY. elim HA. exists (map keyof (sel Q Y)). exact (sums_accounts Q PQ evs P HE Y HY).
Qed.
End Model.
