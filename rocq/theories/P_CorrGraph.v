(** A graph with rules: weights after rounding, the decoder that is made from it, and decoding. *)
From Coq Require Import Reals ZArith NArith List Bool Arith Lia Lra Permutation.
From Verif Require Import S_Reach S_Spread P_Spread M_Base M_Core M_CoreHeap M_Session S_Core S_Session S_CoreHeap S_Decode M_Build S_Build P_Build P_Convert P_Convert2 M_Flip S_Flip P_Flip M_Search S_Search M_ToEdges S_ToEdges
  P_Signed P_ToEdges P_ToEdges2 P_Session M_SearchHeap S_SearchHeap M_Reweight S_Reweight M_Correlated S_Correlated M_Double P_Double M_Discretise P_Discretise M_Merge P_Merge M_Pipeline M_PipelineHeap S_PipelineHeap P_PipelineHeap M_Matching P_UserCorr P_Matching
  M_UserGraph S_UserGraph P_UserGraph P_GraphMap S_Pipeline P_Pipeline P_Pipeline2 M_Dem P_Dem2 M_CorrDecode P_CorrDecode P_CorrFail P_CorrBuild.
Import ListNotations.
Local Open Scope R_scope.

(** ** Rounding *)
Lemma round_mono : forall x y, 0 <= x -> x <= y -> (round x <= round y)%Z.
Proof. intros x y H0 H. unfold round. destruct (Rle_dec 0 x) as [_|]; [|contradiction]. destruct (Rle_dec 0 y) as [_|]; [|lra]. apply Int_part_mono. lra. Qed.
Lemma discretise_mono : forall c x y, 0 <= c -> 0 <= x -> x <= y -> (discretise c x <= discretise c y)%Z.
Proof. intros c x y Hc Hx H. unfold discretise. assert (round (fl (x * c)) <= round (fl (y * c)))%Z; [|lia]. apply round_mono; [apply fl_pos; now apply Rmult_le_pos|]. apply fl_le. now apply Rmult_le_compat_r. Qed.
Lemma discretise_min : forall c x y, 0 <= c -> 0 <= x -> 0 <= y -> discretise c (Rmin x y) = Z.min (discretise c x) (discretise c y).
Proof.
  intros c x y Hc Hx Hy. unfold Rmin. destruct (Rle_dec x y) as [L|L].
  - pose proof (discretise_mono c x y Hc Hx L). lia.
  - pose proof (discretise_mono c y x Hc Hy ltac:(lra)). lia.
Qed.
Lemma least_range : forall w l b, 0 <= w <= b -> (forall x, In x l -> 0 <= x <= b) -> 0 <= fold_right Rmin w l <= b.
Proof.
  intros w l b Hw. induction l as [|x l IH]; intros H; [exact Hw|]. cbn [fold_right]. specialize (IH (fun y Hy => H y (or_intror Hy))). specialize (H x (or_introl eq_refl)). unfold Rmin. destruct (Rle_dec x (fold_right (fun x0 y => if Rle_dec x0 y then x0 else y) w l)); [exact H|exact IH].
Qed.
Lemma least_in : forall w l, fold_right Rmin w l = w \/ In (fold_right Rmin w l) l.
Proof.
  intros w l. induction l as [|x l IH]; [now left|]. cbn [fold_right]. unfold Rmin at 1 3. destruct (Rle_dec x (fold_right Rmin w l)); [right; now left|]. destruct IH as [E|E]; [now left|right; now right].
Qed.
Lemma discretise_least : forall c w l, 0 <= c -> 0 <= w -> (forall x, In x l -> 0 <= x) -> discretise c (fold_right Rmin w l) = fold_right Z.min (discretise c w) (map (discretise c) l).
Proof.
  intros c w l Hc Hw. induction l as [|x l IH]; intros H; [reflexivity|]. cbn [fold_right map]. rewrite <- IH by (intros y Hy; apply H; now right).
  apply discretise_min; [exact Hc|apply H; now left|]. destruct (least_in w l) as [->|E]; [exact Hw|]. apply H. now right.
Qed.
Lemma implied_half : forall c r, 0 <= c -> 0 <= snd r -> implied (half_rule c r) = discretise c (snd r).
Proof.
  intros c r Hc Hr. unfold half_rule, implied. cbn [snd]. unfold discretise. replace (2 * c / 2) with c by field. apply Z.abs_eq. exact (discretise_pos c (snd r) Hc Hr).
Qed.

(** ** Selections *)
Fixpoint sel {A} (Q : list A) (X : list bool) : list A :=
  match Q, X with q :: Q', b :: X' => if b then q :: sel Q' X' else sel Q' X' | _, _ => [] end.
Lemma select_map : forall {A} (f : A -> sedge) Q X, select (map f Q) X = map f (sel Q X).
Proof. intros A f. induction Q as [|q Q IH]; intros [|b X]; try reflexivity. cbn [map select sel]. rewrite IH. destruct b; reflexivity. Qed.
Lemma sel_In : forall {A} (Q : list A) X q, In q (sel Q X) -> In q Q.
Proof. intros A. induction Q as [|a Q IH]; intros [|b X] q H; try destruct H. cbn [sel] in H. destruct b; [destruct H as [<-|H]; [now left|]|]; right; eauto. Qed.
Lemma sel_NoDup : forall {A} (Q : list A) X, NoDup Q -> NoDup (sel Q X).
Proof.
  intros A Q X H. revert X. induction H as [|a Q Ha H IH]; intros [|b X]; try constructor. cbn [sel]. destruct b; [|apply IH]. constructor; [|apply IH]. intros Hi. apply Ha. exact (sel_In _ _ _ Hi).
Qed.
Lemma sel_filter : forall {A} (f : A -> bool) (Q : list A), sel Q (map f Q) = filter f Q.
Proof. intros A f. induction Q as [|q Q IH]; [reflexivity|]. cbn [map sel filter]. now rewrite IH. Qed.

(** ** Edges with rules *)
Definition ruled : Type := uedge RN * list (key * R).
Definition conv (c : R) (q : ruled) : redge := (discretised_edge c (fst q), map (half_rule c) (snd q)).
Definition q_weight (q : ruled) : R := weight (fst q).
Definition q_ends (q : ruled) : nat * option nat := (node1 (fst q), node2 (fst q)).
(** The least of the weight of [q] and of the weights that rules of [A] give it. *)
Definition q_lowered (A : list (key * R)) (q : ruled) : R := fold_right Rmin (q_weight q) (map snd (filter (fun r => same_edge (fst r) (q_ends q)) A)).
Definition q_active (Q : list ruled) (X : list bool) : list (key * R) := concat (map snd (sel Q X)).

Lemma active_conv : forall c Q X, active (map (conv c) Q) X = map (half_rule c) (q_active Q X).
Proof.
  intros c. unfold q_active. induction Q as [|q Q IH]; intros [|b X]; try reflexivity. cbn [map active conv sel]. rewrite IH. destruct b; [|reflexivity]. cbn [map concat]. now rewrite map_app.
Qed.
Definition at_weight (c : R) (wt : ruled -> R) (q : ruled) : sedge := (node1 (fst q), node2 (fst q), discretise c (wt q), obs (fst q)).
Lemma lowered_conv : forall c Q X, 0 <= c -> (forall q, In q Q -> 0 <= q_weight q /\ forall r, In r (snd q) -> 0 <= snd r) ->
  lowered (map (conv c) Q) X = map (at_weight c (q_lowered (q_active Q X))) Q.
Proof.
  intros c Q X Hc HP. unfold lowered. rewrite map_map. apply map_ext_in. intros q Hq. rewrite active_conv. cbn [conv fst]. unfold discretised_edge, lowered_edge, at_weight. f_equal. f_equal.
  assert (HA : forall r, In r (q_active Q X) -> 0 <= snd r).
  { intros r Hr. unfold q_active in Hr. apply in_concat in Hr as (l & Hl & Hr). apply in_map_iff in Hl as (q' & <- & Hq'). exact (proj2 (HP q' (sel_In _ _ _ Hq')) r Hr). }
  unfold q_lowered. rewrite discretise_least; [|exact Hc|exact (proj1 (HP q Hq))|].
  - f_equal. rewrite map_map. revert HA. generalize (q_active Q X). intros A HA. induction A as [|[[ka kb] w] A IH]; [reflexivity|]. cbn [map filter half_rule fst snd]. unfold q_ends in *. 
    specialize (IH (fun r' Hr => HA r' (or_intror Hr))). destruct (same_edge (ka, kb) _); [|exact IH]. cbn [map snd]. rewrite IH. f_equal. exact (implied_half c (ka, kb, w) Hc (HA _ (or_introl eq_refl))).
  - intros x Hx. apply in_map_iff in Hx as (r & <- & Hr). apply filter_In in Hr as [Hr _]. now apply HA.
Qed.

(** ** Sums *)
Lemma at_total : forall c wt F, s_total (map (at_weight c wt) F) = zsum_of c (map wt F).
Proof. intros c wt F. induction F as [|e F IH]; [reflexivity|]. unfold s_total in *. cbn [map fold_right zsum_of]. rewrite IH. reflexivity. Qed.
Lemma at_degree : forall c wt v F, s_degree v (map (at_weight c wt) F) = total_degree v (map fst F).
Proof. intros c wt v F. induction F as [|e F IH]; [reflexivity|]. cbn [map]. rewrite s_degree_cons, IH. reflexivity. Qed.
Lemma at_flips : forall c wt k F, s_flips k (map (at_weight c wt) F) = flips_observable k (map fst F).
Proof. intros c wt k F. induction F as [|e F IH]; [reflexivity|]. unfold s_flips, flips_observable in *. cbn [map fold_right]. rewrite IH. reflexivity. Qed.

Lemma FOP_perm : forall (A : Type) (R : A -> A -> Prop) l l', (forall a b, R a b -> R b a) -> Permutation l l' -> ForallOrdPairs R l -> ForallOrdPairs R l'.
Proof.
  intros A R l l' HS P. induction P as [|a l l' P IH|a b l|l l' l'' P1 IH1 P2 IH2]; intros H; [exact H| | |auto].
  - inversion H as [|? ? H1 H2]; subst. constructor; [|auto]. rewrite Forall_forall in *. intros x Hx. apply H1. now apply (Permutation_in x (Permutation_sym P)).
  - inversion H as [|? ? H1 H2]; subst. inversion H2 as [|? ? H3 H4]; subst. inversion H1 as [|? ? H5 H6]; subst. constructor; [constructor; [auto|assumption]|]. now constructor.
Qed.
Lemma FOP_unmap : forall (A C : Type) (f : A -> C) (R : C -> C -> Prop) l, ForallOrdPairs R (map f l) -> ForallOrdPairs (fun a b => R (f a) (f b)) l.
Proof.
  intros A C f R l. induction l as [|a l IH]; intros H; [constructor|]. inversion H as [|? ? H1 H2]; subst. constructor; [|auto]. rewrite Forall_forall in *. intros x Hx. apply H1. now apply in_map.
Qed.
Lemma FOP_map : forall (A C : Type) (f : A -> C) (R : C -> C -> Prop) l, ForallOrdPairs (fun a b => R (f a) (f b)) l -> ForallOrdPairs R (map f l).
Proof.
  intros A C f R l H. induction H as [|a l H1 H2 IH]; [constructor|]. cbn. constructor; [|auto]. rewrite Forall_forall in *. intros x Hx. apply in_map_iff in Hx as (y & <- & Hy). now apply H1.
Qed.

(** ** The graph *)
Record sound_graph (G : cgraph) (M : R) : Prop := {
  sg_inv : Inv (c_graph G);
  sg_flags : flags_ok RN (c_graph G);
  sg_bare : bnodes (c_graph G) = [];
  sg_ids : fault_ids_in_range (c_graph G);
  sg_rules : length (c_rules G) = length (edges (c_graph G));
  sg_max : M <= max_user_weight;
  sg_weight : forall e : uedge RN, In e (edges (c_graph G)) -> 0 <= weight e <= M;
  sg_loop : forall e : uedge RN, In e (edges (c_graph G)) -> node2 e <> Some (node1 e);
  sg_rule : forall rs (k : key) w, In rs (c_rules G) -> In (k, w) rs -> 0 <= w <= M /\ exists e : uedge RN, In e (edges (c_graph G)) /\ joins e (fst k) (snd k);
  sg_seen : visible (map weight (edges (c_graph G)) ++ map snd (concat (c_rules G)));
  sg_plain : c_plain G = false }.

(** A selection that explains the events, and one that is nearly least among them. *)
Definition sums_to (Q : list ruled) (evs : list nat) (X : list bool) : Prop :=
  length X = length Q /\ forall v, Nat.odd (total_degree v (map fst (sel Q X))) = memb v evs.
Definition near (Q : list ruled) (M : R) (wt : ruled -> R) (evs : list nat) (X : list bool) : Prop :=
  sums_to Q evs X /\ forall Y, sums_to Q evs Y -> rsum (map wt (sel Q X)) <= rsum (map wt (sel Q Y)) + INR (length (sel Q X) + length (sel Q Y)) * half_step M.
(** The weights that count. *)
Definition counts (Q : list ruled) (M : R) (cor : bool) (evs : list nat) (wt : ruled -> R) : Prop :=
  if cor then exists X1, near Q M q_weight evs X1 /\ wt = q_lowered (q_active Q X1) else wt = q_weight.

Section Graph.
Variables (G : cgraph) (M : R).
Hypothesis SG : sound_graph G M.
Let g := c_graph G.
Let n := num_nodes g.
Let ws := map weight (edges g) ++ map snd (concat (c_rules G)) : list R.
Let es := combine (edges g) (c_rules G) : list ruled.

Lemma es_fst : map fst es = edges g.
Proof. unfold es. pose proof (sg_rules _ _ SG) as L. fold g in L. revert L. generalize (c_rules G). induction (edges g) as [|e l IH]; intros [|r rs] L; try discriminate; [reflexivity|]. cbn. f_equal. apply IH. now injection L. Qed.
Lemma es_snd : map snd es = c_rules G.
Proof. unfold es. pose proof (sg_rules _ _ SG) as L. fold g in L. revert L. generalize (edges g). induction (c_rules G) as [|e l IH]; intros [|r rs] L; try discriminate; [reflexivity|]. cbn. f_equal. apply IH. now injection L. Qed.
Lemma es_in : forall q, In q es -> In (fst q) (edges g) /\ In (snd q) (c_rules G).
Proof. intros q Hq. rewrite <- es_fst, <- es_snd. split; now apply in_map. Qed.
Lemma es_pos : forall q, In q es -> 0 <= q_weight q <= M /\ forall r, In r (snd q) -> 0 <= snd r <= M.
Proof.
  intros q Hq. destruct (es_in q Hq) as [H1 H2]. split; [exact (sg_weight _ _ SG _ H1)|]. intros [k w] Hr. exact (proj1 (sg_rule _ _ SG _ _ _ H2 Hr)).
Qed.
Lemma ws_range : forall w, In w ws -> 0 <= w <= M.
Proof.
  intros w Hw. apply in_app_or in Hw as [Hw|Hw].
  - apply in_map_iff in Hw as (e & <- & He). exact (sg_weight _ _ SG e He).
  - apply in_map_iff in Hw as ([k x] & <- & Hr). apply in_concat in Hr as (rs & H1 & H2). exact (proj1 (sg_rule _ _ SG _ _ _ H1 H2)).
Qed.
Lemma ws_abs : forall w, In w ws -> Rabs w <= M.
Proof. intros w Hw. pose proof (ws_range w Hw). rewrite Rabs_pos_eq; lra. Qed.
Lemma ruled_constant : exists c, normalising_constant ws = Ok c /\ correlated_constant G = Ok c.
Proof.
  assert (C : exists c, normalising_constant ws = Ok c).
  { assert (NT : normalising_constant ws <> Throw).
    { rewrite normalising_throws. intros (w & Hw & L). pose proof (ws_abs w Hw). pose proof (sg_max _ _ SG) as X. unfold max_user_weight in X. change (2 ^ 24 - 1)%Z with 16777215%Z in L. lra. }
    pose proof (normalising_defined ws (sg_seen _ _ SG)) as NU.
    unfold normalising_constant in *. destruct (Rlt_dec _ _); [congruence|]. destruct (forallb is_integral ws); [eauto|]. destruct (Rle_dec _ _); [congruence|eauto]. }
  destruct C as [c HC]. exists c. split; [exact HC|]. unfold correlated_constant. fold g.
  assert (F : forallb (forallb (rule_ok g)) (c_rules G) = true); [|rewrite F; exact HC].
  apply forallb_forall. intros rs Hrs. apply forallb_forall. intros [k w] Hr. destruct (sg_rule _ _ SG _ _ _ Hrs Hr) as (Hw & e & He & J). unfold rule_ok. cbn [fst snd].
  rewrite (data_some g (fst k) (snd k) e (sg_inv _ _ SG) He J). unfold attributes_of. unfold Rleb. destruct (Rle_dec 0 (weight e * w)) as [_|N]; [reflexivity|]. elim N. apply Rmult_le_pos; [|lra]. exact (proj1 (sg_weight _ _ SG e He)).
Qed.

Section Constant.
Variable c : R.
Hypothesis HC : normalising_constant ws = Ok c.
Hypothesis HCC : correlated_constant G = Ok c.
Let B := fun v => is_boundary_node g (Some v).
Lemma const_pos : 0 < c.
Proof. exact (proj1 (constant_cases ws c M HC ws_abs)). Qed.
Lemma none_boundary : forall v, B v = false.
Proof. intros v. apply (bd_false g (sg_flags _ _ SG)). unfold g. rewrite (sg_bare _ _ SG). auto. Qed.
Lemma conv_edges : map fst (map (conv c) es) = map (discretised_edge c) (edges g).
Proof. rewrite map_map, <- es_fst, map_map. reflexivity. Qed.
Lemma rounded_order : exists Q, Permutation Q es /\ convert_all_ruled n B (ruled_edges c G) = map (conv c) Q.
Proof.
  assert (P : Permutation (convert_all_ruled n B (map (conv c) es)) (map (conv c) es)).
  { apply converted_same; [exact none_boundary| |].
    - apply (FOP_unmap _ _ fst (fun a b => ~ parallel a b)). rewrite conv_edges. exact (E_fop g (sg_inv _ _ SG) c).
    - intros x Hx. apply (proj1 (range_below n _) (E_below g (sg_inv _ _ SG) c)). rewrite <- conv_edges. now apply in_map. }
  apply Permutation_map_inv in P as (Q & E & P). exists Q. split; [now apply Permutation_sym|exact E].
Qed.
Section Order.
Variable Q : list ruled.
Hypothesis PQ : Permutation Q es.
Hypothesis EQ : convert_all_ruled n B (ruled_edges c G) = map (conv c) Q.
Let Rs := map (conv c) Q : list redge.
Lemma Q_in : forall q, In q Q -> In (fst q) (edges g) /\ In (snd q) (c_rules G).
Proof. intros q Hq. apply es_in. exact (Permutation_in q PQ Hq). Qed.
Lemma Q_pos : forall q, In q Q -> 0 <= q_weight q <= M /\ forall r, In r (snd q) -> 0 <= snd r <= M.
Proof. intros q Hq. apply es_pos. exact (Permutation_in q PQ Hq). Qed.
Lemma Rs_fst : map fst Rs = map (at_weight c q_weight) Q.
Proof. unfold Rs. rewrite map_map. reflexivity. Qed.
Lemma Rs_np : ForallOrdPairs (fun e f => ~ parallel e f) (map fst Rs).
Proof.
  apply (FOP_perm _ _ (map fst (map (conv c) es))).
  - intros [[[a x] w] o] [[[b y] w'] o'] H H'. apply H. cbn in *. intuition.
  - unfold Rs. apply Permutation_map, Permutation_map. now apply Permutation_sym.
  - rewrite conv_edges. exact (E_fop g (sg_inv _ _ SG) c).
Qed.
Lemma Rs_range : forall x, In x Rs -> in_range n (fst x).
Proof.
  intros x Hx. apply (proj1 (range_below n _) (E_below g (sg_inv _ _ SG) c)). rewrite <- conv_edges. apply in_map. unfold Rs in Hx. apply in_map_iff in Hx as (q & <- & Hq). apply in_map. exact (Permutation_in q PQ Hq).
Qed.
Lemma Rs_loop : forall e, In e (map fst Rs) -> loop e = false.
Proof.
  intros e He. rewrite Rs_fst in He. apply in_map_iff in He as (q & <- & Hq). destruct (Q_in q Hq) as [H _]. pose proof (sg_loop _ _ SG _ H) as L. cbn. destruct (node2 (fst q)) as [v|]; [|reflexivity]. destruct (Nat.eqb_spec (node1 (fst q)) v); congruence.
Qed.
Lemma joins_edge : forall (e : uedge RN) k, joins e (fst k) (snd k) -> same_edge k (node1 e, node2 e) = true.
Proof. intros e [a b] J. apply same_edge_spec. destruct J as [[H1 H2]|[H1 H2]]; cbn [fst snd] in *; [left|right]; subst; auto. Qed.
Lemma Rs_loaded : exists L, load (nobs g) n Rs = Ok L.
Proof.
  apply load_total; [exact Rs_range|exact Rs_np|]. intros x r Hx Hr. unfold Rs in Hx. apply in_map_iff in Hx as (q & <- & Hq). cbn [conv snd] in Hr. apply in_map_iff in Hr as ([k w] & <- & Hr). destruct (Q_in q Hq) as [H1 H2].
  destruct (sg_rule _ _ SG _ _ _ H2 Hr) as (_ & e & He & J). assert (Hq' : In e (map fst Q)) by (apply (Permutation_in e (Permutation_sym (Permutation_map fst PQ))); rewrite es_fst; exact He).
  apply in_map_iff in Hq' as (q' & <- & Hq'). exists (at_weight c q_weight q'). assert (Hi : In (at_weight c q_weight q') (map fst Rs)) by (rewrite Rs_fst; now apply in_map).
  split; [exact Hi|]. split; [now apply Rs_loop|]. destruct k as [a b]. exact (joins_edge (fst q') (a, b) J).
Qed.
Section Loaded.
Variable L : loaded.
Hypothesis HL : load (nobs g) n Rs = Ok L.
Definition made (D : cdecoder) : Prop := decoder_for (nobs g) n Rs [] (2 * c) L D.
Lemma loaded_parts : build (nobs g) n (map fst Rs) = Ok (lg L) /\ convert_implied_weights (adj (lg L)) (rules_table n Rs) = Ok (lt L) /\
  sbuild n (map fst Rs) = Ok (lsg L) /\ convert_implied_weights (sadj (lsg L)) (rules_table n Rs) = Ok (lst L).
Proof.
  revert HL. unfold load. destruct (build (nobs g) n (map fst Rs)) as [mg| | |]; try discriminate. cbn [bindO]. destruct (convert_implied_weights (adj mg) (rules_table n Rs)) as [T| | |]  eqn:ET; try discriminate. cbn [bindO].
  destruct (sbuild n (map fst Rs)) as [sg| | |]; try discriminate. cbn [bindO]. destruct (convert_implied_weights (sadj sg) (rules_table n Rs)) as [TS| | |] eqn:ES; try discriminate. cbn [bindO]. intros H. injection H as <-. cbn. auto.
Qed.
Lemma fresh_resting : forall D, made D -> resting D (fresh D).
Proof.
  intros D DF. destruct loaded_parts as (HB & _ & HS & _). destruct (df_dec _ _ _ _ _ _ _ DF) as (so & ED & SO). unfold resting, fresh. cbn [cr_graph cr_search cr_run]. split; [reflexivity|]. split; [reflexivity|].
  split; cbn [run_init r_state r_heap r_search r_sheap r_marks].
  - apply P_Session.init_idle.
  - split; reflexivity.
  - split; cbn; auto.
  - split; [reflexivity|]. split; reflexivity.
  - intros sg HE. rewrite HE. rewrite ED in HE. cbn [d_search] in HE. destruct SO as [[-> _]|(_ & -> & _)]; [|discriminate]. injection HE as <-. exact (fresh_unmarked _ _ _ _ _ HB HS).
Qed.
Lemma build_made : forall ens, exists D, build_correlated G ens = Ok D /\ made D /\ (ens = true -> length (adj (d_graph (cd_dec D))) = search_size (cd_dec D)).
Proof.
  intros ens. destruct loaded_parts as (HB & HT & HS & HTS). unfold build_correlated. fold g. rewrite (ids_ok g (sg_ids _ _ SG)). cbn [negb]. rewrite HCC. cbn [bindO]. fold n. fold B. rewrite EQ. fold Rs. rewrite HB. cbn [bindO]. rewrite HT. cbn [bindO].
  assert (BF : boundary_flags g = []) by (unfold boundary_flags, g; now rewrite (sg_bare _ _ SG)).
  assert (LE : length (adj (lg L)) = length (sadj (lsg L))).
  { destruct (sbuild_alike _ _ _ _ HB) as (g0 & sg & HB0 & HS' & HA). rewrite HS in HS'. injection HS' as <-. assert (SA : sadj (lsg L) = adj g0) by (destruct HA; assumption).
    destruct (build_built _ _ _ _ HB) as (_ & L1 & _). destruct (build_built _ _ _ _ HB0) as (_ & L2 & _). rewrite SA, L1, L2. reflexivity. }
  destruct ((64 <? nobs g)%nat || ens) eqn:Eb.
  - rewrite HS. cbn [bindO]. rewrite HTS. cbn [bindO]. eexists. split; [reflexivity|]. split; [|intros _; exact LE].
    split; cbn [cd_dec cd_rules cd_search_rules cd_plain]; [exact HL| |reflexivity|exact (sg_plain _ _ SG)]. exists (Some (lsg L)). rewrite BF. auto.
  - eexists. split; [reflexivity|]. split; [|intros ->; rewrite orb_true_r in Eb; discriminate].
    split; cbn [cd_dec cd_rules cd_search_rules cd_plain]; [exact HL| |reflexivity|exact (sg_plain _ _ SG)]. exists None. rewrite BF. split; [reflexivity|]. right. apply orb_false_iff in Eb as [Eb _]. apply Nat.ltb_ge in Eb. auto.
Qed.

Lemma sums_solves : forall wt evs X, solves (map (at_weight c wt) Q) (wanted [] evs) X <-> sums_to Q evs X.
Proof.
  intros wt evs X. unfold solves, sums_to. rewrite map_length, select_map. split; intros [H1 H2]; (split; [exact H1|]); intros v; specialize (H2 v); unfold wanted in *; rewrite at_degree in *; rewrite H2; destruct v; cbn; now rewrite ?andb_true_r.
Qed.
Lemma best_near : forall wt evs X, (forall q, In q Q -> In (wt q) ws) -> best (map (at_weight c wt) Q) (wanted [] evs) X ->
  near Q M wt evs X /\ Rabs (reported (2 * c) (s_total (select (map (at_weight c wt) Q) X)) - rsum (map wt (sel Q X))) <= INR (length (sel Q X)) * half_step M.
Proof.
  intros wt evs X HW [H1 H2].
  assert (ER : forall Z, Rabs (IZR (s_total (select (map (at_weight c wt) Q) Z)) / (2 * c) - rsum (map wt (sel Q Z))) <= INR (length (sel Q Z)) * half_step M).
  { intros Z. rewrite select_map, at_total. rewrite <- (map_length wt (sel Q Z)). apply (sum_error ws c M HC ws_abs). intros w Hw. apply in_map_iff in Hw as (q & <- & Hq). apply HW. exact (sel_In _ _ _ Hq). }
  split.
  2: { rewrite select_map, at_total. rewrite <- (map_length wt (sel Q X)). apply (sum_reported ws c M HC ws_abs). intros w Hw. apply in_map_iff in Hw as (q & <- & Hq). apply HW. exact (sel_In _ _ _ Hq). }
  split; [now apply sums_solves in H1|]. intros Y HY. apply (sums_solves wt) in HY. specialize (H2 Y HY). pose proof (ER X) as E1. pose proof (ER Y) as E2. apply Rabs_le_inv in E1. apply Rabs_le_inv in E2.
  assert (LE : IZR (s_total (select (map (at_weight c wt) Q) X)) / (2 * c) <= IZR (s_total (select (map (at_weight c wt) Q) Y)) / (2 * c)).
  { unfold Rdiv. apply Rmult_le_compat_r; [left; apply Rinv_0_lt_compat; pose proof const_pos; lra|]. now apply IZR_le. }
  rewrite plus_INR. lra.
Qed.
Lemma base_in : forall q, In q Q -> In (q_weight q) ws.
Proof. intros q Hq. apply in_or_app. left. unfold q_weight. apply in_map. exact (proj1 (Q_in q Hq)). Qed.
Lemma lowered_in : forall X q, In q Q -> In (q_lowered (q_active Q X) q) ws.
Proof.
  intros X q Hq. unfold q_lowered. match goal with |- In (fold_right Rmin ?w ?l) _ => destruct (least_in w l) as [E|H] end; [rewrite E; now apply base_in|].
  apply in_map_iff in H as (r & E & Hr). rewrite <- E. apply filter_In in Hr as [Hr _]. unfold q_active in Hr. apply in_concat in Hr as (l & Hl & Hr). apply in_map_iff in Hl as (q' & <- & Hq').
  apply in_or_app. right. apply in_map. apply in_concat. exists (snd q'). split; [|exact Hr]. exact (proj2 (Q_in q' (sel_In _ _ _ Hq'))).
Qed.
Lemma lowered_weights : forall X, lowered Rs X = map (at_weight c (q_lowered (q_active Q X))) Q.
Proof.
  intros X. unfold Rs. apply lowered_conv; [left; exact const_pos|]. intros q Hq. destruct (Q_pos q Hq) as [H1 H2]. split; [apply H1|]. intros r Hr. exact (proj1 (H2 r Hr)).
Qed.
Lemma Rs_even : forall e, In e (map fst Rs) -> Z.even (s_weight e) = true.
Proof. intros e He. rewrite Rs_fst in He. apply in_map_iff in He as (q & <- & Hq). exact (proj1 (discretise_spec ws c HC _ (base_in q Hq))). Qed.
Lemma Rs_weights : forall e, In e (map fst Rs) -> (0 <= s_weight e <= max_weight)%Z.
Proof.
  intros e He. rewrite Rs_fst in He. apply in_map_iff in He as (q & <- & Hq). destruct (discretise_spec ws c HC _ (base_in q Hq)) as (_ & H & _). cbn [at_weight s_weight].
  pose proof (discretise_pos c (q_weight q) (Rlt_le _ _ const_pos) (proj1 (proj1 (Q_pos q Hq)))) as P. change (Z.abs (discretise c (q_weight q)) <= max_weight)%Z in H. lia.
Qed.
Definition enough (Y : list bool) : Prop := (length (sel Q Y) <= 64)%nat \/ few_steps (fun p => exists q, In q Q /\ q_ends q = p).
Lemma few_light : forall Y, enough Y -> wide_enough (map fst Rs) (s_total (select (map fst Rs) Y)).
Proof.
  intros Y [HY|HY]; [left|right; apply few_within].
  2: intros e He; apply Rs_weights in He; lia.
  2: { revert HY. apply few_covers; intros p H; left; [destruct H as (q & Hq & <-); exists (at_weight c q_weight q); split; [rewrite Rs_fst; now apply in_map|reflexivity]|].
       destruct H as (e & He & <-). rewrite Rs_fst in He. apply in_map_iff in He as (q & <- & Hq). exists q. split; [exact Hq|reflexivity]. }
  rewrite Rs_fst, select_map. assert (X : forall l, (forall q, In q l -> In q Q) -> (s_total (map (at_weight c q_weight) l) <= Z.of_nat (length l) * max_weight)%Z).
  { induction l as [|q l IH]; intros H; [cbn; lia|]. cbn [map length]. change (s_total (at_weight c q_weight q :: map (at_weight c q_weight) l)) with (s_weight (at_weight c q_weight q) + s_total (map (at_weight c q_weight) l))%Z.
    specialize (IH (fun q' Hq => H q' (or_intror Hq))). assert (W : In (at_weight c q_weight q) (map fst Rs)) by (rewrite Rs_fst; apply in_map; apply H; now left). apply Rs_weights in W. rewrite Nat2Z.inj_succ. lia. }
  specialize (X (sel Q Y) (fun q => sel_In Q Y q)). unfold max_weight in X. assert (Z.of_nat (length (sel Q Y)) <= 64)%Z by lia. nia.
Qed.
Lemma bare_nil : forall E, boundary_bare [] E.
Proof. intros E [|v] H; discriminate. Qed.

Section Decode.
Variables (D : cdecoder) (x : crunning) (evs : list nat) (Y : list bool).
Hypothesis DF : made D.
Hypothesis RS : resting D x.
Hypothesis ND : NoDup evs.
Hypothesis EX : sums_to Q evs Y.
Hypothesis FEW : enough Y.
Lemma events_valid : valid_events (adj (lg L)) evs.
Proof.
  destruct loaded_parts as (HB & _). destruct (build_built _ _ _ _ HB) as (_ & LN & _). split; [exact ND|]. intros v Hv. rewrite LN. assert (O : Nat.odd (total_degree v (map fst (sel Q Y))) = true) by (rewrite (proj2 EX); now apply memb_In).
  apply P_Matching.odd_touches in O as (e & He & Hn). apply in_map_iff in He as (q & <- & Hq). apply sel_In in Hq. destruct (Q_in q Hq) as [He _]. destruct (sg_inv _ _ SG) as (_ & HN & _). destruct (HN _ He) as [N1 N2]. unfold edge_ends in Hn. unfold n, num_nodes.
  destruct (Nat.eqb_spec (node1 (fst q)) v) as [<-|]; [exact N1|]. destruct (node2 (fst q)) as [b|]; [|contradiction]. destruct (Nat.eqb_spec b v) as [<-|]; [now apply N2|contradiction].
Qed.
Lemma events_solved : solves (map fst Rs) (wanted [] evs) Y.
Proof. rewrite Rs_fst. now apply sums_solves. Qed.

Definition right_sel (cor : bool) (row : list bool) (w : R) : Prop :=
  exists X wt, counts Q M cor evs wt /\ near Q M wt evs X /\ row = map (fun i => flips_observable i (map fst (sel Q X))) (seq 0 (nobs g)) /\
    Rabs (w - rsum (map wt (sel Q X))) <= INR (length (sel Q X)) * half_step M.
Definition right_out (cor : bool) (out : list (nat * option nat)) : Prop :=
  exists X wt, counts Q M cor evs wt /\ near Q M wt evs X /\ exists l, Permutation l (sel Q X) /\ Forall2 (fun p q => same_edge p (q_ends q) = true) out l.

Lemma sized : forall cor : bool, (cor = true -> length (adj (d_graph (cd_dec D))) = search_size (cd_dec D)) -> cor = true -> length (adj (lg L)) = search_size (cd_dec D).
Proof. intros cor H E. specialize (H E). destruct (df_dec _ _ _ _ _ _ _ DF) as (so & ED & _). rewrite ED in H at 1. exact H. Qed.
Lemma graph_decode : forall cor : bool, (cor = true -> length (adj (d_graph (cd_dec D))) = search_size (cd_dec D)) ->
  exists K x' row w, (forall fuel, (K <= fuel)%nat -> correlated_decode_h fuel cyclic_ints cor D x evs = Ok (x', (row, w))) /\ resting D x' /\ right_sel cor row w.
Proof.
  intros cor SZ. pose proof (few_light Y FEW) as LY. destruct cor.
  - destruct (double_decode (nobs g) n Rs [] (2 * c) L D DF Rs_np Rs_even Rs_weights (bare_nil _) x evs Y RS events_valid events_solved LY (sized true SZ eq_refl)) as (K & r' & w & X1 & X2 & H1 & H2 & H3 & H4 & H5).
    exists K, (with_run x r'), (map (fun i => s_flips i (select (map fst Rs) X2)) (seq 0 (nobs g))), (reported (2 * c) w). split; [exact H1|]. split; [exact H2|].
    rewrite Rs_fst in H3. apply best_near in H3; [|exact base_in]. destruct H3 as [H3 _]. rewrite lowered_weights in H4, H5. apply best_near in H4; [|apply lowered_in]. destruct H4 as [H4 H6].
    exists X2, (q_lowered (q_active Q X1)). split; [exists X1; auto|]. split; [exact H4|]. split; [|rewrite <- H5; exact H6]. apply map_ext. intros i. rewrite Rs_fst, select_map. apply at_flips.
  - destruct (single_decode (nobs g) n Rs [] (2 * c) L D DF Rs_np Rs_even Rs_weights (bare_nil _) x evs Y RS events_valid events_solved LY) as (K & r' & w & X & H1 & H2 & H3 & H5).
    exists K, (with_run x r'), (map (fun i => s_flips i (select (map fst Rs) X)) (seq 0 (nobs g))), (reported (2 * c) w). split; [exact H1|]. split; [exact H2|].
    rewrite Rs_fst in H3, H5. apply best_near in H3; [|exact base_in]. destruct H3 as [H3 H6].
    exists X, q_weight. split; [reflexivity|]. split; [exact H3|]. split; [|rewrite <- H5; exact H6]. apply map_ext. intros i. rewrite Rs_fst, select_map. apply at_flips.
Qed.
Lemma out_listed : forall out X, lists_edges out (select (map fst Rs) X) -> exists l, Permutation l (sel Q X) /\ Forall2 (fun p q => same_edge p (q_ends q) = true) out l.
Proof.
  intros out X (l & P & F). rewrite Rs_fst, select_map in P. apply Permutation_map_inv in P as (l' & -> & P). exists l'. split; [now apply Permutation_sym|]. clear P. remember (map (at_weight c q_weight) l') as m eqn:Em. revert l' Em.
  induction F as [|p e out l HP F IH]; intros l' Em; destruct l' as [|q l']; try discriminate; [constructor|]. injection Em as -> ->. constructor; [exact HP|]. now apply IH.
Qed.
Lemma graph_edges : forall cor : bool, length (adj (d_graph (cd_dec D))) = search_size (cd_dec D) ->
  exists K x' out, (forall fuel, (K <= fuel)%nat -> correlated_to_edges_h fuel cyclic_ints cor D x evs = Ok (x', out)) /\ resting D x' /\ right_out cor out.
Proof.
  intros cor SZ. pose proof (few_light Y FEW) as LY. pose proof (sized true (fun _ => SZ) eq_refl) as SZ'. destruct cor.
  - destruct (double_edges (nobs g) n Rs [] (2 * c) L D DF Rs_np Rs_even Rs_weights (bare_nil _) x evs Y RS events_valid events_solved LY SZ') as (K & r' & out & X1 & X2 & H1 & H2 & H3 & H4 & H5).
    exists K, (with_run x r'), out. split; [exact H1|]. split; [exact H2|].
    rewrite Rs_fst in H3. apply best_near in H3; [|exact base_in]. destruct H3 as [H3 _]. rewrite lowered_weights in H4. apply best_near in H4; [|apply lowered_in]. destruct H4 as [H4 H6].
    exists X2, (q_lowered (q_active Q X1)). split; [exists X1; auto|]. split; [exact H4|]. now apply out_listed.
  - destruct (single_edges (nobs g) n Rs [] (2 * c) L D DF Rs_np Rs_even Rs_weights (bare_nil _) x evs Y RS events_valid events_solved LY SZ') as (K & r' & out & X & H1 & H2 & H3 & H5).
    exists K, (with_run x r'), out. split; [exact H1|]. split; [exact H2|].
    rewrite Rs_fst in H3. apply best_near in H3; [|exact base_in]. destruct H3 as [H3 H6].
    exists X, q_weight. split; [reflexivity|]. split; [exact H3|]. now apply out_listed.
Qed.
End Decode.
(** Nothing accounts for the events. *)
Lemma graph_stuck : forall D x evs, made D -> resting D x -> NoDup evs -> (forall v, In v evs -> (v < n)%nat) -> few_steps (fun p => exists q, In q Q /\ q_ends q = p) -> (forall Y, ~ sums_to Q evs Y) ->
  exists K x', resting D x' /\ forall fuel, (K <= fuel)%nat ->
  (correlated_decode_h fuel cyclic_ints false D x evs = Throw /\ decode_left fuel cyclic_ints false D x evs = Ok x') /\
  (length (adj (d_graph (cd_dec D))) = search_size (cd_dec D) ->
    (forall X (second : decoder -> running -> outcome (running * X)), two_pass_h fuel cyclic_ints D x evs second = Throw) /\ two_pass_left fuel cyclic_ints D x evs = Ok x' /\
    correlated_to_edges_h fuel cyclic_ints false D x evs = Throw /\ edges_left fuel cyclic_ints false D x evs = Ok x').
Proof.
  intros D x evs DF RS ND IR FS NO. apply (decoding_fails (nobs g) n Rs [] (2 * c) L D DF Rs_np Rs_even Rs_weights (bare_nil _)); [|exact RS| |].
  - apply few_within; [intros e He; apply Rs_weights in He; lia|]. revert FS. apply few_covers; intros p H; left; [destruct H as (q & Hq & <-); exists (at_weight c q_weight q); split; [rewrite Rs_fst; now apply in_map|reflexivity]|].
    destruct H as (e & He & <-). rewrite Rs_fst in He. apply in_map_iff in He as (q & <- & Hq). exists q. split; [exact Hq|reflexivity].
  - destruct loaded_parts as (HB & _). destruct (build_built _ _ _ _ HB) as (_ & LN & _). split; [exact ND|]. intros v Hv. rewrite LN. now apply IR.
  - intros Y HY. rewrite Rs_fst in HY. apply sums_solves in HY. exact (NO Y HY).
Qed.
End Loaded.
End Order.
End Constant.
End Graph.
