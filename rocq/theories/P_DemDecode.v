(** Decoding with a detector error model: error mechanisms and edges. *)
From Coq Require Import Reals ZArith List Bool Arith Lia Lra Permutation.
From Verif Require Import S_Reach S_Spread P_Spread M_Base M_Core M_CoreHeap M_Bits M_Merge P_Merge S_Merge P_Merge2 M_Dem S_Dem P_Dem P_Dem3 M_Matching S_Matching P_Matching P_Pipeline S_GraphMap P_GraphMap M_UserGraph S_UserGraph P_UserGraph S_Pipeline S_DemDecode P_Compact.
Import ListNotations.
Local Open Scope R_scope.

Fixpoint xsum {A} (f : A -> bool) (l : list A) : bool := match l with [] => false | a :: l' => xorb (f a) (xsum f l') end.
Lemma xsum_ext : forall A (f h : A -> bool) l, (forall a, In a l -> f a = h a) -> xsum f l = xsum h l.
Proof. intros A f h l H. induction l as [|a l IH]; [reflexivity|]. cbn. rewrite (H a (or_introl eq_refl)), IH by (intros; apply H; now right). reflexivity. Qed.
Lemma xsum_xor : forall A (f h : A -> bool) l, xsum (fun a => xorb (f a) (h a)) l = xorb (xsum f l) (xsum h l).
Proof. intros A f h l. induction l as [|a l IH]; [reflexivity|]. cbn. rewrite IH. destruct (f a), (h a), (xsum f l), (xsum h l); reflexivity. Qed.
Lemma xsum_false : forall A (f : A -> bool) l, (forall a, In a l -> f a = false) -> xsum f l = false.
Proof. intros A f l H. induction l as [|a l IH]; [reflexivity|]. cbn. rewrite (H a (or_introl eq_refl)), IH by (intros; apply H; now right). reflexivity. Qed.
Lemma xsum_one : forall A (f : A -> bool) l a, NoDup l -> In a l -> (forall b, In b l -> f b = true -> b = a) -> xsum f l = f a.
Proof.
  intros A f l a ND Ha H. induction ND as [|b l Nb ND IH]; [destruct Ha|]. cbn. destruct Ha as [->|Ha].
  - rewrite xsum_false; [now rewrite xorb_false_r|]. intros b Hb. apply not_true_is_false. intros E. pose proof (H b (or_intror Hb) E). subst. contradiction.
  - rewrite IH by first [assumption | intros; apply H; [now right|assumption]]. assert (f b = false) as ->; [|apply xorb_false_l]. apply not_true_is_false. intros E. pose proof (H b (or_introl eq_refl) E). subst. contradiction.
Qed.
Fixpoint rprod {A} (f : A -> R) (l : list A) : R := match l with [] => 1 | a :: l' => f a * rprod f l' end.
Lemma rprod_ext : forall A (f h : A -> R) l, (forall a, In a l -> f a = h a) -> rprod f l = rprod h l.
Proof. intros A f h l H. induction l as [|a l IH]; [reflexivity|]. cbn. rewrite (H a (or_introl eq_refl)), IH by (intros; apply H; now right). reflexivity. Qed.
Lemma rsum_app : forall l l', fold_right Rplus 0 (l ++ l') = fold_right Rplus 0 l + fold_right Rplus 0 l'.
Proof. induction l; intros; cbn; [lra|]. rewrite IHl. lra. Qed.
Lemma rsum_scale : forall A (f : A -> R) c l, fold_right Rplus 0 (map (fun a => c * f a) l) = c * fold_right Rplus 0 (map f l).
Proof. induction l; cbn; [lra|]. rewrite IHl. lra. Qed.
Lemma filter_ext_in' : forall A (f h : A -> bool) l, (forall a, In a l -> f a = h a) -> filter f l = filter h l.
Proof. intros A f h l H. induction l as [|a l IH]; [reflexivity|]. cbn. rewrite (H a (or_introl eq_refl)), IH by (intros; apply H; now right). reflexivity. Qed.
Lemma filter_none : forall A (f : A -> bool) l, (forall a, In a l -> f a = false) -> filter f l = [].
Proof. intros A f l H. induction l as [|a l IH]; [reflexivity|]. cbn. rewrite (H a (or_introl eq_refl)). apply IH. intros; apply H; now right. Qed.
Lemma rprod_one : forall A (l : list A), rprod (fun _ => 1) l = 1.
Proof. induction l as [|a l IH]; [reflexivity|]. cbn. rewrite IH. ring. Qed.
Lemma filter_map : forall A B (p : B -> bool) (f : A -> B) l, filter p (map f l) = map f (filter (fun a => p (f a)) l).
Proof. induction l as [|a l IH]; [reflexivity|]. cbn. rewrite IH. destruct (p (f a)); reflexivity. Qed.

(** ** Mechanisms and a list of edges *)
Section Edges.
Variable A : Type.
Variables (E : list A) (acts : A -> mechanism -> bool).
Hypothesis ND : NoDup E.
Hypothesis UQ : forall e e' m, In e E -> In e' E -> acts e m = true -> acts e' m = true -> e = e'.
Definition covered (ms : list mechanism) : Prop := forall m, In m ms -> exists e, In e E /\ acts e m = true.
Definition at_edge (ms : list mechanism) (X : list bool) (e : A) : bool := oddly (acts e) ms X.
Lemma at_edge_cons : forall m ms x X e, at_edge (m :: ms) (x :: X) e = xorb (x && acts e m) (at_edge ms X e).
Proof. reflexivity. Qed.

Lemma swap : forall (h : A -> bool) h' ms X, covered ms -> length X = length ms -> (forall e m, In e E -> In m ms -> acts e m = true -> h e = h' m) ->
  xsum (fun e => at_edge ms X e && h e) E = oddly h' ms X.
Proof.
  intros h h' ms. induction ms as [|m ms IH]; intros [|x X] CV L H; try discriminate; [apply xsum_false; reflexivity|].
  cbn [oddly]. rewrite <- (IH X (fun m' Hm => CV m' (or_intror Hm)) ltac:(cbn in L; lia) (fun e m' He Hm => H e m' He (or_intror Hm))).
  destruct (CV m (or_introl eq_refl)) as (e0 & He0 & Ha0).
  rewrite (xsum_ext _ _ (fun e => xorb (x && (acts e m && h e)) (at_edge ms X e && h e))).
  2: { intros e _. rewrite at_edge_cons. destruct x, (acts e m), (at_edge ms X e), (h e); reflexivity. }
  rewrite xsum_xor. f_equal. destruct x; cbn [andb]; [|apply xsum_false; reflexivity].
  rewrite (xsum_one _ _ E e0 ND He0).
  - rewrite Ha0. apply H; [assumption|now left|assumption].
  - intros e He E'. apply andb_prop in E' as [E' _]. exact (UQ e e0 m He He0 E' Ha0).
Qed.

Lemma choose : forall (h' : nat -> mechanism -> bool) ms, covered ms -> forall (f : A -> bool), exists X, length X = length ms /\
  (forall e, In e E -> at_edge ms X e = f e && existsb (acts e) ms) /\
  forall k (h : A -> bool), (forall e m l, In e E -> f e = true -> filter (acts e) ms = m :: l -> h e = h' k m) -> oddly (h' k) ms X = xsum (fun e => f e && existsb (acts e) ms && h e) E.
Proof.
  intros h' ms. induction ms as [|m ms IH]; intros CV f.
  - exists []. split; [reflexivity|]. split; [intros e _; now rewrite andb_false_r|]. intros k h _. symmetry. apply xsum_false. intros e _. cbn. now rewrite andb_false_r.
  - destruct (CV m (or_introl eq_refl)) as (e0 & He0 & Ha0). destruct (IH (fun m' Hm => CV m' (or_intror Hm)) (fun e => f e && negb (acts e m))) as (X & L & H & HX).
    exists (f e0 :: X). split; [cbn; lia|]. split.
    + intros e He. rewrite at_edge_cons, (H e He). cbn [existsb]. destruct (acts e m) eqn:Ea.
      * rewrite (UQ e e0 m He He0 Ea Ha0). cbn. now rewrite !andb_true_r, andb_false_r, xorb_false_r.
      * cbn. now rewrite andb_false_r, andb_true_r, xorb_false_l.
    + intros k h Hh. cbn [oddly]. rewrite (HX k h).
      2: { intros e m' l He Hf El. apply andb_prop in Hf as [Hf Hn]. apply (Hh e m' l He Hf). cbn [filter]. destruct (acts e m); [discriminate|exact El]. }
      rewrite (xsum_ext _ (fun e => f e && existsb (acts e) (m :: ms) && h e) (fun e => xorb (f e && acts e m && h e) (f e && negb (acts e m) && existsb (acts e) ms && h e))).
      2: { intros e _. cbn [existsb]. destruct (f e), (acts e m), (h e), (existsb (acts e) ms); reflexivity. }
      rewrite xsum_xor. f_equal. rewrite (xsum_one _ _ E e0 ND He0).
      * rewrite Ha0, andb_true_r. destruct (f e0) eqn:Ef; [|reflexivity]. cbn [andb]. symmetry. apply (Hh e0 m (filter (acts e0) ms) He0 Ef). cbn [filter]. now rewrite Ha0.
      * intros e He E'. apply andb_prop in E' as [E' _]. apply andb_prop in E' as [_ E']. exact (UQ e e0 m He He0 E' Ha0).
Qed.
Lemma few_odd : forall ms X, covered ms -> length X = length ms -> (length (filter (at_edge ms X) E) <= number X)%nat.
Proof.
  intros ms. induction ms as [|m ms IH]; intros [|x X] CV L; try discriminate; [rewrite (filter_none _ (at_edge [] [])) by reflexivity; cbn; lia|].
  specialize (IH X (fun m' Hm => CV m' (or_intror Hm)) ltac:(cbn in L; lia)). destruct (CV m (or_introl eq_refl)) as (e0 & He0 & Ha0).
  destruct x.
  - unfold number in *. cbn [count_occ]. destruct (bool_dec true true); [|congruence].
    assert (G : forall l, NoDup l -> incl l E -> (length (filter (at_edge (m :: ms) (true :: X)) l) <= 1 + length (filter (at_edge ms X) l))%nat /\ (~ In e0 l -> length (filter (at_edge (m :: ms) (true :: X)) l) = length (filter (at_edge ms X) l))).
    { induction l as [|a l IHl]; intros Nl Hl; [cbn; split; [lia|reflexivity]|]. inversion Nl as [|? ? N1 N2]; subst. destruct (IHl N2 (fun e He => Hl e (or_intror He))) as [G1 G2]. cbn [filter]. rewrite at_edge_cons. cbn [andb].
      destruct (acts a m) eqn:Ea.
      - pose proof (UQ a e0 m (Hl a (or_introl eq_refl)) He0 Ea Ha0). subst a. rewrite xorb_true_l. specialize (G2 N1). destruct (at_edge ms X e0); cbn [negb length]; (split; [lia|intros H; elim H; now left]).
      - rewrite xorb_false_l. destruct (at_edge ms X a); cbn [length]; (split; [lia|intros H; rewrite G2 by (intros Hi; apply H; now right); lia]). }
    destruct (G E ND (fun e He => He)) as [G1 _]. lia.
  - unfold number in *. cbn [count_occ]. destruct (bool_dec false true); [congruence|]. rewrite (filter_ext_in' _ _ (at_edge ms X)); [exact IH|]. intros e _. rewrite at_edge_cons. cbn [andb]. apply xorb_false_l.
Qed.

(** Probabilities *)
Definition odds (ms : list mechanism) (e : A) : R := odd_probability (map fst (filter (acts e) ms)).
Lemma odds_cons : forall m ms e, odds (m :: ms) e = if acts e m then exactly_one (fst m) (odds ms e) else odds ms e.
Proof. intros m ms e. unfold odds. cbn [filter]. destruct (acts e m); reflexivity. Qed.
Definition at_all (ms : list mechanism) (f : A -> bool) (Z : list bool) : bool := forallb (fun e => Bool.eqb (f e) (at_edge ms Z e)) E.
Definition total (ms : list mechanism) (f : A -> bool) : R := fold_right Rplus 0 (map (chance ms) (filter (at_all ms f) (all_lists (length ms)))).
Definition factor (f : A -> bool) (q : A -> R) (e : A) : R := if f e then q e else 1 - q e.
Lemma forallb_ext' : forall B (f h : B -> bool) l, (forall b, In b l -> f b = h b) -> forallb f l = forallb h l.
Proof. intros B f h l H. induction l as [|b l IH]; [reflexivity|]. cbn. rewrite (H b (or_introl eq_refl)), IH by (intros; apply H; now right). reflexivity. Qed.
Lemma total_cons : forall m ms f, total (m :: ms) f = (1 - fst m) * total ms f + fst m * total ms (fun e => xorb (acts e m) (f e)).
Proof.
  intros m ms f. unfold total. cbn [length all_lists]. rewrite filter_app, map_app, rsum_app, !filter_map, !map_map. cbn [chance]. rewrite !rsum_scale. f_equal; f_equal; f_equal; f_equal; apply filter_ext; intros Z; apply forallb_ext'; intros e _; rewrite at_edge_cons; cbn [andb].
  - now rewrite xorb_false_l.
  - destruct (f e), (acts e m), (at_edge ms Z e); reflexivity.
Qed.
Lemma prod_split : forall e0 l (F G H : A -> R), NoDup l -> In e0 l -> (forall e, In e l -> e <> e0 -> F e = G e) -> (forall e, In e l -> e <> e0 -> F e = H e) ->
  exists r, rprod F l = F e0 * r /\ rprod G l = G e0 * r /\ rprod H l = H e0 * r.
Proof.
  intros e0 l F G H N. induction N as [|a l Na N IH]; intros Hi HG HH; [destruct Hi|]. destruct Hi as [->|Hi].
  - exists (rprod F l). split; [reflexivity|]. cbn. split; f_equal; apply rprod_ext; intros e He; symmetry; [apply HG|apply HH]; first [now right | intros ->; contradiction].
  - destruct (IH Hi (fun e He => HG e (or_intror He)) (fun e He => HH e (or_intror He))) as (r & R1 & R2 & R3). assert (a <> e0) by (intros ->; contradiction).
    exists (F a * r). cbn. rewrite R1, R2, R3, <- (HG a (or_introl eq_refl)), <- (HH a (or_introl eq_refl)) by assumption. split; [|split]; ring.
Qed.
Lemma total_product : forall ms, covered ms -> forall f, total ms f = rprod (factor f (odds ms)) E.
Proof.
  induction ms as [|m ms IH]; intros CV f.
  - unfold total. cbn [length all_lists filter]. destruct (at_all [] f []) eqn:Ea.
    + cbn. symmetry. rewrite Rplus_0_r. unfold at_all in Ea. rewrite forallb_forall in Ea. rewrite (rprod_ext _ _ (fun _ => 1)); [apply rprod_one|].
      intros e He. specialize (Ea e He). apply Bool.eqb_prop in Ea. unfold factor. rewrite Ea. cbn. unfold odds. cbn. ring.
    + cbn. symmetry. assert (X : exists e, In e E /\ f e = true).
      { unfold at_all in Ea. clear - Ea. induction E as [|a l IHl]; [discriminate|]. cbn [forallb] in Ea. apply andb_false_iff in Ea as [Ea|Ea]; [exists a; split; [now left|]; destruct (f a); [reflexivity|discriminate]|]. destruct (IHl Ea) as (e & H1 & H2). exists e. split; [now right|exact H2]. }
      destruct X as (e & He & Hf). clear - He Hf. induction E as [|a l IHl]; [destruct He|]. destruct He as [->|He]; cbn; [unfold factor at 1; rewrite Hf; unfold odds; cbn; ring|rewrite IHl by assumption; ring].
  - assert (CV' : covered ms) by (intros m' Hm; apply CV; now right). rewrite total_cons, !(IH CV'). destruct (CV m (or_introl eq_refl)) as (e0 & He0 & Ha0).
    assert (NA : forall e, In e E -> e <> e0 -> acts e m = false) by (intros e He Hn; apply not_true_is_false; intros Ea; apply Hn; exact (UQ e e0 m He He0 Ea Ha0)).
    destruct (prod_split e0 E (factor f (odds (m :: ms))) (factor f (odds ms)) (factor (fun e => xorb (acts e m) (f e)) (odds ms)) ND He0) as (r & R1 & R2 & R3).
    { intros e He Hn. unfold factor. rewrite odds_cons, (NA e He Hn). reflexivity. }
    { intros e He Hn. unfold factor. rewrite odds_cons, (NA e He Hn), xorb_false_l. reflexivity. }
    rewrite R1, R2, R3. unfold factor. rewrite odds_cons, Ha0, xorb_true_l. unfold exactly_one. destruct (f e0); cbn [negb]; ring.
Qed.
Lemma likely_odd : forall ms, (forall m, In m ms -> 0 < fst m < 1) -> forall e, let b := at_edge ms (map (fun m => Rltb (1/2) (fst m)) ms) e in
  0 <= odds ms e < 1 /\ (b = false -> odds ms e <= 1/2) /\ (b = true -> 1/2 <= odds ms e).
Proof.
  induction ms as [|m ms IH]; intros H e b; [unfold b, odds; cbn; split; [lra|split; [lra|discriminate]]|]. specialize (IH (fun m' Hm => H m' (or_intror Hm)) e). cbv zeta in IH. destruct IH as (I0 & I1 & I2). specialize (H m (or_introl eq_refl)).
  subst b. cbn [map]. rewrite at_edge_cons, odds_cons. set (b := at_edge ms _ e) in *. destruct (acts e m); [|rewrite andb_false_r, xorb_false_l; auto]. rewrite andb_true_r. unfold exactly_one.
  split; [nra|]. destruct (Rltb (1/2) (fst m)) eqn:Eb; [apply Rltb_true in Eb|apply Rltb_false in Eb]; destruct b; cbn; (split; [intros X|intros X]); try discriminate; try specialize (I1 eq_refl); try specialize (I2 eq_refl); nra.
Qed.
Lemma odds_range : forall ms e, (forall m, In m ms -> 0 < fst m < 1) -> existsb (acts e) ms = true -> 0 < odds ms e < 1.
Proof.
  intros ms e H X. unfold odds. destruct (filter (acts e) ms) as [|m l] eqn:El.
  - apply existsb_exists in X as (m & Hm & Ha). assert (In m (filter (acts e) ms)) by (apply filter_In; auto). rewrite El in H0. destruct H0.
  - apply odd_range. intros q Hq. assert (E' : map fst (filter (acts e) ms) = fst m :: map fst l) by now rewrite El. assert (Hq' : In q (map fst (filter (acts e) ms))) by (rewrite E'; exact Hq). apply in_map_iff in Hq' as (m' & <- & Hm). apply filter_In in Hm as [Hm _]. now apply H.
Qed.
Lemma factor_exp : forall (f : A -> bool) (q w : A -> R) l, (forall e, In e l -> 0 < q e < 1 /\ w e = log_likelihood_ratio (q e)) ->
  rprod (factor f q) l = rprod (fun e => 1 - q e) l * exp (- fold_right (fun e x => w e + x) 0 (filter f l)) /\ 0 < rprod (fun e => 1 - q e) l.
Proof.
  intros f q w l H. induction l as [|e l IH]; [cbn; rewrite Ropp_0, exp_0; lra|]. destruct (IH (fun e' He => H e' (or_intror He))) as [I1 I2]. destruct (H e (or_introl eq_refl)) as [H1 H2].
  cbn [rprod filter]. rewrite I1. split; [|apply Rmult_lt_0_compat; lra]. unfold factor. destruct (f e); [|ring]. cbn [fold_right]. rewrite Ropp_plus_distr, exp_plus, !exp_Ropp, H2.
  pose proof (exp_to_weight (q e) H1) as X. unfold to_weight in X. unfold log_likelihood_ratio. rewrite X. field. split; [apply Rgt_not_eq, exp_pos|lra].
Qed.
End Edges.

Lemma xsum_perm : forall A (f : A -> bool) l l', Permutation l l' -> xsum f l = xsum f l'.
Proof. intros A f l l' H. induction H; cbn; [reflexivity|now rewrite IHPermutation| |congruence]. destruct (f x), (f y), (xsum f l); reflexivity. Qed.
Lemma xsum_filter : forall A (f h : A -> bool) l, xsum h (filter f l) = xsum (fun e => f e && h e) l.
Proof. induction l as [|a l IH]; [reflexivity|]. cbn [filter xsum]. destruct (f a); cbn [andb xsum]; rewrite IH; [reflexivity|now rewrite xorb_false_l]. Qed.
Lemma flips_xsum : forall k F, flips_observable k F = xsum (fun e => Nat.odd (count_occ Nat.eq_dec (obs e) k)) F.
Proof. induction F as [|e F IH]; [reflexivity|]. cbn. now rewrite <- IH. Qed.
Lemma degree_xsum : forall v F, Nat.odd (total_degree v F) = xsum (fun e => Nat.odd (edge_ends v e)) F.
Proof. induction F as [|e F IH]; [reflexivity|]. cbn [total_degree fold_right xsum]. fold (total_degree v F). now rewrite Nat.odd_add, IH. Qed.
Lemma weight_perm : forall F F', Permutation F F' -> total_weight F = total_weight F'.
Proof. intros F F' H. induction H; cbn; try lra. fold (total_weight l). fold (total_weight l'). now rewrite IHPermutation. Qed.

(** ** The graph of a model *)
Lemma raise_same : forall o n, (forall x, In x o -> (x < n)%nat) -> raise_nobs n o = n.
Proof. unfold raise_nobs. induction o as [|x o IH]; intros n H; [reflexivity|]. cbn [fold_left]. specialize (H x (or_introl eq_refl)) as Hx. destruct (Nat.ltb_spec n (x + 1)); [lia|]. apply IH. intros y Hy. apply H. now right. Qed.
Lemma calls_nobs : forall (cs : list (call RN)) (g : ugraph RN), (forall c x, In c cs -> In x (c_obs c) -> (x < nobs g)%nat) -> nobs (do_calls g cs) = nobs g.
Proof.
  induction cs as [|c cs IH]; intros g H; [reflexivity|]. change (do_calls g (c :: cs)) with (do_calls (fst (do_call g c)) cs).
  assert (X : nobs (fst (do_call g c)) = nobs g).
  { unfold do_call, add_or_merge. set (ns := resize _ _). destruct (index_of_neighbor _ _ _) as [i|].
    - destruct (merge_shape (mkG ns (edges g) (bnodes g) (nobs g) (allp g) (needs g)) (fst (nth i (nbrs (node_at ns (c_u c))) (0%nat, true))) (c_obs c) (c_w c) (c_p c) (c_s c)) as (_ & _ & E & _). exact E.
    - cbn [fst nobs]. apply raise_same. intros x Hx. exact (H c x (or_introl eq_refl) Hx). }
  rewrite IH; [exact X|]. rewrite X. intros c' x Hc. apply H. now right.
Qed.
Lemma calls_flags : forall (cs : list (call RN)) (g : ugraph RN), flags_ok RN g -> flags_ok RN (do_calls g cs).
Proof. induction cs as [|c cs IH]; intros g H; [exact H|]. change (do_calls g (c :: cs)) with (do_calls (fst (do_call g c)) cs). apply IH. now apply flags_add. Qed.

Section Model.
Variables (nd no : nat) (dem : list (instruction RD)) (M : R).
Let ms : list mechanism := mechanisms RD dem.
Let g : ugraph RN := load_dem RD nd no dem.
Hypothesis P1 : forall p ts, In (p, ts) dem -> p < 1.
Hypothesis WM : forall m, In m ms -> Rabs (log_likelihood_ratio (fst m)) <= M.
Hypothesis RG : forall p a b os, In (p, (a, b, os)) ms -> (a < nd)%nat /\ (forall c, b = Some c -> (c < nd)%nat) /\ forall k, In k os -> (k < no)%nat.

Lemma model_calls : g = do_calls (new_graph RN nd no) (map (P_Dem.mcall RD) ms).
Proof. unfold g, load_dem. exact (load_dem_calls RD dem (new_graph RN nd no)). Qed.
Lemma model_inv : Inv g.
Proof. rewrite model_calls. apply calls_effect. apply new_inv. Qed.
Lemma model_flags : flags_ok RN g.
Proof. rewrite model_calls. apply calls_flags. apply flags_new. Qed.
Lemma model_bnodes : bnodes g = [].
Proof. rewrite model_calls. destruct (calls_effect (map (P_Dem.mcall RD) ms) (new_graph RN nd no) (new_inv nd no)) as (_ & _ & _ & H). exact H. Qed.
Lemma model_nobs : nobs g = no.
Proof.
  rewrite model_calls, calls_nobs; [reflexivity|]. intros c x Hc Hx. apply in_map_iff in Hc as ([p [[a b] os]] & <- & Hm). cbn in *. exact (proj2 (proj2 (RG p a b os Hm)) x Hx).
Qed.
Lemma model_nodes : num_nodes g = nd.
Proof. unfold g. apply (load_dem_nodes RD nd no dem). intros p u v os H. destruct (RG p u v os H) as (A & B & _). split; [exact A|]. intros w ->. now apply B. Qed.
Lemma ms_range : forall m, In m ms -> 0 < fst m < 1.
Proof. intros [p c] H. exact (mechanisms_range dem P1 p c H). Qed.

Definition acts (e : uedge RN) (m : mechanism) : bool := acting_on (node1 e) (node2 e) m.
Lemma acts_joins : forall e p a b os, acts e (p, (a, b, os)) = true <-> joins e a b.
Proof. intros. unfold acts, acting_on. rewrite same_pair_spec. unfold joins. split; intros [[H1 H2]|[H1 H2]]; [left|right|left|right]; split; congruence. Qed.
Lemma E_NoDup : NoDup (edges g).
Proof. exact (edges_NoDup g model_inv). Qed.
Lemma acts_unique : forall e e' m, In e (edges g) -> In e' (edges g) -> acts e m = true -> acts e' m = true -> e = e'.
Proof.
  intros e e' [p [[a b] os]] He He' H H'. apply acts_joins in H. apply acts_joins in H'. exact (joined_same g model_inv e e' He He' (joins_eq e e' a b H H')).
Qed.
Lemma model_data : forall x y, get_edge_data g x y = match filter (acting_on x y) ms with [] => None | (p, (_, os)) :: l => let q := odd_probability (p :: map fst l) in Some (os, log_likelihood_ratio q, q) end.
Proof. intros x y. exact (load_dem_real nd no dem x y P1). Qed.
Lemma model_covered : covered _ (edges g) acts ms.
Proof.
  intros [p [[a b] os]] Hm. pose proof (model_data a b) as D. destruct (filter (acting_on a b) ms) as [|[q [k os']] l] eqn:El.
  - assert (X : In (p, (a, b, os)) (filter (acting_on a b) ms)). { apply filter_In. split; [exact Hm|]. cbn. rewrite same_pair_spec. now left. } rewrite El in X. destruct X.
  - cbv zeta in D. apply (proj1 (get_edge_data_spec (N := RN) g a b _ model_inv)) in D. destruct D as (e & He & J & _). exists e. split; [exact He|]. now apply acts_joins.
Qed.
Lemma model_edge : forall e, In e (edges g) -> exists m l, filter (acts e) ms = m :: l /\ obs e = snd (snd m) /\ prob e = odds _ acts ms e /\ weight e = log_likelihood_ratio (odds _ acts ms e).
Proof.
  intros e He. pose proof (edge_data_exists g e model_inv He) as D. 
  assert (D' : match filter (acts e) ms with [] => None | (p, (_, os)) :: l => let q := odd_probability (p :: map fst l) in Some (os, log_likelihood_ratio q, q) end = Some (obs e, weight e, prob e)) by (etransitivity; [symmetry; apply (model_data (node1 e) (node2 e))|exact D]).
  clear D. rename D' into D. destruct (filter (acts e) ms) as [|[p [k os]] l] eqn:El; [discriminate|]. cbv zeta in D. injection D as D1 D2 D3.
  exists (p, (k, os)), l. split; [reflexivity|]. unfold odds. rewrite El. split; [now symmetry|]. split; symmetry; assumption.
Qed.
Lemma model_acted : forall e, In e (edges g) -> existsb (acts e) ms = true.
Proof.
  intros e He. destruct (model_edge e He) as (m & l & El & _). apply existsb_exists. exists m. apply filter_In. rewrite El. now left.
Qed.
Lemma model_odds : forall e, In e (edges g) -> 0 < odds _ acts ms e < 1 /\ weight e = log_likelihood_ratio (odds _ acts ms e).
Proof. intros e He. split; [apply odds_range; [exact ms_range|now apply model_acted]|]. destruct (model_edge e He) as (m & l & _ & _ & _ & H). exact H. Qed.
Lemma odd_abs : forall ps p, (forall q, In q (p :: ps) -> 0 < q < 1 /\ Rabs (log_likelihood_ratio q) <= M) -> Rabs (log_likelihood_ratio (odd_probability (p :: ps))) <= M.
Proof.
  induction ps as [|p' ps IH]; intros p H.
  - cbn. replace (exactly_one p 0) with p by (unfold exactly_one; ring). apply H. now left.
  - cbn [odd_probability]. rewrite exactly_one_xor. fold (odd_probability (p' :: ps)). pose proof (odd_range ps p' (fun q Hq => proj1 (H q (or_intror Hq)))) as R.
    assert (Hp : 0 < p < 1) by (apply H; now left). pose proof (merge_is_llr_of_xor p (odd_probability (p' :: ps)) Hp R) as X. change (exactly_one p' (odd_probability ps)) with (odd_probability (p' :: ps)).
    unfold to_weight in X. unfold log_likelihood_ratio. rewrite <- X. eapply Rle_trans; [apply merge_abs_le|]. apply (H p). now left.
Qed.
Lemma model_weights : forall e, In e (edges g) -> Rabs (weight e) <= M.
Proof.
  intros e He. destruct (model_edge e He) as (m & l & El & _ & _ & Hw). rewrite Hw. unfold odds. rewrite El. apply odd_abs.
  assert (E' : map fst (filter (acts e) ms) = fst m :: map fst l) by now rewrite El. intros q Hq. assert (Hq' : In q (map fst (filter (acts e) ms))) by (rewrite E'; exact Hq). apply in_map_iff in Hq' as (m' & <- & Hm). apply filter_In in Hm as [Hm _]. split; [now apply ms_range|now apply WM].
Qed.
Lemma model_fits : M <= max_user_weight -> fits (new_matching g) g.
Proof. intros HM. apply new_fits; [exact model_inv|exact model_flags|]. intros e He. cbn. apply Rltb_false. eapply Rle_trans; [now apply model_weights|exact HM]. Qed.
Lemma model_ids : fault_ids_in_range g.
Proof.
  intros e x He Hx. rewrite model_nobs. destruct (model_edge e He) as ([p [[a b] os]] & l & El & Ho & _). rewrite Ho in Hx. cbn in Hx. apply (RG p a b os); [|exact Hx].
  apply (proj1 (proj1 (filter_In (acts e) _ _) ltac:(rewrite El; now left))).
Qed.
Lemma model_harmless : conversion_harmless g.
Proof.
  split.
  - intros e _ H. rewrite model_bnodes in H. destruct H.
  - intros e f u He Hf NE [_ H1] [_ H2]. exfalso. apply NE. rewrite model_bnodes in *. destruct H1 as [[A1 A2]|[_ []]], H2 as [[B1 B2]|[_ []]]. unfold at_boundary in *. rewrite model_bnodes in *.
    assert (node2 e = None) by (destruct (node2 e); [destruct A2|reflexivity]). assert (node2 f = None) by (destruct (node2 f); [destruct B2|reflexivity]).
    apply (joined_same g model_inv e f He Hf). left. split; congruence.
Qed.

(** Sets of edges and of mechanisms *)
Definition picks (F : list (uedge RN)) (e : uedge RN) : bool := existsb (fun e' => same_pair (node1 e') (node2 e') (node1 e) (node2 e)) F.
Lemma picks_in : forall F e, incl F (edges g) -> In e (edges g) -> (picks F e = true <-> In e F).
Proof.
  intros F e HI He. unfold picks. rewrite existsb_exists. split.
  - intros (e' & H1 & H2). rewrite <- joins_same_pair in H2. now rewrite <- (joined_same g model_inv e' e (HI e' H1) He H2).
  - intros H. exists e. split; [exact H|]. apply same_pair_spec. now left.
Qed.
Lemma picks_perm : forall F, NoDup F -> incl F (edges g) -> Permutation (filter (picks F) (edges g)) F.
Proof.
  intros F N HI. apply NoDup_Permutation; [apply NoDup_filter; exact E_NoDup|exact N|]. intros e. rewrite filter_In. split.
  - intros [H1 H2]. now apply (picks_in F e HI H1).
  - intros H. split; [now apply HI|]. apply (picks_in F e HI (HI e H)). exact H.
Qed.
Definition used (X : list bool) : list (uedge RN) := filter (at_edge _ acts ms X) (edges g).
Lemma used_degree : forall X v, length X = length ms -> Nat.odd (total_degree v (used X)) = oddly (flips_detector v) ms X.
Proof.
  intros X v L. rewrite degree_xsum. unfold used. rewrite xsum_filter. apply (swap _ _ _ E_NoDup acts_unique); [exact model_covered|exact L|].
  intros e [p [[a b] os]] He Hm Ha. apply acts_joins in Ha. unfold edge_ends. cbn [flips_detector]. destruct Ha as [[-> ->]|[-> H2]]; [|rewrite H2]; rewrite Nat.odd_add.
  - f_equal; [now destruct (a =? v)%nat|]. destruct b as [b|]; [|reflexivity]. now destruct (b =? v)%nat.
  - rewrite xorb_comm. f_equal; [now destruct (a =? v)%nat|now destruct (node1 e =? v)%nat].
Qed.
Lemma used_small : forall X, length X = length ms -> (length (used X) <= number X)%nat.
Proof. intros X L. apply (few_odd _ _ _ E_NoDup acts_unique); [exact model_covered|exact L]. Qed.
Lemma used_corrects : forall X P evs, explains_events ms P X -> (forall v, In v evs <-> P v) -> corrects g (used X) evs.
Proof.
  intros X P evs [L H] HE. split; [apply NoDup_filter; exact E_NoDup|]. split; [intros e He; now apply filter_In in He|]. intros v _. rewrite (used_degree X v L), HE. apply H.
Qed.
Lemma number_filter : forall (f : mechanism -> bool) l, number (map f l) = length (filter f l).
Proof. intros f. unfold number. induction l as [|m l IH]; [reflexivity|]. cbn [map count_occ filter]. destruct (f m); [destruct (bool_dec true true); [|congruence]; cbn [length]; now rewrite IH|destruct (bool_dec false true); [congruence|exact IH]]. Qed.
Definition likely (m : mechanism) : bool := Rltb (1/2) (fst m).
Lemma mechanisms_compact : few_steps (fun p => exists m, In m ms /\ fst (snd m) = p) -> few_steps (fun p => exists e, In e (edges g) /\ shows g p e).
Proof.
  apply few_covers.
  - intros p (m & Hm & <-). destruct (model_covered m Hm) as (e & He & Ha). destruct m as [q [[a b] os]]. apply acts_joins in Ha. cbn [fst snd]. left. exists e. split; [exact He|]. unfold shows. cbn [fst snd].
      destruct b as [b|]; [rewrite !model_bnodes; split; [intros []|]; split; [intros []|]; destruct Ha as [[H1 H2]|[H1 H2]]; [left; auto|right; split; congruence]|]. unfold boundary_edge_of. rewrite model_bnodes. split; [intros []|]. left. destruct Ha as [[H1 H2]|[H1 H2]]; [rewrite H2; split; [exact H1|exact I]|discriminate].
  - intros [a b] (e & He & HS). pose proof (model_acted e He) as Ha. apply existsb_exists in Ha as (m & Hm & Ha). destruct m as [q [[u v] os]]. apply acts_joins in Ha.
      assert (J : joins e a b).
      { unfold shows in HS. cbn [fst snd] in HS. destruct b as [b|]; [unfold joins; intuition congruence|]. destruct HS as [_ HS]. rewrite model_bnodes in HS. destruct HS as [[H1 H2]|[_ []]].
        left. split; [exact H1|]. destruct (node2 e) as [x|]; [|reflexivity]. cbn in H2. rewrite model_bnodes in H2. destruct H2. }
      destruct Ha as [[H1 H2]|[H1 H2]], J as [[H3 H4]|[H3 H4]].
      * left. exists (q, (u, v, os)). split; [exact Hm|]. cbn. congruence.
      * right. exists a, (node1 e). split; [congruence|]. exists (q, (u, v, os)). split; [exact Hm|]. cbn. congruence.
      * right. exists a, u. split; [congruence|]. exists (q, (u, v, os)). split; [exact Hm|]. cbn. congruence.
      * left. exists (q, (u, v, os)). split; [exact Hm|]. cbn. congruence.
Qed.
Lemma used_manageable : forall X, length X = length ms -> little ms X -> manageable g (used X).
Proof.
  intros X L [H|H]; [left|right; left]; [exists (used (map likely ms)); split|].
  - intros e He Hw. apply filter_In. split; [exact He|]. destruct (model_odds e He) as [R Ew]. destruct (likely_odd _ acts ms ms_range e) as (_ & A & _). fold likely in A.
    destruct (at_edge _ acts ms (map likely ms) e) eqn:Eb; [reflexivity|]. exfalso. specialize (A Eb). rewrite Ew in Hw. unfold log_likelihood_ratio in Hw.
    assert (1 <= (1 - odds _ acts ms e) / odds _ acts ms e). { apply Rmult_le_reg_r with (odds _ acts ms e); [lra|]. unfold Rdiv. rewrite Rmult_assoc, Rinv_l by lra. lra. }
    destruct H0 as [H0|H0]; [apply ln_increasing in H0; [rewrite ln_1 in H0; lra|lra]|rewrite <- H0, ln_1 in Hw; lra].
  - pose proof (used_small X L). pose proof (used_small (map likely ms) ltac:(apply map_length)) as H2. rewrite number_filter in H2. left. rewrite app_length. change (number X + length (filter likely ms) <= 64)%nat in H. lia.
  - now apply mechanisms_compact.
Qed.
Lemma all_lists_length : forall n Z, In Z (all_lists n) -> length Z = n.
Proof. induction n as [|n IH]; intros Z H; [destruct H as [<-|[]]; reflexivity|]. cbn in H. apply in_app_or in H as [H|H]; apply in_map_iff in H as (Z' & <- & H); cbn; now rewrite (IH Z' H). Qed.
Lemma oddly_ext : forall (f h : mechanism -> bool) l Z, (forall m, In m l -> f m = h m) -> oddly f l Z = oddly h l Z.
Proof. intros f h l. induction l as [|m l IH]; intros [|z Z] H; try reflexivity. cbn. rewrite (H m (or_introl eq_refl)), (IH Z (fun m' Hm => H m' (or_intror Hm))). reflexivity. Qed.
Lemma same_acts : forall e m m', acts e m = true -> on_same_pair m m' = acts e m'.
Proof.
  intros e [p [[a b] os]] [p' [[a' b'] os']] H. apply acts_joins in H. unfold on_same_pair, acts, acting_on. apply eq_true_iff_eq. rewrite !same_pair_spec. destruct H as [[-> ->]|[-> H2]]; [reflexivity|]. rewrite H2.
  split; intros [[H3 H4]|[H3 H4]]; [right|left|right|left]; split; congruence.
Qed.
Lemma alike_at : forall X Z, alike ms X Z = at_all _ (edges g) acts ms (at_edge _ acts ms X) Z.
Proof.
  intros X Z. unfold alike, at_all. apply eq_true_iff_eq. rewrite !forallb_forall. split.
  - intros H e He. destruct (model_edge e He) as (m & l & El & _). assert (Hm : In m (filter (acts e) ms)) by (rewrite El; now left). apply filter_In in Hm as [Hm Ha]. specialize (H m Hm).
    unfold at_edge. rewrite <- !(oddly_ext (on_same_pair m) (acts e)) by (intros; now apply same_acts). exact H.
  - intros H m Hm. destruct (model_covered m Hm) as (e & He & Ha). specialize (H e He). unfold at_edge in H. rewrite !(oddly_ext (on_same_pair m) (acts e)) by (intros; now apply same_acts). exact H.
Qed.
Definition nothing : R := rprod (fun e => 1 - odds _ acts ms e) (edges g).
Lemma likelihood_weight : forall X, likelihood ms X = nothing * exp (- total_weight (used X)) /\ 0 < nothing.
Proof.
  intros X. unfold likelihood. rewrite (filter_ext _ _ (alike_at X)). change (fold_right Rplus 0 (map (chance ms) (filter (at_all _ (edges g) acts ms (at_edge _ acts ms X)) (all_lists (length ms))))) with (total _ (edges g) acts ms (at_edge _ acts ms X)).
  rewrite (total_product _ _ _ E_NoDup acts_unique ms model_covered). exact (factor_exp _ (at_edge _ acts ms X) (odds _ acts ms) weight (edges g) model_odds).
Qed.
Lemma oddly_nothing : forall f l, oddly f l (repeat false (length l)) = false.
Proof. intros f. induction l as [|m l IH]; [reflexivity|]. cbn [length repeat oddly andb]. now rewrite IH. Qed.
Lemma likelihood_nothing : likelihood ms (repeat false (length ms)) = nothing.
Proof.
  destruct (likelihood_weight (repeat false (length ms))) as [-> _]. unfold used. rewrite filter_none; [cbn; rewrite Ropp_0, exp_0; ring|]. intros e _. apply oddly_nothing.
Qed.

Lemma list_eq_nil : forall A (l : list A), l = [] \/ exists a, In a l.
Proof. intros A [|a l]; [now left|right; exists a; now left]. Qed.
Lemma number_nothing : forall n, number (repeat false n) = 0%nat.
Proof. unfold number. induction n as [|n IH]; [reflexivity|]. cbn [repeat count_occ]. destruct (bool_dec false true); [discriminate|exact IH]. Qed.

Lemma row_most_likely : forall P row w, right_row g P row w -> most_likely ms no M P row w.
Proof.
  intros P row w (evs & F & HE & Hrow & HC & HB & HW). destruct HC as (N & HI & HD).
  destruct (choose _ (edges g) acts E_NoDup acts_unique flips_logical ms model_covered (picks F)) as (X & L & HX & HO).
  assert (HX' : forall e, In e (edges g) -> at_edge _ acts ms X e = picks F e) by (intros e He; rewrite (HX e He), (model_acted e He); apply andb_true_r).
  assert (PM : Permutation (used X) F). { unfold used. rewrite (filter_ext_in' _ _ _ _ HX'). now apply picks_perm. }
  assert (EV : explains_events ms P X).
  { split; [exact L|]. intros v. rewrite <- (used_degree X v L), <- HE, <- (HD v) by (rewrite model_bnodes; intros []). rewrite !degree_xsum, (xsum_perm _ _ _ _ PM). reflexivity. }
  exists X. split; [exact EV|]. intros flipped.
  assert (OB : row = flipped X).
  { unfold flipped. rewrite Hrow, model_nobs. apply map_ext. intros k. f_equal. rewrite flips_xsum, <- (xsum_perm _ _ _ _ PM). unfold used. rewrite xsum_filter.
    rewrite (HO k (fun e => Nat.odd (count_occ Nat.eq_dec (obs e) k))).
    - apply xsum_ext. intros e He. now rewrite (HX e He).
    - intros e m l He _ El. destruct (model_edge e He) as (m' & l' & El' & Ho & _). rewrite El in El'. injection El' as <- _. rewrite Ho. destruct m as [p [[a b] os]]. reflexivity. }
  destruct (likelihood_weight X) as [LX PX]. pose proof (exp_pos (- total_weight (used X))) as EP. pose proof (used_small X L) as SX.
  assert (HH : forall Y Z, length Y = length ms -> length Z = length ms -> INR (length (used Y) + length (used Z)) * half_step M <= INR (number Y + number Z) * half_step M).
  { intros Y Z LY LZ. pose proof (used_small Y LY). pose proof (used_small Z LZ). destruct (list_eq_nil _ ms) as [Em|(m & Hm)].
    - rewrite Em in LY, LZ. destruct Y; [|discriminate]. destruct Z; [|discriminate]. change (number []) with 0%nat in *. replace (length (used []) + length (used []))%nat with 0%nat by lia. cbn. lra.
    - apply Rmult_le_compat_r; [|apply le_INR; lia]. pose proof (WM m Hm). pose proof (Rabs_pos (log_likelihood_ratio (fst m))). apply half_step_pos; lra. }
  split; [exact OB|]. split; [|split; [|split]].
  - intros Y EY. destruct (likelihood_weight Y) as [-> _]. rewrite LX, Rmult_assoc, <- exp_plus. apply Rmult_le_compat_l; [lra|].
    destruct (HB (used Y) (used_corrects Y P evs EY HE)) as [B1 _]. specialize (B1 M model_weights). rewrite <- (weight_perm _ _ PM), <- (Permutation_length PM) in B1. pose proof (used_small Y (proj1 EY)) as SY.
    assert (Z : - total_weight (used Y) <= - total_weight (used X) + INR (number X + number Y) * half_step M).
    { specialize (HH X Y L (proj1 EY)). lra. }
    destruct Z as [Z|Z]; [left; now apply exp_increasing|right; now rewrite Z].
  - rewrite LX. apply Rmult_lt_0_compat; assumption.
  - rewrite likelihood_nothing, LX. replace (nothing / (nothing * exp (- total_weight (used X)))) with (exp (total_weight (used X))).
    2: { rewrite exp_Ropp. field. split; first [apply Rgt_not_eq, exp_pos | lra]. }
    rewrite ln_exp, (weight_perm _ _ PM). eapply Rle_trans; [apply (proj1 HW M model_weights)|]. rewrite <- (Permutation_length PM). specialize (HH X (repeat false (length ms)) L (repeat_length _ _)).
    assert (U0 : used (repeat false (length ms)) = []) by (apply filter_none; intros e _; apply oddly_nothing). rewrite U0 in HH. cbn [length] in HH. rewrite number_nothing, !Nat.add_0_r in HH. exact HH.
  - intros SO Z LZ HA. rewrite OB. unfold flipped. apply map_ext. intros k. f_equal.
    assert (SW : forall Y, length Y = length ms -> oddly (flips_logical k) ms Y = xsum (fun e => at_edge _ acts ms Y e && Nat.odd (count_occ Nat.eq_dec (obs e) k)) (edges g)).
    { intros Y LY. symmetry. apply (swap _ _ _ E_NoDup acts_unique); [exact model_covered|exact LY|]. intros e m He Hm Ha. destruct (model_edge e He) as (m0 & l & El & Ho & _).
      assert (H0 : In m0 (filter (acts e) ms)) by (rewrite El; now left). apply filter_In in H0 as [H0 Ha0]. rewrite <- (SO m0 m k H0 Hm) by now rewrite (same_acts e m0 m Ha0). rewrite Ho. destruct m0 as [p [[a b] os]]. reflexivity. }
    rewrite (SW X L), (SW Z LZ). apply xsum_ext. intros e He. rewrite alike_at in HA. unfold at_all in HA. rewrite forallb_forall in HA. specialize (HA e He). apply Bool.eqb_prop in HA. now rewrite HA.
Qed.

Lemma solvable_events : forall P, solvable g P -> exists X, explains_events ms P X.
Proof.
  intros P (evs & F & HE & N & HI & HD). destruct (choose _ (edges g) acts E_NoDup acts_unique flips_logical ms model_covered (picks F)) as (X & L & HX & _).
  assert (HX' : forall e, In e (edges g) -> at_edge _ acts ms X e = picks F e) by (intros e He; rewrite (HX e He), (model_acted e He); apply andb_true_r).
  assert (PM : Permutation (used X) F). { unfold used. rewrite (filter_ext_in' _ _ _ _ HX'). now apply picks_perm. }
  exists X. split; [exact L|]. intros v. rewrite <- (used_degree X v L), <- HE, <- (HD v) by (rewrite model_bnodes; intros []). rewrite !degree_xsum, (xsum_perm _ _ _ _ PM). reflexivity.
Qed.
Lemma model_explainable : forall P X, explains_events ms P X -> little ms X -> explainable g P.
Proof.
  intros P X EX HN. exists (filter (fun v => oddly (flips_detector v) ms X) (seq 0 nd)), (used X).
  assert (HE : forall v, In v (filter (fun v => oddly (flips_detector v) ms X) (seq 0 nd)) <-> P v).
  { intros v. rewrite filter_In, in_seq, (proj2 EX v). split; [tauto|]. intros H. split; [|exact H]. apply (proj2 EX) in H. rewrite <- (used_degree X v (proj1 EX)) in H.
    destruct (odd_touches v _ H) as (e & He & Hn). apply filter_In in He as [He _]. pose proof model_inv as (_ & HN' & _). destruct (HN' e He) as [N1 N2]. change (length (nodes g)) with (num_nodes g) in *. rewrite model_nodes in *.
    unfold edge_ends in Hn. destruct (Nat.eqb_spec (node1 e) v) as [<-|]; [lia|]. destruct (node2 e) as [x|]; [|contradiction]. destruct (Nat.eqb_spec x v) as [<-|]; [|contradiction]. specialize (N2 x eq_refl). lia. }
  split; [exact HE|]. split; [exact (used_corrects X P _ EX HE)|]. apply used_manageable; [exact (proj1 EX)|exact HN].
Qed.
Lemma model_scalable : (forall m, In m ms -> together ms m = 1/2) \/ (exists m, In m ms /\ / IZR (2 ^ 999) <= Rabs (log_likelihood_ratio (together ms m))) -> scalable g.
Proof.
  assert (T : forall e m, acts e m = true -> together ms m = odds _ acts ms e).
  { intros e m Ha. unfold together, odds. f_equal. f_equal. apply filter_ext. intros m'. now apply same_acts. }
  intros [H|(m & Hm & H)].
  - left. intros e He. destruct (model_odds e He) as [_ ->]. pose proof (model_acted e He) as Ha. apply existsb_exists in Ha as (m & Hm & Ha). rewrite <- (T e m Ha), (H m Hm). unfold log_likelihood_ratio. replace ((1 - 1 / 2) / (1 / 2)) with 1 by field. apply ln_1.
  - right. destruct (model_covered m Hm) as (e & He & Ha). exists e. split; [exact He|]. destruct (model_odds e He) as [_ ->]. rewrite <- (T e m Ha). exact H.
Qed.
Hypothesis SCM : (forall m, In m ms -> together ms m = 1/2) \/ (exists m, In m ms /\ / IZR (2 ^ 999) <= Rabs (log_likelihood_ratio (together ms m))).
Lemma model_usable : usable g.
Proof. split; [exact model_ids|]. split; [exact (model_scalable SCM)|exact model_harmless]. Qed.

Lemma decode_most_likely : forall z X, M <= max_user_weight -> accepted g z -> explains_events ms (event_at z) X -> little ms X ->
  exists K m' row w, (forall fuel, (K <= fuel)%nat -> mstep fuel cyclic_ints (new_matching g) (AskDecode z) = Ok (m', Row row w)) /\ most_likely ms no M (event_at z) row w.
Proof.
  intros z X HM AC EX HN. destruct (step_ok (new_matching g) g (AskDecode z) (model_fits HM)) as (K & m' & r & S1 & S2 & _); [intros _; split; [exact model_usable|left; exact (model_explainable _ X EX HN)]|].
  assert (SX : solvable g (event_at z)) by (destruct (model_explainable _ X EX HN) as (l & F & H1 & H2 & _); now exists l, F).
  destruct (proj1 S2 AC SX) as (row & w & -> & RR). exists K, m', row, w. split; [exact S1|]. now apply row_most_likely.
Qed.
Lemma model_range : forall z v, accepted g z -> event_at z v -> (v < num_nodes g)%nat.
Proof.
  intros z v HA HE. assert (D : num_detectors g = num_nodes g) by (unfold num_detectors; rewrite model_bnodes; cbn; lia).
  destruct z as [l|nc rs|]; cbn [accepted event_at] in *; [| |destruct HA].
  - rewrite model_bnodes in HA. cbn [length] in HA. destruct (le_lt_dec (length l) v) as [L|L]; [rewrite nth_overflow in HE by exact L; congruence|lia].
  - destruct HE as (t & c & (Ht & Hc & ->) & _). nia.
Qed.
(** Anything may be asked if the graph is compact. *)
Lemma decode_any : forall z, M <= max_user_weight -> accepted g z -> (nd <= 64)%nat \/ few_steps (fun p => exists m, In m ms /\ fst (snd m) = p) ->
  exists K m' r, (forall fuel, (K <= fuel)%nat -> mstep fuel cyclic_ints (new_matching g) (AskDecode z) = Ok (m', r)) /\ fits m' g /\
    ((exists X, explains_events ms (event_at z) X) -> exists row w, r = Row row w /\ most_likely ms no M (event_at z) row w) /\
    ((forall X, ~ explains_events ms (event_at z) X) -> r = Raised).
Proof.
  intros z HM AC HC. destruct (events_in_ok g z AC) as (evs & _ & _ & HE).
  assert (HC' : compact g) by (destruct HC as [HC|HC]; [apply few_nodes_compact; [exact model_inv|rewrite model_nodes; exact HC]|left; now apply mechanisms_compact]). clear HC. rename HC' into HC.
  destruct (step_ok (new_matching g) g (AskDecode z) (model_fits HM)) as (K & m' & r & S1 & S2 & S3); [intros _; split; [exact model_usable|]; right; split; [exact HC|]; intros v; now apply model_range|].
  exists K, m', r. split; [exact S1|]. split; [exact S3|]. split.
  - intros (X & EX). assert (SX : solvable g (event_at z)) by (exists evs, (used X); split; [exact HE|exact (used_corrects X _ evs EX HE)]).
    destruct (proj1 S2 AC SX) as (row & w & -> & RR). exists row, w. split; [reflexivity|]. now apply row_most_likely.
  - intros NX. apply (proj1 (proj2 S2) AC). intros SX. destruct (solvable_events _ SX) as [X EX]. exact (NX X EX).
Qed.
End Model.
Lemma llr_far : forall p, 0 < p <= 2/5 -> / IZR (2 ^ 999) <= log_likelihood_ratio p.
Proof.
  intros p H. apply Rle_trans with (1/3).
  - apply Rle_trans with (/ 3); [|lra]. apply Rinv_le_contravar; [lra|]. apply (IZR_le 3). discriminate.
  - unfold log_likelihood_ratio. assert (Y : 3/2 <= (1 - p) / p). { apply Rmult_le_reg_r with p; [lra|]. replace ((1 - p) / p * p) with (1 - p) by (field; lra). lra. }
    set (y := (1 - p) / p) in *. assert (I : / y <= 2/3). { replace (2/3) with (/ (3/2)) by field. apply Rinv_le_contravar; lra. }
    pose proof (exp_ineq1_le (ln (/ y))) as E. rewrite exp_ln in E by (apply Rinv_0_lt_compat; lra). rewrite ln_Rinv in E by lra. lra.
Qed.
