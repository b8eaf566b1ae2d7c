(** Building a decoder with rules from edges with rules. *)
From Coq Require Import ZArith NArith List Bool Arith Lia Permutation.
From Verif Require Import M_Base M_Core M_Build S_Build P_Build P_Convert P_Convert2 M_Flip S_Flip P_Flip M_ToEdges S_ToEdges P_ToEdges P_Signed
  M_Reweight S_Reweight P_Reweight M_Correlated S_Correlated P_Correlated M_CorrDecode.
Import ListNotations.
Local Open Scope nat_scope.

(** ** Conversion without declared boundary nodes *)
Definition inner (x : redge) : bool := match snd (fst (fst (fst x))) with Some _ => true | None => false end.
Definition outer_at (u : nat) (x : redge) : Prop := fst (fst (fst (fst x))) = u /\ snd (fst (fst (fst x))) = None.

Section NoBoundary.
Variable B : nat -> bool.
Hypothesis HB : forall v, B v = false.

Lemma ruled_inner : forall es t, fst (convert_ruled B es t) = filter inner es.
Proof.
  induction es as [|[[[[u x] w] o] rs] es IH]; intros t; [reflexivity|]. cbn [convert_ruled convert_edge filter inner fst snd]. rewrite HB. cbn [negb]. rewrite andb_true_r. destruct x as [v|]; cbn [is_bnd_node]; [rewrite HB; cbn [andb]|].
  - specialize (IH t). destruct (convert_ruled B es t). cbn [fst] in *. now rewrite IH.
  - apply IH.
Qed.
Lemma ruled_other : forall es t u, (forall x, In x es -> ~ outer_at u x) -> snd (convert_ruled B es t) u = t u.
Proof.
  induction es as [|[[[[a x] w] o] rs] es IH]; intros t u H; [reflexivity|]. cbn [convert_ruled convert_edge]. rewrite HB. cbn [negb]. rewrite andb_true_r.
  assert (H' : forall y, In y es -> ~ outer_at u y) by (intros y Hy; apply H; now right). destruct x as [v|]; cbn [is_bnd_node]; [rewrite HB; cbn [andb]|].
  - specialize (IH t u H'). destruct (convert_ruled B es t). exact IH.
  - rewrite IH by exact H'. assert (N : a <> u) by (intros ->; exact (H _ (or_introl eq_refl) (conj eq_refl eq_refl))). unfold keep_best_rules. destruct (t a) as [[[w0 o0] rs0]|]; [destruct (w <? w0)%Z|]; unfold upd; try reflexivity; destruct (Nat.eqb_spec a u); destruct (Nat.eqb_spec u a); congruence.
Qed.
Lemma ruled_table : forall es t, ForallOrdPairs (fun a b : redge => ~ parallel (fst a) (fst b)) es -> (forall u x, In x es -> outer_at u x -> t u = None) ->
  (forall u w o rs, In ((u, None, w, o), rs) es -> snd (convert_ruled B es t) u = Some (w, o, rs)) /\
  (forall u w o rs, snd (convert_ruled B es t) u = Some (w, o, rs) -> t u = Some (w, o, rs) \/ In ((u, None, w, o), rs) es).
Proof.
  induction es as [|[[[[a x] w] o] rs] es IH]; intros t FO HT; [split; [intros ? ? ? ? []|auto]|]. inversion FO as [|? ? F1 F2]; subst. rewrite Forall_forall in F1. cbn [convert_ruled convert_edge]. rewrite HB. cbn [negb]. rewrite andb_true_r.
  destruct x as [v|]; cbn [is_bnd_node]; [rewrite HB; cbn [andb]|].
  - destruct (IH t F2) as [I1 I2]; [intros u y Hy; apply HT; now right|]. destruct (convert_ruled B es t) as [l t']. cbn [snd] in *. split.
    + intros u w' o' rs' [H|H]; [discriminate|now apply I1].
    + intros u w' o' rs' H. destruct (I2 _ _ _ _ H); [now left|right; now right].
  - assert (Ta : t a = None) by exact (HT a _ (or_introl eq_refl) (conj eq_refl eq_refl)). unfold keep_best_rules. rewrite Ta.
    assert (Out : forall y, In y es -> ~ outer_at a y).
    { intros [[[[b y] w'] o'] rs'] Hy [H1 H2]. cbn [fst snd] in H1, H2. subst. apply (F1 _ Hy). cbn. auto. }
    destruct (IH (upd t a (Some (w, o, rs))) F2) as [I1 I2].
    { intros u y Hy Hu. unfold upd. destruct (Nat.eqb_spec u a) as [->|]; [destruct (Out y Hy Hu)|]. apply (HT u y); [now right|exact Hu]. }
    split.
    + intros u w' o' rs' [H|H]; [|now apply I1]. injection H as <- <- <- <-. rewrite ruled_other by exact Out. unfold upd. now rewrite Nat.eqb_refl.
    + intros u w' o' rs' H. destruct (I2 _ _ _ _ H) as [Hu|Hu]; [|right; now right]. unfold upd in Hu. destruct (Nat.eqb_spec u a) as [->|]; [injection Hu as <- <- <-; right; now left|now left].
Qed.
Lemma boundary_ruled_NoDup : forall t n k, NoDup (flat_map (fun u => match t u with Some (w, obs, rs) => [((u, @None nat, w, obs), rs)] | None => [] end) (seq k n) : list redge).
Proof.
  intros t n. induction n as [|n IH]; intros k; cbn [seq flat_map]; [constructor|]. destruct (t k) as [[[w o] rs]|]; [|apply IH]. cbn [app]. constructor; [|apply IH].
  intros H. apply in_flat_map in H as (u & Hu & H). apply in_seq in Hu. destruct (t u) as [[[w' o'] rs']|]; [|destruct H]. destruct H as [H|[]]. injection H as H _ _ _. lia.
Qed.
Lemma redge_NoDup : forall es : list redge, ForallOrdPairs (fun a b => ~ parallel (fst a) (fst b)) es -> NoDup es.
Proof.
  intros es H. induction H as [|e l He H IH]; constructor; [|exact IH]. intros Hi. apply (proj1 (Forall_forall _ _) He e Hi). destruct e as [[[[a x] w] o] rs]. cbn. auto.
Qed.
Lemma converted_same : forall n es, ForallOrdPairs (fun a b : redge => ~ parallel (fst a) (fst b)) es -> (forall x, In x es -> in_range n (fst x)) ->
  Permutation (convert_all_ruled n B es) es.
Proof.
  intros n es FO HR. unfold convert_all_ruled. pose proof (ruled_inner es (fun _ => None)) as RI. pose proof (ruled_table es (fun _ => None) FO (fun _ _ _ _ => eq_refl)) as [T1 T2].
  destruct (convert_ruled B es (fun _ => None)) as [l t]. cbn [fst snd] in *. subst l.
  assert (BL : forall x, In x (boundary_ruled n t) <-> In x es /\ inner x = false).
  { intros x. unfold boundary_ruled. rewrite in_flat_map. split.
    - intros (u & Hu & H). destruct (t u) as [[[w o] rs]|] eqn:Et; [|destruct H]. destruct H as [<-|[]]. destruct (T2 _ _ _ _ Et) as [|H]; [discriminate|]. auto.
    - intros [H Hi]. destruct x as [[[[u y] w] o] rs]. cbn in Hi. destruct y; [discriminate|]. exists u. split; [apply in_seq; pose proof (HR _ H u (or_introl eq_refl)); lia|]. rewrite (T1 _ _ _ _ H). now left. }
  apply NoDup_Permutation.
  - assert (N1 : NoDup (filter inner es)) by (apply NoDup_filter; now apply redge_NoDup). assert (N2 : NoDup (boundary_ruled n t)) by apply boundary_ruled_NoDup.
    assert (D : forall x, In x (filter inner es) -> ~ In x (boundary_ruled n t)) by (intros x H1 H2; apply filter_In in H1; apply BL in H2; destruct H1, H2; congruence).
    revert N1 D. generalize (filter inner es). intros l N1 D. induction N1 as [|a l Ha N1 IH]; [exact N2|]. cbn. constructor.
    + rewrite in_app_iff. intros [H|H]; [auto|]. exact (D a (or_introl eq_refl) H).
    + apply IH. intros x Hx. apply D. now right.
  - now apply redge_NoDup.
  - intros x. rewrite in_app_iff, filter_In, BL. destruct (inner x); intuition congruence.
Qed.
End NoBoundary.

(** ** Loading succeeds if every rule names an edge *)
Definition names_edge (E : list sedge) (r : urule) : Prop := exists e, In e E /\ loop e = false /\ same_edge (fst r) (s_pair e) = true.
Lemma entry_either : forall nb E e a x, In e E -> loop e = false -> same_edge (a, x) (s_pair e) = true -> exists w o, In (x, w, o) (adj_of nb E a).
Proof.
  intros nb E [[[u y] w] o] a x He Lo S. apply same_edge_spec in S. cbn [s_pair fst snd] in S. unfold adj_of. destruct S as [S|[S1 S2]].
  - injection S as -> ->. exists (Z.abs w), (mask_of nb o). apply in_or_app. destruct y as [b|].
    + right. apply in_flat_map. exists (u, Some b, w, o). split; [exact He|]. cbn in Lo |- *. rewrite Lo, Nat.eqb_refl. now left.
    + left. apply in_flat_map. exists (u, None, w, o). split; [exact He|]. cbn. rewrite Nat.eqb_refl. now left.
  - subst. exists (Z.abs w), (mask_of nb o). apply in_or_app. right. apply in_flat_map. exists (u, Some a, w, o). split; [exact He|]. cbn in Lo |- *. rewrite Lo, Nat.eqb_refl. now left.
Qed.
Lemma convert_one : forall nb n E g r, build nb n E = Ok g -> names_edge E r -> exists y, convert_rule (adj g) r = Ok y.
Proof.
  intros nb n E g [[a x] h] HB (e & He & Lo & S). cbn [fst] in S. destruct (build_built _ _ _ _ HB) as (_ & _ & HA & _). cbn [convert_rule]. unfold index_of_neighbor. rewrite !HA.
  destruct (entry_either nb E e a x He Lo S) as (w & o & Hi). destruct (index_of_found _ _ _ _ 0 Hi) as [k ->]. cbn [bindO]. destruct x as [v|]; [|eauto]. rewrite HA.
  assert (S' : same_edge (v, Some a) (s_pair e) = true).
  { apply same_edge_spec in S. apply same_edge_spec. destruct e as [[[u y] w0] o0]. cbn [s_pair fst snd] in *. destruct S as [S|[S1 S2]]; [injection S as -> <-; now right|injection S1 as <-; subst; now left]. }
  destruct (entry_either nb E e v (Some a) He Lo S') as (w' & o' & Hi'). destruct (index_of_found _ _ _ _ 0 Hi') as [k' ->]. cbn [bindO]. eauto.
Qed.
Lemma mapO_total : forall {A C} (f : A -> outcome C) l, (forall x, In x l -> exists y, f x = Ok y) -> exists ys, mapO f l = Ok ys.
Proof.
  intros A C f. induction l as [|a l IH]; intros H; [exists []; reflexivity|]. destruct (H a (or_introl eq_refl)) as [y Hy]. destruct IH as [ys Hys]; [intros x Hx; apply H; now right|]. exists (y :: ys). cbn. now rewrite Hy, Hys.
Qed.
Lemma load_total : forall nb n (Rs : list redge), (forall x, In x Rs -> in_range n (fst x)) -> ForallOrdPairs (fun e f => ~ parallel e f) (map fst Rs) ->
  (forall x r, In x Rs -> In r (snd x) -> names_edge (map fst Rs) r) -> exists L, load nb n Rs = Ok L.
Proof.
  intros nb n Rs HR NP HN. assert (HR' : forall e, In e (map fst Rs) -> in_range n e) by (intros e He; apply in_map_iff in He as (x & <- & Hx); now apply HR).
  destruct (build_total nb n (map fst Rs) HR' NP) as [g HB]. destruct (sbuild_alike _ _ _ _ HB) as (g0 & sg & HB0 & HS & HA). assert (SA : sadj sg = adj g0) by (destruct HA; assumption).
  destruct (build_built _ _ _ _ HB) as (_ & _ & _ & _ & HL).
  assert (T : forall G, (forall r, names_edge (map fst Rs) r -> exists y, convert_rule G r = Ok y) -> exists T, convert_implied_weights G (rules_table n Rs) = Ok T).
  { intros G HG. destruct (table_rows n Rs HR) as [TL TR].
    { intros u. rewrite <- (bat_count nb). apply HL. }
    unfold convert_implied_weights. apply mapO_total. intros l Hl. apply mapO_total. intros rs Hrs. apply mapO_total. intros r Hr. apply HG.
    apply (In_nth _ _ []) in Hl as (u & Hu & <-). rewrite TR in Hrs. apply in_map_iff in Hrs as (x & <- & Hx). apply row_In in Hx as [Hx _]. now apply (HN x). }
  destruct (T (adj g) (fun r => convert_one nb n _ g r HB)) as [T1 E1]. destruct (T (adj g0) (fun r => convert_one 0 n _ g0 r HB0)) as [T2 E2].
  unfold load. rewrite HB. cbn [bindO]. rewrite E1. cbn [bindO]. rewrite HS. cbn [bindO]. rewrite SA, E2. cbn [bindO]. eauto.
Qed.
