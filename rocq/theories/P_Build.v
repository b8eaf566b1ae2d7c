From Coq Require Import ZArith NArith List Bool Arith Lia Permutation.
From Verif Require Import M_Base M_Core S_Core M_Build S_Build P_Tree.
Import ListNotations.
Local Open Scope nat_scope.

Lemma memb_In : forall x l, memb x l = true <-> In x l.
Proof.
  intros. unfold memb. rewrite existsb_exists. split; [intros (y & H & E); apply Nat.eqb_eq in E; now subst|]. intros H. exists x. split; [exact H|apply Nat.eqb_refl].
Qed.

(** ** Toggled sets *)
Inductive incr : list nat -> Prop :=
| incr_nil : incr []
| incr_cons : forall x l, (forall y, In y l -> x < y) -> incr l -> incr (x :: l).
Lemma incr_NoDup : forall l, incr l -> NoDup l.
Proof. induction 1 as [|x l H _ IH]; constructor; [|exact IH]. intros Hin. apply H in Hin. lia. Qed.

Lemma toggle_mem : forall x l, incr l -> incr (toggle x l) /\ forall y, memb y (toggle x l) = xorb (memb y l) (y =? x).
Proof.
  intros x l H. induction H as [|a l Ha Hl [IH1 IH2]]; simpl.
  - split; [constructor; [intros y []|constructor]|]. intros y. unfold memb. simpl. now destruct (y =? x).
  - destruct (Nat.eqb_spec x a) as [->|N1].
    + split; [exact Hl|]. intros y. unfold memb. cbn [existsb]. destruct (Nat.eqb_spec y a) as [->|]; cbn [orb]; [|now rewrite xorb_false_r].
      destruct (existsb (Nat.eqb a) l) eqn:E; [|reflexivity]. apply memb_In, Ha in E. lia.
    + destruct (Nat.ltb_spec x a) as [L|L].
      * split.
        -- constructor; [|now constructor]. intros y [<-|Hy]; [lia|]. apply Ha in Hy. lia.
        -- intros y. unfold memb. cbn [existsb]. destruct (Nat.eqb_spec y x) as [->|]; cbn [orb]; [|now rewrite xorb_false_r].
           destruct (Nat.eqb_spec x a); [lia|]. simpl. destruct (existsb (Nat.eqb x) l) eqn:E; [|reflexivity]. apply memb_In, Ha in E. lia.
      * split.
        -- constructor; [|exact IH1]. intros y Hy. apply memb_In in Hy. rewrite IH2 in Hy.
           destruct (Nat.eqb_spec y x); [lia|]. rewrite xorb_false_r in Hy. apply memb_In in Hy. now apply Ha.
        -- intros y. specialize (IH2 y). unfold memb in *. cbn [existsb]. rewrite IH2. destruct (Nat.eqb_spec y a) as [->|]; cbn [orb]; [|reflexivity].
           destruct (Nat.eqb_spec a x); [lia|]. now rewrite xorb_false_r.
Qed.
Lemma toggles_mem : forall xs l, incr l ->
  incr (fold_left (fun l x => toggle x l) xs l) /\
  forall y, memb y (fold_left (fun l x => toggle x l) xs l) = xorb (memb y l) (Nat.odd (count_occ Nat.eq_dec xs y)).
Proof.
  induction xs as [|x xs IH]; intros l Hl; cbn [fold_left]; [split; [exact Hl|intros; now rewrite xorb_false_r]|].
  destruct (toggle_mem x l Hl) as [H1 H2]. destruct (IH _ H1) as [H3 H4]. split; [exact H3|]. intros y. rewrite H4, H2. simpl.
  destruct (Nat.eq_dec x y) as [->|N].
  - rewrite Nat.eqb_refl, Nat.odd_succ, <- Nat.negb_odd. destruct (memb y l), (Nat.odd (count_occ Nat.eq_dec xs y)); reflexivity.
  - destruct (Nat.eqb_spec y x); [congruence|]. now rewrite xorb_false_r.
Qed.

(** ** The negative-weight data after building *)
Definition negs (E : list sedge) : list sedge := filter (fun e => (s_weight e <? 0)%Z) E.
Lemma s_degree_cons : forall v e F, s_degree v (e :: F) = s_ends v e + s_degree v F.
Proof. reflexivity. Qed.
Definition neg_ok (E : list sedge) (g : mgraph) : Prop :=
  incr (neg_dets g) /\ (forall v, memb v (neg_dets g) = Nat.odd (s_degree v (negs E))) /\
  incr (neg_obss g) /\ (forall k, memb k (neg_obss g) = s_flips k (negs E)) /\
  neg_total g = s_total (negs E).

Lemma s_degree_app : forall v F F', s_degree v (F ++ F') = s_degree v F + s_degree v F'.
Proof. induction F as [|e F IH]; intros; simpl; [reflexivity|]. rewrite IH. lia. Qed.
Lemma s_flips_app : forall k F F', s_flips k (F ++ F') = xorb (s_flips k F) (s_flips k F').
Proof. induction F as [|e F IH]; intros; simpl; [now destruct (s_flips k F')|]. rewrite IH. now rewrite xorb_assoc. Qed.
Lemma s_total_app : forall F F', s_total (F ++ F') = (s_total F + s_total F')%Z.
Proof. induction F as [|e F IH]; intros; simpl; [reflexivity|]. rewrite IH. lia. Qed.

Definition s_node_list (e : sedge) : list nat := let '(u, x, _, _) := e in u :: match x with Some v => [v] | None => [] end.
Lemma s_ends_count : forall v e, s_ends v e = count_occ Nat.eq_dec (s_node_list e) v.
Proof.
  intros v [[[u x] w] obs]. simpl. destruct (Nat.eq_dec u v) as [->|]; [rewrite Nat.eqb_refl|destruct (Nat.eqb_spec u v); [congruence|]];
  (destruct x as [v'|]; simpl; [destruct (Nat.eq_dec v' v) as [->|]; [rewrite Nat.eqb_refl|destruct (Nat.eqb_spec v' v); [congruence|]]|]); reflexivity.
Qed.

Lemma note_negative_ok : forall E g u x w obs, neg_ok E g ->
  neg_ok (E ++ [(u, x, w, obs)]) (note_negative g (s_node_list (u, x, w, obs)) w obs) /\
  adj (note_negative g (s_node_list (u, x, w, obs)) w obs) = adj g.
Proof.
  intros E g u x w obs (H1 & H2 & H3 & H4 & H5). unfold note_negative. set (e := (u, x, w, obs)).
  assert (Hn : negs (E ++ [e]) = negs E ++ (if (w <? 0)%Z then [e] else [])).
  { unfold negs. rewrite filter_app. reflexivity. }
  destruct (w <? 0)%Z eqn:Ew.
  - split; [|reflexivity]. unfold neg_ok. rewrite Hn. cbn [neg_dets neg_obss neg_total].
    destruct (toggles_mem (s_node_list e) _ H1) as [A1 A2]. destruct (toggles_mem obs _ H3) as [B1 B2].
    split; [exact A1|]. split; [|split; [exact B1|split]].
    + intros v. rewrite A2, H2, s_degree_app, Nat.odd_add, s_degree_cons, s_ends_count. simpl s_degree. now rewrite Nat.add_0_r.
    + intros k. rewrite B2, H4, s_flips_app. f_equal. unfold s_flips, e. simpl. now rewrite xorb_false_r.
    + rewrite H5, s_total_app. unfold e. simpl. lia.
  - split; [|reflexivity]. unfold neg_ok. rewrite Hn, app_nil_r. auto.
Qed.

Lemma nth_upd_node : forall (G : graph) u f v, u < length G -> nth v (upd_node G u f) [] = if v =? u then f (nth u G []) else nth v G [].
Proof.
  unfold upd_node. induction G as [|l G IH]; intros u f v Hu; simpl in Hu; [lia|]. destruct u as [|u]; simpl.
  - destruct v as [|v]; reflexivity.
  - destruct v as [|v]; simpl; [reflexivity|]. apply IH. lia.
Qed.
Lemma length_upd_node : forall G u f, length (upd_node G u f) = length G.
Proof.
  intros G u f. unfold upd_node. rewrite <- (firstn_skipn u G) at 3. rewrite !app_length. destruct (skipn u G); reflexivity.
Qed.

(** ** The adjacency lists after building *)
Definition entry_of (nobs : nat) (e : sedge) (u : nat) : list nbr :=
  let '(a, x, w, obs) := e in
  let m := mask_of nobs obs in
  match x with
  | None => []
  | Some b => if a =? b then [] else if a =? u then [(Some b, Z.abs w, m)] else if b =? u then [(Some a, Z.abs w, m)] else []
  end.
Definition bentry_of (nobs : nat) (e : sedge) (u : nat) : list nbr :=
  let '(a, x, w, obs) := e in
  match x with None => if a =? u then [(None, Z.abs w, mask_of nobs obs)] else [] | Some _ => [] end.
Definition adj_of (nobs : nat) (E : list sedge) (u : nat) : list nbr :=
  flat_map (fun e => bentry_of nobs e u) E ++ flat_map (fun e => entry_of nobs e u) E.
Definition in_range (n : nat) (e : sedge) : Prop := forall u, In u (s_node_list e) -> u < n.
Definition built (nobs n : nat) (E : list sedge) (g : mgraph) : Prop :=
  neg_ok E g /\ length (adj g) = n /\ (forall u, nbrs (adj g) u = adj_of nobs E u) /\
  (forall e, In e E -> in_range n e) /\ (forall u, length (flat_map (fun e => bentry_of nobs e u) E) <= 1).

Lemma no_bentry : forall nobs E u, (forall w o, ~ In (None, w, o) (entry_of nobs E u)).
Proof.
  intros nobs [[[a x] w] obs] u w' o'. unfold entry_of. destruct x as [b|]; [|intros []].
  destruct (a =? b); [intros []|]. destruct (a =? u); [intros [H|[]]; discriminate|]. destruct (b =? u); [intros [H|[]]; discriminate|intros []].
Qed.
Lemma bentry_None : forall nobs e u x, In x (bentry_of nobs e u) -> fst (fst x) = None.
Proof.
  intros nobs [[[a y] w] obs] u x. unfold bentry_of. destruct y; [intros []|]. destruct (a =? u); [intros [<-|[]]; reflexivity|intros []].
Qed.

Lemma add_any_built : forall nobs n E g e g', built nobs n E g -> add_any nobs g e = Ok g' -> built nobs n (E ++ [e]) g'.
Proof.
  intros nobs n E g [[[a x] w] obs] g' (Hneg & Hlen & Hadj & Hrng & Hb) H.
  destruct (note_negative_ok E g a x w obs Hneg) as [HN HA].
  assert (HE : forall u, flat_map (fun e => entry_of nobs e u) (E ++ [(a, x, w, obs)]) = flat_map (fun e => entry_of nobs e u) E ++ entry_of nobs (a, x, w, obs) u).
  { intros u. rewrite flat_map_app. cbn [flat_map]. now rewrite app_nil_r. }
  assert (HB : forall u, flat_map (fun e => bentry_of nobs e u) (E ++ [(a, x, w, obs)]) = flat_map (fun e => bentry_of nobs e u) E ++ bentry_of nobs (a, x, w, obs) u).
  { intros u. rewrite flat_map_app. cbn [flat_map]. now rewrite app_nil_r. }
  destruct x as [b|]; cbn [add_any s_node_list] in H, HN, HA.
  - unfold add_edge in H. destruct (Nat.leb_spec (length (adj g)) (Nat.max a b)) as [L|L]; [discriminate|].
    set (g1 := note_negative g [a; b] w obs) in *.
    assert (HR : forall e, In e (E ++ [(a, Some b, w, obs)]) -> in_range n e).
    { intros e He. apply in_app_or in He as [He|[<-|[]]]; [now apply Hrng|]. intros u [<-|[<-|[]]]; lia. }
    assert (HBn : forall u, length (flat_map (fun e => bentry_of nobs e u) (E ++ [(a, Some b, w, obs)])) <= 1).
    { intros u. rewrite HB. simpl bentry_of. rewrite app_nil_r. apply Hb. }
    destruct (Nat.eqb_spec a b) as [->|Nab].
    + injection H as <-. split; [exact HN|]. split; [now rewrite HA|]. split; [|split; assumption].
      intros u. rewrite HA, Hadj. unfold adj_of. rewrite HE, HB. simpl. rewrite Nat.eqb_refl. now rewrite !app_nil_r.
    + injection H as <-. split; [exact HN|]. cbn [adj]. rewrite !length_upd_node, HA. split; [exact Hlen|]. split; [|split; assumption].
      intros u. unfold nbrs in *. rewrite nth_upd_node by (rewrite length_upd_node; lia).
      rewrite !nth_upd_node by lia. rewrite !Hadj. unfold adj_of. rewrite HE, HB. simpl. rewrite app_nil_r.
      destruct (Nat.eqb_spec a b) as [|_]; [congruence|].
      destruct (Nat.eqb_spec u b) as [->|Nub].
      * destruct (Nat.eqb_spec b a); [congruence|]. destruct (Nat.eqb_spec a b); [congruence|]. rewrite Nat.eqb_refl. now rewrite <- app_assoc.
      * destruct (Nat.eqb_spec u a) as [->|Nua].
        -- rewrite Nat.eqb_refl. now rewrite <- app_assoc.
        -- destruct (Nat.eqb_spec a u); [congruence|]. destruct (Nat.eqb_spec b u); [congruence|]. now rewrite app_nil_r.
  - unfold add_boundary_edge in H. destruct (Nat.leb_spec (length (adj g)) a) as [L|L]; [discriminate|].
    set (g1 := note_negative g [a] w obs) in *. rewrite HA in H. pose proof (Hadj a) as Ha. unfold nbrs in Ha.
    assert (Hno : flat_map (fun e => bentry_of nobs e a) E = []).
    { destruct (flat_map (fun e => bentry_of nobs e a) E) as [|[[y w'] o'] r] eqn:Eb; [reflexivity|]. exfalso.
      assert (y = None).
      { assert (X : In (y, w', o') (flat_map (fun e => bentry_of nobs e a) E)) by (rewrite Eb; now left).
        apply in_flat_map in X as (e & _ & X). apply bentry_None in X. exact X. }
      subst y. unfold adj_of in Ha. rewrite Eb in Ha. simpl in Ha. rewrite Ha in H. discriminate. }
    assert (H' : g' = mkG (upd_node (adj g) a (fun l => (None, Z.abs w, mask_of nobs obs) :: l)) (neg_dets g1) (neg_obss g1) (neg_total g1)).
    { destruct (nth a (adj g) []) as [|[[[y|] w'] o'] r]; [injection H as <-; reflexivity|injection H as <-; reflexivity|discriminate]. }
    subst g'. split; [exact HN|]. cbn [adj]. rewrite length_upd_node. split; [exact Hlen|]. split; [|split].
    + intros u. unfold nbrs in *. rewrite nth_upd_node by lia. rewrite !Hadj. unfold adj_of. rewrite HE, HB. simpl. rewrite app_nil_r.
      destruct (Nat.eqb_spec u a) as [->|N]; [rewrite Nat.eqb_refl, Hno; reflexivity|]. destruct (Nat.eqb_spec a u); [congruence|]. now rewrite app_nil_r.
    + intros e He. apply in_app_or in He as [He|[<-|[]]]; [now apply Hrng|]. intros u [<-|[]]; lia.
    + intros u. rewrite HB. simpl. destruct (Nat.eqb_spec a u) as [->|]; [rewrite Hno; simpl; lia|]. rewrite app_nil_r. apply Hb.
Qed.
Lemma fold_bind_fail : forall {X Y} (f : Y -> X -> outcome Y) l o, (forall y, o <> Ok y) -> forall y, fold_left (fun o e => bindO o (fun g => f g e)) l o <> Ok y.
Proof. intros X Y f l. induction l as [|a l IH]; intros o Ho y; cbn [fold_left]; [apply Ho|]. apply IH. intros z. destruct o; simpl; try discriminate. now elim (Ho a0). Qed.
Lemma build_built : forall nobs n E g, build nobs n E = Ok g -> built nobs n E g.
Proof.
  intros nobs n E g. unfold build.
  assert (X : forall E2 E1 g1, built nobs n E1 g1 -> fold_left (fun o e => bindO o (fun g => add_any nobs g e)) E2 (Ok g1) = Ok g -> built nobs n (E1 ++ E2) g).
  { induction E2 as [|e E2 IH]; intros E1 g1 H1 H; cbn [fold_left] in H; [injection H as <-; now rewrite app_nil_r|].
    cbn [bindO] in H. destruct (add_any nobs g1 e) as [g2| | |] eqn:Ea; try (exfalso; revert H; apply fold_bind_fail; discriminate).
    replace (E1 ++ e :: E2) with ((E1 ++ [e]) ++ E2) by (rewrite <- app_assoc; reflexivity).
    apply (IH _ g2); [|exact H]. eapply add_any_built; eauto. }
  intros H. apply (X E [] (empty_graph n)); [|exact H]. split; [|split; [|split; [|split]]].
  - split; [constructor|]. split; [reflexivity|]. split; [constructor|]. split; reflexivity.
  - simpl. apply repeat_length.
  - intros u. unfold nbrs, adj_of. simpl. destruct (Nat.lt_ge_cases u n); [now rewrite nth_repeat|]. apply nth_overflow. rewrite repeat_length. lia.
  - intros e [].
  - intros u. simpl. lia.
Qed.

(** ** The reduction *)
Lemma invert_length : forall E X, length X = length E -> length (invert_negative E X) = length E.
Proof. induction E as [|e E IH]; intros [|b X] H; simpl in *; try discriminate; auto. Qed.
Lemma invert_invol : forall E X, length X = length E -> invert_negative E (invert_negative E X) = X.
Proof.
  induction E as [|e E IH]; intros [|b X] H; simpl in *; try discriminate; auto. f_equal; [|apply IH; lia]. now rewrite xorb_assoc, xorb_nilpotent, xorb_false_r.
Qed.
Lemma invert_sums : forall E X, length X = length E ->
  (forall v, Nat.odd (s_degree v (select E (invert_negative E X))) = xorb (Nat.odd (s_degree v (select E X))) (Nat.odd (s_degree v (negs E)))) /\
  s_abs (select E (invert_negative E X)) = (s_total (select E X) - s_total (negs E))%Z /\
  (forall k, s_flips k (select E (invert_negative E X)) = xorb (s_flips k (select E X)) (s_flips k (negs E))).
Proof.
  induction E as [|e E IH]; intros [|b X] H; simpl in H; try discriminate; [repeat split|].
  destruct (IH X ltac:(lia)) as (H1 & H2 & H3). cbn [select invert_negative]. unfold negs. cbn [filter]. fold (negs E).
  split; [|split].
  - intros v. specialize (H1 v). destruct b, (s_weight e <? 0)%Z; cbn [xorb]; rewrite ?s_degree_cons, ?Nat.odd_add, H1;
      destruct (Nat.odd (s_ends v e)), (Nat.odd (s_degree v (select E X))), (Nat.odd (s_degree v (negs E))); reflexivity.
  - destruct b; destruct (Z.ltb_spec (s_weight e) 0); cbn [xorb]; unfold s_abs, s_total in *; cbn [fold_right]; lia.
  - intros k. specialize (H3 k). destruct b, (s_weight e <? 0)%Z; cbn [xorb]; unfold s_flips in *; cbn [fold_right]; rewrite H3;
      destruct (let '(_, _, _, obs) := e in Nat.odd (count_occ Nat.eq_dec obs k)), (fold_right (fun e0 b0 => xorb (let '(_, _, _, obs) := e0 in Nat.odd (count_occ Nat.eq_dec obs k)) b0) false (select E X)),
        (fold_right (fun e0 b0 => xorb (let '(_, _, _, obs) := e0 in Nat.odd (count_occ Nat.eq_dec obs k)) b0) false (negs E)); reflexivity.
Qed.
Lemma reduction : forall nobs n E g X, build nobs n E = Ok g -> length X = length E ->
  let X' := invert_negative E X in
  (forall v, Nat.odd (s_degree v (select E X')) = xorb (Nat.odd (s_degree v (select E X))) (memb v (neg_dets g))) /\
  s_abs (select E X') = (s_total (select E X) - neg_total g)%Z /\
  (forall k, s_flips k (select E X') = xorb (s_flips k (select E X)) (memb k (neg_obss g))).
Proof.
  intros nobs n E g X HB HX X'. destruct (build_built _ _ _ _ HB) as ((_ & H2 & _ & H4 & H5) & _). destruct (invert_sums E X HX) as (A & B & C).
  unfold X'. split; [intros v; now rewrite A, H2|]. split; [now rewrite B, H5|]. intros k. now rewrite C, H4.
Qed.

Lemma reduction_optimal : forall nobs n E g S X, build nobs n E = Ok g ->
  (solves E S X /\ forall Y, solves E S Y -> (s_total (select E X) <= s_total (select E Y))%Z) <->
  (length X = length E /\
   let S' := fun v => xorb (S v) (memb v (neg_dets g)) in
   solves E S' (invert_negative E X) /\
   forall Y, solves E S' Y -> (s_abs (select E (invert_negative E X)) <= s_abs (select E Y))%Z).
Proof.
  intros nobs n E g S X HB.
  assert (K : forall Y, length Y = length E -> (solves E S Y <-> solves E (fun v => xorb (S v) (memb v (neg_dets g))) (invert_negative E Y))).
  { intros Y HY. destruct (reduction _ _ _ _ Y HB HY) as (A & _ & _). unfold solves. rewrite invert_length by exact HY. split; intros [_ H]; split; auto; intros v.
    - rewrite A, H. reflexivity.
    - specialize (H v). rewrite A in H. destruct (Nat.odd (s_degree v (select E Y))), (S v), (memb v (neg_dets g)); try reflexivity; discriminate. }
  split.
  - intros [HX Hmin]. assert (HL : length X = length E) by apply HX. split; [exact HL|]. split; [now apply K|].
    intros Y HY. assert (HLY : length Y = length E) by apply HY.
    specialize (Hmin (invert_negative E Y)). destruct (reduction _ _ _ _ X HB HL) as (_ & B & _).
    destruct (reduction _ _ _ _ (invert_negative E Y) HB (invert_length _ _ HLY)) as (_ & B' & _). rewrite invert_invol in B' by exact HLY.
    assert (solves E S (invert_negative E Y)) by (apply K; [now apply invert_length|now rewrite invert_invol]). specialize (Hmin H). lia.
  - intros (HL & HX & Hmin). split; [now apply K|]. intros Y HY. assert (HLY : length Y = length E) by apply HY.
    specialize (Hmin (invert_negative E Y) (proj1 (K Y HLY) HY)).
    destruct (reduction _ _ _ _ X HB HL) as (_ & B & _). destruct (reduction _ _ _ _ Y HB HLY) as (_ & B' & _). lia.
Qed.

(** ** Masks *)
Lemma mask_fold : forall obs m k, N.testbit (fold_left (fun m o => N.lxor m (N.shiftl 1 (N.of_nat o))) obs m) (N.of_nat k) = xorb (N.testbit m (N.of_nat k)) (Nat.odd (count_occ Nat.eq_dec obs k)).
Proof.
  induction obs as [|o obs IH]; intros m k; cbn [fold_left]; [now rewrite xorb_false_r|]. rewrite IH, N.lxor_spec. cbn [count_occ].
  assert (E : N.testbit (N.shiftl 1 (N.of_nat o)) (N.of_nat k) = (o =? k)).
  { rewrite N.shiftl_1_l, N.pow2_bits_eqb. destruct (Nat.eqb_spec o k) as [->|]; [now rewrite N.eqb_refl|]. apply N.eqb_neq. lia. }
  rewrite E. destruct (Nat.eq_dec o k) as [->|N].
  - rewrite Nat.eqb_refl, Nat.odd_succ, <- Nat.negb_odd. destruct (N.testbit m (N.of_nat k)), (Nat.odd (count_occ Nat.eq_dec obs k)); reflexivity.
  - destruct (Nat.eqb_spec o k); [congruence|]. now rewrite xorb_false_r.
Qed.
Lemma mask_bit : forall nobs obs k, nobs <= 64 -> N.testbit (mask_of nobs obs) (N.of_nat k) = Nat.odd (count_occ Nat.eq_dec obs k).
Proof. intros nobs obs k H. unfold mask_of. destruct (Nat.leb_spec nobs 64); [|lia]. rewrite mask_fold. now destruct (Nat.odd _). Qed.
Lemma u_mask_bit : forall nobs F k, nobs <= 64 -> N.testbit (u_mask nobs F) (N.of_nat k) = s_flips k F.
Proof.
  intros nobs F k H. induction F as [|[[[u x] w] obs] F IH]; [apply N.bits_0|]. unfold u_mask, s_flips in *. cbn [fold_right]. rewrite N.lxor_spec, IH, mask_bit by exact H. reflexivity.
Qed.
