(** The search graph built from a list of edges. *)
From Coq Require Import ZArith NArith List Bool Arith Lia.
From Verif Require Import M_Base M_Core M_Build S_Build P_Build M_Flip S_Flip P_Flip M_Search M_ToEdges S_ToEdges P_Signed P_ToEdges.
Import ListNotations.
Local Open Scope nat_scope.

Lemma nth_upd_row : forall (G : list (list N)) u f v, u < length G -> nth v (upd_row G u f) [] = if v =? u then f (nth u G []) else nth v G [].
Proof.
  unfold upd_row. induction G as [|l G IH]; intros u f v Hu; simpl in Hu; [lia|]. destruct u as [|u]; simpl.
  - destruct v; reflexivity.
  - destruct v as [|v]; [reflexivity|]. simpl. apply IH. lia.
Qed.
Lemma length_upd_row : forall G u f, length (upd_row G u f) = length G.
Proof. intros G u f. unfold upd_row. rewrite <- (firstn_skipn u G) at 3. rewrite !app_length. destruct (skipn u G); reflexivity. Qed.
Lemma combine_app : forall (A B : Type) (l : list A) (l' : list B) a b, length l = length l' -> combine (l ++ [a]) (l' ++ [b]) = combine l l' ++ [(a, b)].
Proof. intros A B l. induction l as [|x l IH]; intros [|y l'] a b H; cbn in *; try discriminate; [reflexivity|]. rewrite IH by lia. reflexivity. Qed.

Definition view (u : nat) (e : sedge) (t : nbr * N) : Prop :=
  let '(a, x, w, obs) := e in exists y, same_edge (u, y) (a, x) = true /\ t = ((y, Z.abs w, full_mask obs), sign_mark w).
Definition rows (sg : sgraph) (u : nat) := combine (nth u (sadj sg) []) (nth u (smark sg) []).
Record holds (n : nat) (sg : sgraph) (L : list sedge) : Prop := {
  ho_adj : length (sadj sg) = n; ho_mark : length (smark sg) = n;
  ho_row : forall u, length (nth u (sadj sg) []) = length (nth u (smark sg) []);
  ho_in : forall u t, In t (rows sg u) <-> exists e, In e L /\ loop e = false /\ view u e t;
  ho_neg : sneg sg = neg_pairs L }.
Lemma holds_add : forall n sg L e sg', holds n sg L -> sadd_any sg e = Ok sg' -> holds n sg' (L ++ [e]).
Proof.
  intros n sg L [[[a x] w] obs] sg' [H1 H2 H3 H4 H5] H.
  assert (LAST : forall u t, (exists e, In e (L ++ [(a, x, w, obs)]) /\ loop e = false /\ view u e t) <->
     In t (rows sg u) \/ (loop (a, x, w, obs) = false /\ view u (a, x, w, obs) t)).
  { intros u t. rewrite H4. split.
    - intros (e & He & X). apply in_app_iff in He as [He|[<-|[]]]; [left; eauto|now right].
    - intros [(e & He & X)|X]; [exists e; split; [apply in_app_iff; now left|exact X]|]. exists (a, x, w, obs). split; [apply in_app_iff; right; now left|exact X]. }
  destruct x as [b|]; cbn [sadd_any] in H.
  - unfold sadd_edge in H. destruct (Nat.leb_spec (length (sadj sg)) (Nat.max a b)) as [L1|L1]; [discriminate|]. destruct (Nat.eqb_spec a b) as [->|Nab].
    + injection H as <-. constructor; auto.
      * intros u t. rewrite LAST. split; [now left|]. intros [X|[X _]]; [exact X|]. cbn in X. rewrite Nat.eqb_refl in X. discriminate.
      * rewrite neg_pairs_app, H5. unfold neg_pairs at 3. cbn [filter loop]. rewrite Nat.eqb_refl. cbn [negb]. rewrite andb_false_r. cbn [map]. now rewrite app_nil_r.
    + injection H as <-.
      assert (R : forall u, nth u (upd_node (upd_node (sadj sg) a (fun l => l ++ [(Some b, Z.abs w, full_mask obs)])) b (fun l => l ++ [(Some a, Z.abs w, full_mask obs)])) [] =
                  nth u (sadj sg) [] ++ (if u =? a then [(Some b, Z.abs w, full_mask obs)] else if u =? b then [(Some a, Z.abs w, full_mask obs)] else [])).
      { intros u. rewrite nth_upd_node by (rewrite length_upd_node; lia). rewrite !nth_upd_node by lia. destruct (Nat.eqb_spec u b) as [E1|N1]; destruct (Nat.eqb_spec u a) as [E2|N2]; try congruence.
        - subst u. destruct (Nat.eqb_spec b a); [congruence|reflexivity].
        - now rewrite app_nil_r. }
      assert (R' : forall u, nth u (upd_row (upd_row (smark sg) a (fun l => l ++ [sign_mark w])) b (fun l => l ++ [sign_mark w])) [] =
                  nth u (smark sg) [] ++ (if u =? a then [sign_mark w] else if u =? b then [sign_mark w] else [])).
      { intros u. rewrite nth_upd_row by (rewrite length_upd_row; lia). rewrite !nth_upd_row by lia. destruct (Nat.eqb_spec u b) as [E1|N1]; destruct (Nat.eqb_spec u a) as [E2|N2]; try congruence.
        - subst u. destruct (Nat.eqb_spec b a); [congruence|reflexivity].
        - now rewrite app_nil_r. }
      constructor; cbn [sadj smark sneg]; rewrite ?length_upd_node, ?length_upd_row; auto.
      * intros u. rewrite R, R', !app_length, H3. destruct (u =? a); [reflexivity|]. destruct (u =? b); reflexivity.
      * intros u t. rewrite LAST. unfold rows. cbn [sadj smark]. rewrite R, R'. cbn [loop view]. pose proof (H3 u) as H3u.
        destruct (Nat.eqb_spec u a) as [->|Na]; [|destruct (Nat.eqb_spec u b) as [->|Nb]].
        -- rewrite combine_app by exact H3u. rewrite in_app_iff. apply or_iff_compat_l. split.
           ++ intros [<-|[]]. split; [now apply Nat.eqb_neq|]. exists (Some b). split; [apply same_edge_spec; now left|reflexivity].
           ++ intros [_ (y & HE & ->)]. left. apply same_edge_spec in HE. destruct HE as [HE|[HE1 HE2]]; [injection HE as ->; reflexivity|]. cbn in HE1, HE2. congruence.
        -- rewrite combine_app by exact H3u. rewrite in_app_iff. apply or_iff_compat_l. split.
           ++ intros [<-|[]]. split; [now apply Nat.eqb_neq|]. exists (Some a). split; [apply same_edge_spec; right; split; reflexivity|reflexivity].
           ++ intros [_ (y & HE & ->)]. left. apply same_edge_spec in HE. destruct HE as [HE|[HE1 HE2]]; [congruence|]. cbn in HE1. subst y. reflexivity.
        -- rewrite !app_nil_r. split; [now left|]. intros [X|[_ (y & HE & ->)]]; [exact X|]. exfalso. apply same_edge_spec in HE. cbn in HE. destruct HE as [HE|[HE1 HE2]]; congruence.
      * rewrite neg_pairs_app, H5. assert (NX : neg_pairs [(a, Some b, w, obs)] = if (w <? 0)%Z then [(a, Some b)] else []) by (unfold neg_pairs; cbn [filter loop s_weight]; rewrite (proj2 (Nat.eqb_neq a b) Nab); cbn [negb]; rewrite andb_true_r; now destruct (w <? 0)%Z).
        transitivity (neg_pairs L ++ if (w <? 0)%Z then [(a, Some b)] else []); [|f_equal; symmetry; exact NX]. unfold note_neg_edge. destruct (w <? 0)%Z; [reflexivity|now rewrite app_nil_r].
  - unfold sadd_boundary_edge in H. destruct (Nat.leb_spec (length (sadj sg)) a) as [L1|L1]; [discriminate|]. injection H as <-.
    constructor; cbn [sadj smark sneg]; rewrite ?length_upd_node, ?length_upd_row; auto.
    + intros u. rewrite nth_upd_node, nth_upd_row by lia. destruct (Nat.eqb_spec u a) as [->|]; [cbn [length]; now rewrite H3|apply H3].
    + intros u t. rewrite LAST. unfold rows. cbn [sadj smark]. rewrite nth_upd_node, nth_upd_row by lia. cbn [loop view]. destruct (Nat.eqb_spec u a) as [->|Na].
      * cbn [combine In]. split.
        -- intros [<-|X]; [right|now left]. split; [reflexivity|]. exists None. split; [apply same_edge_spec; now left|reflexivity].
        -- intros [X|[_ (y & HE & ->)]]; [now right|]. left. apply same_edge_spec in HE. cbn in HE. destruct HE as [HE|[_ HE]]; [injection HE as ->; reflexivity|discriminate].
      * split; [now left|]. intros [X|[_ (y & HE & ->)]]; [exact X|]. exfalso. apply same_edge_spec in HE. cbn in HE. destruct HE as [HE|[_ HE]]; [congruence|discriminate].
    + rewrite neg_pairs_app, H5. assert (NX : neg_pairs [(a, None, w, obs)] = if (w <? 0)%Z then [(a, None)] else []) by (unfold neg_pairs; cbn [filter loop s_weight negb]; rewrite andb_true_r; now destruct (w <? 0)%Z).
      transitivity (neg_pairs L ++ if (w <? 0)%Z then [(a, None)] else []); [|f_equal; symmetry; exact NX]. unfold note_neg_edge. destruct (w <? 0)%Z; [reflexivity|now rewrite app_nil_r].
Qed.
Lemma sbuild_holds : forall n E sg, sbuild n E = Ok sg -> holds n sg E.
Proof.
  intros n E sg. unfold sbuild. assert (X : forall E L s0 o, (o = Ok s0 -> holds n s0 L) -> (forall s1, o = Ok s1 -> s1 = s0) -> fold_left (fun o e => bindO o (fun g => sadd_any g e)) E o = Ok sg -> holds n sg (L ++ E)).
  { clear. induction E as [|e E IH]; intros L s0 o H1 H2 H; [rewrite app_nil_r; cbn in H; pose proof (H2 sg H) as ->; auto|]. cbn [fold_left] in H.
    destruct (bindO o (fun g => sadd_any g e)) as [s1| | |] eqn:Eo; try (exfalso; revert H; clear; induction E as [|e' E IH]; cbn; [discriminate|exact IH]).
    destruct o as [s2| | |]; try discriminate. cbn in Eo. pose proof (H2 s2 eq_refl) as ->. specialize (H1 eq_refl).
    replace (L ++ e :: E) with ((L ++ [e]) ++ E) by (rewrite <- app_assoc; reflexivity). apply (IH (L ++ [e]) s1 (Ok s1)); [intros _; now apply (holds_add n s0)|congruence|exact H]. }
  intros H. apply (X E [] (mkSG (repeat [] n) (repeat [] n) []) (Ok (mkSG (repeat [] n) (repeat [] n) []))); [|congruence|exact H].
  intros _. constructor; cbn [sadj smark sneg]; try apply repeat_length; try reflexivity.
  - intros u. destruct (Nat.lt_ge_cases u n); [now rewrite !nth_repeat|]. rewrite !nth_overflow by (rewrite repeat_length; lia). reflexivity.
  - intros u t. split; [|intros (e & [] & _)]. unfold rows. cbn [sadj smark]. rewrite nth_repeat. intros [].
Qed.

Lemma combine_nth_in : forall (A B : Type) (l : list A) (l' : list B) (d : B) t, length l = length l' ->
  In t (combine l l') <-> exists i, nth_error l i = Some (fst t) /\ nth i l' d = snd t.
Proof.
  intros A B l. induction l as [|a l IH]; intros [|b l'] d t H; cbn in H; try discriminate.
  - cbn. split; [intros []|]. intros ([|i] & H1 & _); discriminate.
  - cbn [combine In]. rewrite (IH l' d) by lia. split.
    + intros [<-|(i & H1 & H2)]; [exists 0; split; reflexivity|exists (S i); split; assumption].
    + intros ([|i] & H1 & H2); [left; cbn in *; destruct t; cbn in *; congruence|right; exists i; split; assumption].
Qed.
Lemma search_entries : forall n E sg, sbuild n E = Ok sg -> forall u x w o m,
  (exists i, nth_error (nbrs (sadj sg) u) i = Some (x, w, o) /\ marks_of sg u i = m) <->
  exists a y z obs, In (a, y, z, obs) E /\ y <> Some a /\ same_edge (u, x) (a, y) = true /\ w = Z.abs z /\ (forall k, N.testbit o (N.of_nat k) = Nat.odd (count_occ Nat.eq_dec obs k)) /\ m = if (z <? 0)%Z then 2%N else 0%N.
Proof.
  intros n E sg H u x w o m. pose proof (sbuild_holds n E sg H) as [_ _ H3 H4 _]. specialize (H4 u ((x, w, o), m)). unfold rows in H4.
  rewrite (combine_nth_in _ _ _ _ 0%N) in H4 by apply H3. cbn [fst snd] in H4. unfold nbrs, marks_of. rewrite H4. split.
  - intros ([[[a y] z] obs] & He & HL & y' & HE & Et). injection Et as -> -> -> ->. exists a, y, z, obs.
    split; [exact He|]. split; [intros ->; cbn in HL; rewrite Nat.eqb_refl in HL; discriminate|]. split; [exact HE|]. split; [reflexivity|]. split; [|reflexivity]. intros k. exact (mask_bit 0 obs k (Nat.le_0_l _)).
  - intros (a & y & z & obs & He & HL & HE & -> & HO & ->).
    assert (o = full_mask obs) as -> by (apply N.bits_inj; intros k; rewrite <- (N2Nat.id k), HO; symmetry; exact (mask_bit 0 obs _ (Nat.le_0_l _))). exists (a, y, z, obs). split; [exact He|]. split; [destruct y as [v|]; [cbn; apply Nat.eqb_neq; congruence|reflexivity]|]. exists x. split; [exact HE|reflexivity].
Qed.
Lemma search_negatives : forall n E sg, sbuild n E = Ok sg ->
  sneg sg = map s_pair (filter (fun e => (s_weight e <? 0)%Z && negb (match s_pair e with (u, Some v) => u =? v | _ => false end)) E).
Proof.
  intros n E sg H. rewrite (ho_neg _ _ _ (sbuild_holds n E sg H)). unfold neg_pairs. f_equal. apply filter_ext. intros [[[u [v|]] w] o]; reflexivity.
Qed.
