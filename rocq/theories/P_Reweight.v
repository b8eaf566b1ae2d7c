From Coq Require Import ZArith NArith List Bool Arith Lia.
From Verif Require Import M_Base M_Core S_Core M_Reweight S_Reweight.
Import ListNotations.
Local Open Scope Z_scope.

Lemma cell_eqb_spec : forall a b, reflect (a = b) (cell_eqb a b).
Proof.
  intros [a1 a2] [b1 b2]. unfold cell_eqb. simpl.
  destruct (Nat.eqb_spec a1 b1), (Nat.eqb_spec a2 b2); simpl; constructor; congruence.
Qed.
Lemma setw_same : forall W c w, setw W c w c = w.
Proof. intros. unfold setw. destruct (cell_eqb_spec c c); congruence. Qed.
Lemma setw_other : forall W c w d, d <> c -> setw W c w d = W d.
Proof. intros. unfold setw. destruct (cell_eqb_spec d c); congruence. Qed.

(** ** Undo *)
Definition undo_list (W : weights) (p : list (cell * Z)) : weights :=
  fold_left (fun W p => setw W (fst p) (snd p)) (rev p) W.
Lemma undo_ext : forall l W W', (forall c, W c = W' c) ->
  forall c, fold_left (fun W p => setw W (fst p) (snd p)) l W c = fold_left (fun W p => setw W (fst p) (snd p)) l W' c.
Proof.
  induction l as [|x l IH]; intros W W' H c; simpl; [apply H|]. apply IH. intros d. unfold setw. destruct (cell_eqb d (fst x)); auto.
Qed.
Definition restores (st st' : wstate) : Prop :=
  exists q, snd st' = snd st ++ q /\ forall c, undo_list (fst st') q c = fst st c.
Lemma restores_refl : forall st, restores st st.
Proof. intros st. exists []. split; [now rewrite app_nil_r|reflexivity]. Qed.
Lemma restores_trans : forall a b c, restores a b -> restores b c -> restores a c.
Proof.
  intros a b c (q & E1 & H1) (q' & E2 & H2). exists (q ++ q'). split; [now rewrite E2, E1, app_assoc|].
  intros d. unfold undo_list. rewrite rev_app_distr, fold_left_app. etransitivity; [|exact (H1 d)].
  apply undo_ext. exact H2.
Qed.
Lemma restores_rule : forall st r, restores st (apply_rule st r).
Proof.
  intros [W p] r. unfold apply_rule. destruct (iw r <? W (e0 r)); [|apply restores_refl].
  destruct (e1 r) as [c|].
  - exists [(e0 r, W (e0 r)); (c, setw W (e0 r) (iw r) c)]. split; [simpl; now rewrite <- app_assoc|].
    intros d. unfold undo_list. simpl. unfold setw. destruct (cell_eqb_spec d (e0 r)) as [->|]; [reflexivity|].
    destruct (cell_eqb_spec d c) as [->|]; [|reflexivity]. destruct (cell_eqb_spec c (e0 r)); [congruence|reflexivity].
  - exists [(e0 r, W (e0 r))]. split; [reflexivity|]. intros d. unfold undo_list. simpl. unfold setw.
    destruct (cell_eqb_spec d (e0 r)) as [->|]; reflexivity.
Qed.
Lemma restores_rules : forall rules st, restores st (apply_reweights rules st).
Proof.
  unfold apply_reweights. induction rules as [|r l IH]; intros st; simpl; [apply restores_refl|].
  eapply restores_trans; [apply restores_rule|apply IH].
Qed.
Lemma list_ind2 : forall (A : Type) (P : list A -> Prop), P [] -> (forall a, P [a]) ->
  (forall a b l, P l -> P (a :: b :: l)) -> forall l, P l.
Proof.
  intros A P H0 H1 H2. fix F 1. intros [|a [|b l]]; [exact H0|apply H1|]. apply H2. apply F.
Qed.
Lemma restores_edges : forall edges G T st, restores st (fst (reweight_for_edges G T edges st)).
Proof.
  induction edges using list_ind2; intros G T st; simpl; try apply restores_refl.
  destruct (rules_for_edge G T a b); try apply restores_refl.
  eapply restores_trans; [apply restores_rules|apply IHedges].
Qed.

(** A session: any number of reweighting calls before one undo. *)
Fixpoint session (G : graph) (T : list (list (list rule))) (calls : list (bool * list Z)) (st : wstate) : wstate :=
  match calls with
  | [] => st
  | (nocorr, edges) :: rest => session G T rest (fst (reweight_checked nocorr G T edges st))
  end.
Lemma restores_session : forall calls G T st, restores st (session G T calls st).
Proof.
  induction calls as [|[b es] l IH]; intros G T st; simpl; [apply restores_refl|].
  eapply restores_trans; [|apply IH]. unfold reweight_checked. destruct b; [apply restores_refl|apply restores_edges].
Qed.
Lemma undo_session : forall G T calls W, let st := undo_reweights (session G T calls (W, [])) in
  (forall c, fst st c = W c) /\ snd st = [].
Proof.
  intros G T calls W. destruct (restores_session calls G T (W, [])) as (q & E & H). simpl in E.
  split; [|reflexivity]. intros c. unfold undo_reweights. simpl. rewrite E. exact (H c).
Qed.

(** ** Minimum *)
Section Min.
Variable mirror : cell -> cell -> Prop.
Hypothesis mirror_sym : forall a b, mirror a b -> mirror b a.
Hypothesis mirror_fun : forall a b c, mirror a b -> mirror a c -> b = c.
Hypothesis mirror_ne : forall a b, mirror a b -> a <> b.
Definition wf_rule (r : rule) : Prop :=
  match e1 r with Some c => mirror (e0 r) c | None => forall c, ~ mirror (e0 r) c end.
Definition hits (r : rule) (c : cell) : Prop := e0 r = c \/ e1 r = Some c.
Definition symw (W : weights) : Prop := forall a b, mirror a b -> W a = W b.

Lemma apply_rule_min : forall W p r, wf_rule r -> symw W ->
  symw (fst (apply_rule (W, p) r)) /\
  forall c, fst (apply_rule (W, p) r) c = (if cell_eqb (e0 r) c || match e1 r with Some d => cell_eqb d c | None => false end then Z.min (W c) (iw r) else W c).
Proof.
  intros W p r Hr Hs.
  assert (Hc : forall c, fst (apply_rule (W, p) r) c = (if cell_eqb (e0 r) c || match e1 r with Some d => cell_eqb d c | None => false end then Z.min (W c) (iw r) else W c)).
  { intros c. unfold apply_rule, wf_rule in *. destruct (Z.ltb_spec (iw r) (W (e0 r))) as [Hlt|Hge].
    - destruct (e1 r) as [d|].
      + simpl. pose proof (Hs _ _ Hr) as E. unfold setw.
        destruct (cell_eqb_spec c d) as [->|N1].
        * destruct (cell_eqb_spec d d); [|congruence]. rewrite orb_true_r. lia.
        * destruct (cell_eqb_spec d c); [congruence|]. rewrite orb_false_r.
          destruct (cell_eqb_spec c (e0 r)) as [Ec|Ec]; destruct (cell_eqb_spec (e0 r) c) as [Ec'|Ec']; try congruence. subst c. lia.
      + simpl. rewrite orb_false_r. unfold setw.
        destruct (cell_eqb_spec c (e0 r)) as [Ec|Ec]; destruct (cell_eqb_spec (e0 r) c) as [Ec'|Ec']; try congruence. subst c. lia.
    - simpl. destruct (cell_eqb_spec (e0 r) c) as [<-|]; simpl; [lia|].
      destruct (e1 r) as [d|]; [|reflexivity]. destruct (cell_eqb_spec d c) as [<-|]; [|reflexivity].
      rewrite <- (Hs _ _ Hr). lia. }
  split; [|exact Hc]. intros a b Hab. rewrite !Hc, (Hs a b Hab).
  replace (cell_eqb (e0 r) b || match e1 r with Some d => cell_eqb d b | None => false end)
    with (cell_eqb (e0 r) a || match e1 r with Some d => cell_eqb d a | None => false end); [reflexivity|].
  unfold wf_rule in Hr. destruct (e1 r) as [d|].
  - destruct (cell_eqb_spec (e0 r) a) as [<-|N1].
    + assert (d = b) by (eapply mirror_fun; eauto). subst d.
      destruct (cell_eqb_spec (e0 r) b); simpl; [reflexivity|]. now destruct (cell_eqb_spec b b).
    + destruct (cell_eqb_spec d a) as [<-|N2].
      * assert (b = e0 r) by (eapply mirror_fun; eauto). subst b. now destruct (cell_eqb_spec (e0 r) (e0 r)).
      * destruct (cell_eqb_spec (e0 r) b) as [<-|].
        { exfalso. apply N2. eapply mirror_fun; eauto. }
        destruct (cell_eqb_spec d b) as [<-|]; [|reflexivity].
        exfalso. apply N1. eapply mirror_fun; [apply mirror_sym; exact Hr|apply mirror_sym; exact Hab].
  - rewrite !orb_false_r. destruct (cell_eqb_spec (e0 r) a) as [<-|]; [elim (Hr _ Hab)|].
    destruct (cell_eqb_spec (e0 r) b) as [<-|]; [elim (Hr _ (mirror_sym _ _ Hab))|reflexivity].
Qed.

Definition minof (W : weights) (L : list rule) (c : cell) (m : Z) : Prop :=
  m <= W c /\ (forall r, In r L -> hits r c -> m <= iw r) /\ (m = W c \/ exists r, In r L /\ hits r c /\ m = iw r).
Lemma apply_rules_min : forall L W p, (forall r, In r L -> wf_rule r) -> symw W ->
  symw (fst (apply_reweights L (W, p))) /\ forall c, minof W L c (fst (apply_reweights L (W, p)) c).
Proof.
  unfold apply_reweights. induction L as [|r L IH]; intros W p HL Hs; cbn [fold_left].
  - split; [assumption|]. intros c. cbn [fst]. split; [lia|]. split; [intros r []|now left].
  - destruct (apply_rule_min W p r (HL r (or_introl eq_refl)) Hs) as [Hs1 H1].
    destruct (apply_rule (W, p) r) as [W1 p1] eqn:E. cbn [fst] in Hs1, H1.
    destruct (IH W1 p1 (fun x Hx => HL x (or_intror Hx)) Hs1) as [Hs2 H2]. split; [exact Hs2|].
    intros c. destruct (H2 c) as (A & B & C). pose proof (H1 c) as Hc.
    assert (Hh : hits r c <-> (cell_eqb (e0 r) c || match e1 r with Some d => cell_eqb d c | None => false end) = true).
    { unfold hits. rewrite orb_true_iff. destruct (cell_eqb_spec (e0 r) c); destruct (e1 r) as [d|]; try (destruct (cell_eqb_spec d c)); intuition congruence. }
    destruct (cell_eqb (e0 r) c || match e1 r with Some d => cell_eqb d c | None => false end).
    + assert (hits r c) by tauto. split; [lia|]. split.
      * intros x [<-|Hx] Hhx; [lia|]. exact (B x Hx Hhx).
      * destruct C as [C|(x & X1 & X2 & X3)]; [|right; exists x; split; [now right|now split]].
        destruct (Z.min_spec (W c) (iw r)) as [[_ M]|[_ M]]; rewrite Hc, M in C; [left; exact C|right; exists r; split; [now left|now split]].
    + split; [lia|]. split.
      * intros x [<-|Hx] Hhx; [|exact (B x Hx Hhx)]. exfalso. apply Hh in Hhx. discriminate.
      * destruct C as [C|(x & X1 & X2 & X3)]; [left; congruence|right; exists x; split; [now right|now split]].
Qed.
End Min.

(** ** Index lookups *)
Lemma index_of_spec : forall l x k0 k, index_of l x k0 = Ok k -> exists j w o, k = (k0 + j)%nat /\ nth_error l j = Some (x, w, o).
Proof.
  induction l as [|[[y w] o] l IH]; intros x k0 k E; simpl in E; [discriminate|].
  destruct (match y, x with None, None => true | Some a, Some b => (a =? b)%nat | _, _ => false end) eqn:Ey.
  - injection E as <-. exists 0%nat, w, o. split; [lia|]. simpl.
    destruct y as [a|], x as [b|]; try discriminate; [|reflexivity]. apply Nat.eqb_eq in Ey. now subst.
  - destruct (IH _ _ _ E) as (j & w' & o' & -> & H). exists (S j), w', o'. split; [lia|exact H].
Qed.
Lemma index_of_neighbor_spec : forall G u x k, index_of_neighbor G u x = Ok k -> at_index G u x k.
Proof.
  intros G u x k E. unfold index_of_neighbor in E. apply index_of_spec in E as (j & w & o & -> & H). simpl. now exists w, o.
Qed.
Lemma at_index_unique : forall G u x k k', NoDup (map (fun e => fst (fst e)) (nbrs G u)) -> at_index G u x k -> at_index G u x k' -> k = k'.
Proof.
  intros G u x k k' Hnd (w & o & H) (w' & o' & H').
  apply (proj1 (NoDup_nth_error _) Hnd).
  - rewrite map_length. apply nth_error_Some. intros X. pose proof (eq_trans (eq_sym H) X) as Y. discriminate Y.
  - apply (f_equal (option_map (fun e : nbr => fst (fst e)))) in H, H'. rewrite !nth_error_map.
    transitivity (Some x); [exact H|symmetry; exact H'].
Qed.

Section Graph.
Variable G : graph.
Hypothesis Hsym : forall u v w o, In (Some v, w, o) (nbrs G u) -> In (Some u, w, o) (nbrs G v).
Hypothesis Hloop : forall u w o, ~ In (Some u, w, o) (nbrs G u).
Hypothesis Hsimple : forall u, NoDup (map (fun e => fst (fst e)) (nbrs G u)).

Definition mirr (a b : cell) : Prop := at_index G (fst a) (Some (fst b)) (snd a) /\ at_index G (fst b) (Some (fst a)) (snd b).
Lemma mirr_sym : forall a b, mirr a b -> mirr b a. Proof. intros a b []; split; auto. Qed.
Lemma mirr_fun : forall a b c, mirr a b -> mirr a c -> b = c.
Proof.
  intros [a i] [b j] [c k] [(w1 & o1 & H1) H2] [(w2 & o2 & H3) H4]. simpl in *. rewrite H3 in H1. injection H1 as E _ _.
  subst c. f_equal. exact (at_index_unique G b (Some a) j k (Hsimple b) H2 H4).
Qed.
Lemma mirr_ne : forall a b, mirr a b -> a <> b.
Proof. intros [a i] b [(w & o & H) _] <-. simpl in H. apply nth_error_In in H. exact (Hloop _ _ _ H). Qed.

Lemma weights_at : forall u k x w o, nth_error (nbrs G u) k = Some (x, w, o) -> weights_of G (u, k) = w.
Proof. intros u k x w o H. unfold weights_of. simpl. now rewrite (nth_error_nth _ _ _ H). Qed.
Lemma weights_sym : symw mirr (weights_of G).
Proof.
  intros [a i] [b j] [(w1 & o1 & H1) (w2 & o2 & H2)]. simpl in *.
  rewrite (weights_at _ _ _ _ _ H1), (weights_at _ _ _ _ _ H2).
  apply nth_error_In in H1. apply Hsym in H1. apply In_nth_error in H1 as [j' H1].
  assert (j = j') by (apply (at_index_unique G b (Some a)); [apply Hsimple|now exists w2, o2|now exists w1, o1]). subst j'.
  pose proof (eq_trans (eq_sym H1) H2) as X. congruence.
Qed.

Lemma convert_rule_spec : forall r c, convert_rule G r = Ok c -> wf_rule mirr c /\ iw c = implied r /\
  forall u x k, at_index G u x k -> (hits c (u, k) <-> about r u x).
Proof.
  intros [[i j] half] c E. simpl in E. destruct (index_of_neighbor G i j) as [ki| | |] eqn:Ei; try discriminate. simpl in E.
  apply index_of_neighbor_spec in Ei. destruct j as [v|].
  - destruct (index_of_neighbor G v (Some i)) as [kj| | |] eqn:Ej; try discriminate. simpl in E. injection E as <-.
    apply index_of_neighbor_spec in Ej.
    split; [split; assumption|]. split; [reflexivity|]. intros u x k Hk. unfold hits, about. simpl. split.
    + intros [E|E]; injection E as -> ->.
      * left. split; [reflexivity|]. destruct Ei as (w & o & H1), Hk as (w' & o' & H2). rewrite H1 in H2. congruence.
      * right. split; [|reflexivity]. destruct Ej as (w & o & H1), Hk as (w' & o' & H2). rewrite H1 in H2. congruence.
    + intros [[-> <-]|[-> E]].
      * left. f_equal. exact (at_index_unique G u _ _ _ (Hsimple u) Ei Hk).
      * injection E as ->. right. now rewrite (at_index_unique G u _ _ _ (Hsimple u) Ej Hk).
  - injection E as <-. split.
    { intros [b kb] [(w & o & H) _]. simpl in H. destruct Ei as (w' & o' & H'). rewrite H' in H. discriminate. }
    split; [reflexivity|]. intros u x k Hk. unfold hits, about. simpl. split.
    + intros [E|E]; [|discriminate]. injection E as -> ->. left. split; [reflexivity|].
      destruct Ei as (w & o & H1), Hk as (w' & o' & H2). rewrite H1 in H2. congruence.
    + intros [[-> <-]|[_ E]]; [|discriminate]. left. f_equal. exact (at_index_unique G u _ _ _ (Hsimple u) Ei Hk).
Qed.
Lemma mapO_nth : forall (A B : Type) (f : A -> outcome B) l l', mapO f l = Ok l' -> length l = length l' /\
  forall k, match nth_error l k, nth_error l' k with Some a, Some b => f a = Ok b | None, None => True | _, _ => False end.
Proof.
  intros A B f. induction l as [|a l IH]; intros l' E; simpl in E.
  - injection E as <-. split; [reflexivity|]. intros [|k]; exact I.
  - destruct (f a) as [b| | |] eqn:Ef; try discriminate. simpl in E. destruct (mapO f l) as [l2| | |]; try discriminate.
    simpl in E. injection E as <-. destruct (IH l2 eq_refl) as [Hl Hn]. split; [simpl; lia|]. intros [|k]; simpl; [exact Ef|apply Hn].
Qed.
Lemma convert_table : forall U T, convert_implied_weights G U = Ok T -> forall a k,
  mapO (convert_rule G) (nth k (nth a U []) []) = Ok (nth k (nth a T []) []).
Proof.
  intros U T E a k. unfold convert_implied_weights in E. apply mapO_nth in E as [_ E]. specialize (E a).
  destruct (nth_error U a) as [u|] eqn:Eu; destruct (nth_error T a) as [t|] eqn:Et; try contradiction.
  - rewrite (nth_error_nth U a [] Eu), (nth_error_nth T a [] Et). apply mapO_nth in E as [_ E]. specialize (E k).
    destruct (nth_error u k) as [r|] eqn:Er; destruct (nth_error t k) as [r'|] eqn:Er'; try contradiction.
    + now rewrite (nth_error_nth u k [] Er), (nth_error_nth t k [] Er').
    + apply nth_error_None in Er, Er'. now rewrite !nth_overflow.
  - apply nth_error_None in Eu, Et. rewrite (nth_overflow U), (nth_overflow T) by assumption. now destruct k.
Qed.
Lemma mapO_In : forall (A B : Type) (f : A -> outcome B) l l', mapO f l = Ok l' ->
  (forall b, In b l' -> exists a, In a l /\ f a = Ok b) /\ (forall a, In a l -> exists b, In b l' /\ f a = Ok b).
Proof.
  intros A B f l l' E. apply mapO_nth in E as [_ E]. split.
  - intros b Hb. apply In_nth_error in Hb as [k Hk]. specialize (E k). rewrite Hk in E.
    destruct (nth_error l k) eqn:Ek; [|contradiction]. apply nth_error_In in Ek. eauto.
  - intros a Ha. apply In_nth_error in Ha as [k Hk]. specialize (E k). rewrite Hk in E.
    destruct (nth_error l' k) eqn:Ek; [|contradiction]. apply nth_error_In in Ek. eauto.
Qed.

(** The rules applied by a run that returns. *)
Lemma run_rules : forall U T, convert_implied_weights G U = Ok T -> forall edges st st',
  reweight_for_edges G T edges st = (st', Ok tt) ->
  exists L, st' = apply_reweights L st /\
    (forall c, In c L -> exists r, triggered G U edges r /\ convert_rule G r = Ok c) /\
    (forall r, triggered G U edges r -> exists c, In c L /\ convert_rule G r = Ok c).
Proof.
  intros U T HT. induction edges using list_ind2; intros st st' E; simpl in E.
  - injection E as <-. exists []. split; [reflexivity|]. split; [intros c []|intros r []].
  - injection E as <-. exists []. split; [reflexivity|]. split; [intros c []|intros r []].
  - unfold rules_for_edge in E. unfold node_of at 1 in E.
    destruct ((0 <=? a) && (a <? Z.of_nat (length G))) eqn:Ea; [|discriminate]. cbn [bindO] in E.
    set (x := if b =? -1 then None else Some (Z.to_nat b)).
    assert (Ex : neighbor_of G b = Ok x \/ neighbor_of G b = UB).
    { unfold neighbor_of, x. destruct (b =? -1); [now left|]. unfold node_of. destruct ((0 <=? b) && (b <? Z.of_nat (length G))); [left|right]; reflexivity. }
    destruct Ex as [Ex|Ex]; rewrite Ex in E; [|discriminate]. cbn [bindO] in E.
    destruct (index_of_neighbor G (Z.to_nat a) x) as [k| | |] eqn:Ek; try discriminate. cbn [bindO] in E.
    apply index_of_neighbor_spec in Ek.
    set (rules := nth k (nth (Z.to_nat a) T []) []) in *.
    destruct (IHedges _ _ E) as (L & EL & H1 & H2).
    pose proof (mapO_In _ _ _ _ _ (convert_table U T HT (Z.to_nat a) k)) as [M1 M2]. fold rules in M1, M2.
    exists (rules ++ L). split; [unfold apply_reweights in *; rewrite fold_left_app; exact EL|]. split.
    + intros c Hc. apply in_app_or in Hc as [Hc|Hc].
      * destruct (M1 c Hc) as (r & Hr & Hrc). exists r. split; [|exact Hrc]. cbn [triggered]. left. exists k. split; [exact Ek|exact Hr].
      * destruct (H1 c Hc) as (r & Hr & Hrc). exists r. split; [|exact Hrc]. cbn [triggered]. now right.
    + intros r Hr. cbn [triggered] in Hr. destruct Hr as [(k' & Hk' & Hr)|Hr].
      * assert (k' = k) by exact (at_index_unique G _ x _ _ (Hsimple _) Hk' Ek). subst k'.
        destruct (M2 r Hr) as (c & Hc & Hrc). exists c. split; [apply in_or_app; now left|exact Hrc].
      * destruct (H2 r Hr) as (c & Hc & Hrc). exists c. split; [apply in_or_app; now right|exact Hrc].
Qed.

Lemma reweight_min : forall U T edges st', convert_implied_weights G U = Ok T ->
  reweight_for_edges G T edges (weights_of G, []) = (st', Ok tt) ->
  symw mirr (fst st') /\
  forall u k x w o, nth_error (nbrs G u) k = Some (x, w, o) -> is_min G U edges u x w (fst st' (u, k)).
Proof.
  intros U T edges st' HT E. destruct (run_rules U T HT edges _ _ E) as (L & -> & H1 & H2).
  assert (HL : forall r, In r L -> wf_rule mirr r).
  { intros c Hc. destruct (H1 c Hc) as (r & _ & Hr). apply (convert_rule_spec r c Hr). }
  destruct (apply_rules_min mirr mirr_sym mirr_fun L (weights_of G) [] HL weights_sym) as [S M].
  split; [exact S|]. intros u k x w o Hn. destruct (M (u, k)) as (A & B & C).
  rewrite (weights_at _ _ _ _ _ Hn) in A, C.
  assert (Hat : at_index G u x k) by now exists w, o.
  split; [exact A|]. split.
  - intros r Hr Ha. destruct (H2 r Hr) as (c & Hc & Hrc). destruct (convert_rule_spec r c Hrc) as (_ & Ei & Hh).
    rewrite <- Ei. apply (B c Hc). now apply (Hh u x k Hat).
  - destruct C as [C|(c & Hc & Hhit & E')]; [now left|right]. destruct (H1 c Hc) as (r & Hr & Hrc).
    destruct (convert_rule_spec r c Hrc) as (_ & Ei & Hh). exists r. split; [exact Hr|]. split; [now apply (Hh u x k Hat)|].
    now rewrite <- Ei.
Qed.
End Graph.

(** ** The reweighted graph is again well formed *)
Lemma reweigh_row_nth : forall W u l i k, nth_error (reweigh_row W u i l) k =
  match nth_error l k with Some (x, _, o) => Some (x, W (u, (i + k)%nat), o) | None => None end.
Proof.
  induction l as [|[[x w] o] l IH]; intros i k; simpl; [now destruct k|]. destruct k as [|k]; simpl.
  - now rewrite Nat.add_0_r.
  - rewrite IH. destruct (nth_error l k) as [[[? ?] ?]|]; [|reflexivity]. replace (S i + k)%nat with (i + S k)%nat by lia. reflexivity.
Qed.
Lemma reweigh_nth : forall W G s u, nth u (reweigh W s G) [] = reweigh_row W (s + u) 0 (nth u G []).
Proof.
  induction G as [|l G IH]; intros s u; simpl; [now destruct u|]. destruct u as [|u]; simpl.
  - now rewrite Nat.add_0_r.
  - rewrite IH. f_equal. lia.
Qed.
Lemma with_weights_nth : forall W G u k, nth_error (nbrs (with_weights W G) u) k =
  match nth_error (nbrs G u) k with Some (x, _, o) => Some (x, W (u, k), o) | None => None end.
Proof.
  intros. unfold with_weights, nbrs. rewrite reweigh_nth, reweigh_row_nth. reflexivity.
Qed.
Lemma with_weights_In : forall W G u x w o, In (x, w, o) (nbrs (with_weights W G) u) <->
  exists k w', nth_error (nbrs G u) k = Some (x, w', o) /\ w = W (u, k).
Proof.
  intros. split.
  - intros H. apply In_nth_error in H as [k H]. rewrite with_weights_nth in H.
    destruct (nth_error (nbrs G u) k) as [[[y w'] o']|] eqn:E; [|discriminate]. injection H as -> <- ->. now exists k, w'.
  - intros (k & w' & H & ->). apply nth_error_In with (n := k). now rewrite with_weights_nth, H.
Qed.
Lemma reweigh_row_fst : forall W u l i, map (fun e => fst (fst e)) (reweigh_row W u i l) = map (fun e : nbr => fst (fst e)) l.
Proof. induction l as [|[[x w] o] l IH]; intros i; simpl; [reflexivity|]. now rewrite IH. Qed.

Lemma reweighted_wf : forall G U T edges st', wf_graph G -> convert_implied_weights G U = Ok T ->
  reweight_for_edges G T edges (weights_of G, []) = (st', Ok tt) -> wf_graph (with_weights (fst st') G).
Proof.
  intros G U T edges st' WF HT E.
  destruct (reweight_min G (wf_sym G WF) (wf_simple G WF) U T edges st' HT E) as [S M].
  split.
  - intros u x w o H. apply with_weights_In in H as (k & w' & H & ->).
    destruct (M u k x w' o H) as (_ & _ & C). destruct C as [->|(r & _ & _ & ->)].
    + apply (wf_weight G WF u x w' o). eapply nth_error_In; eauto.
    + unfold implied. split; [lia|]. rewrite Z.abs_mul. change (Z.abs 2) with 2. apply Z.even_spec. now exists (Z.abs (snd r)).
  - intros u v w o H. apply with_weights_In in H as (k & w' & H & ->).
    pose proof (wf_sym G WF u v w' o (nth_error_In _ _ H)) as H'. apply In_nth_error in H' as [k' H'].
    apply with_weights_In. exists k', w'. split; [exact H'|]. apply S. split; [now exists w', o|now exists w', o].
  - intros u w o H. apply with_weights_In in H as (k & w' & H & _). apply nth_error_In in H. exact (wf_noloop G WF _ _ _ H).
  - intros u. unfold nbrs, with_weights. rewrite reweigh_nth, reweigh_row_fst. exact (wf_simple G WF u).
  - intros u e rest H w o Hin. unfold nbrs, with_weights in H. rewrite reweigh_nth in H. cbn [Nat.add] in H.
    fold (nbrs G u) in H. destruct (nbrs G u) as [|[[x w0] o0] l] eqn:El; [discriminate|]. simpl in H. injection H as <- <-.
    apply In_nth_error in Hin as [k Hk]. rewrite reweigh_row_nth in Hk.
    destruct (nth_error l k) as [[[y w1] o1]|] eqn:Ek; [|discriminate]. injection Hk as -> _ _.
    apply nth_error_In in Ek. exact (wf_boundary_first G WF u _ l El _ _ Ek).
Qed.

(** The statement of C13. *)
Lemma reweight_spec : forall G U T edges st', wf_graph G -> convert_implied_weights G U = Ok T ->
  reweight_for_edges G T edges (weights_of G, []) = (st', Ok tt) ->
  let G' := with_weights (fst st') G in
  wf_graph G' /\
  (forall u k, match nth_error (nbrs G u) k, nth_error (nbrs G' u) k with
     | Some (x, w, o), Some (x', w', o') => x' = x /\ o' = o /\ is_min G U edges u x w w'
     | None, None => True
     | _, _ => False
     end).
Proof.
  intros G U T edges st' WF HT E G'. split; [eapply reweighted_wf; eauto|].
  destruct (reweight_min G (wf_sym G WF) (wf_simple G WF) U T edges st' HT E) as [_ M].
  intros u k. unfold G'. rewrite with_weights_nth. destruct (nth_error (nbrs G u) k) as [[[x w] o]|] eqn:Ek; [|exact I].
  repeat split. all: apply (M u k x w o Ek).
Qed.
