From Coq Require Import ZArith NArith List Bool Arith Lia Permutation.
From Verif Require Import M_Base M_Core S_Core M_Reweight S_Reweight P_Reweight M_Flip S_Flip.
Import ListNotations.
Local Open Scope nat_scope.

Lemma same_end_spec : forall x y, reflect (x = y) (same_end x y).
Proof.
  intros [a|] [b|]; simpl; try (constructor; congruence). destruct (Nat.eqb_spec a b); constructor; congruence.
Qed.
Lemma same_edge_spec : forall a b, same_edge a b = true <-> a = b \/ (snd a = Some (fst b) /\ snd b = Some (fst a)).
Proof.
  intros [u x] [v y]. unfold same_edge. simpl.
  destruct (Nat.eqb_spec u v); destruct (same_end_spec x y); destruct (same_end_spec x (Some v)); destruct (same_end_spec y (Some u)); simpl;
    split; intros H; intuition congruence.
Qed.
Lemma same_edge_sym : forall a b, same_edge a b = same_edge b a.
Proof.
  intros a b. apply eq_true_iff_eq. rewrite !same_edge_spec. intuition.
Qed.
Lemma same_edge_trans : forall a b c, same_edge a b = true -> same_edge b c = true -> same_edge a c = true.
Proof.
  intros [a x] [b y] [c z] H1 H2. apply same_edge_spec in H1, H2. apply same_edge_spec. simpl in *.
  destruct H1 as [E|[E1 E2]]; [injection E as -> ->; exact H2|].
  destruct H2 as [E|[E3 E4]]; [injection E as -> ->; now right|]. left. congruence.
Qed.
Lemma same_edge_cong : forall a b c, same_edge a b = true -> same_edge a c = same_edge b c.
Proof.
  intros a b c H. apply eq_true_iff_eq. split; intros X.
  - rewrite same_edge_sym in H. eapply same_edge_trans; eauto.
  - eapply same_edge_trans; eauto.
Qed.

Lemma index_of_found : forall l x w o k0, In (x, w, o) l -> exists k, index_of l x k0 = Ok k.
Proof.
  induction l as [|[[y w'] o'] l IH]; intros x w o k0 Hin; simpl; [destruct Hin|].
  destruct (match y, x with None, None => true | Some a, Some b => a =? b | _, _ => false end) eqn:E; [eauto|].
  destruct Hin as [Hin|Hin]; [|eapply IH; eauto]. injection Hin as -> _ _. destruct x; [now rewrite Nat.eqb_refl in E|discriminate].
Qed.

Section Flip.
Variable G : graph.
Hypothesis Hsym : forall u v w o, In (Some v, w, o) (nbrs G u) -> In (Some u, w, o) (nbrs G v).
Hypothesis Hloop : forall u w o, ~ In (Some u, w, o) (nbrs G u).
Hypothesis Hsimple : forall u, NoDup (map (fun e => fst (fst e)) (nbrs G u)).
Hypothesis Hbnd : forall u e rest, nbrs G u = e :: rest -> forall w o, ~ In (None, w, o) rest.

Definition edge_ok (e : nat * option nat) : Prop := exists k, at_index G (fst e) (snd e) k.

Lemma flip_cell_at : forall M u i u' i', flip_cell M u i u' i' = if (u' =? u) && (i' =? i) then N.lxor (M u' i') 1 else M u' i'.
Proof.
  intros. unfold flip_cell, set_mark. destruct (Nat.eqb_spec u' u) as [->|]; simpl; [|reflexivity].
  destruct (Nat.eqb_spec i' i) as [->|]; reflexivity.
Qed.

(** The effect of a flip on every cell of the graph. *)
Lemma flip_edge_spec : forall M u x i, at_index G u x i ->
  exists M', flip_edge G M u i = Ok M' /\
    (forall u' x' i', at_index G u' x' i' -> M' u' i' = if same_edge (u, x) (u', x') then N.lxor (M u' i') 1 else M u' i') /\
    (forall u' i', nth_error (nbrs G u') i' = None -> M' u' i' = M u' i').
Proof.
  intros M u x i Hi. destruct Hi as (w & o & Hn). unfold flip_edge. rewrite Hn.
  assert (Hi : at_index G u x i) by now exists w, o.
  destruct x as [v|].
  - assert (Hin : In (Some u, w, o) (nbrs G v)) by (apply Hsym; eapply nth_error_In; eauto).
    unfold index_of_neighbor. destruct (index_of_found (nbrs G v) (Some u) w o 0 Hin) as [k Hk]. rewrite Hk. cbn [bindO].
    eexists. split; [reflexivity|].
    assert (Hk' : at_index G v (Some u) k) by (apply index_of_neighbor_spec; exact Hk).
    assert (Hne : u <> v) by (intros ->; eapply Hloop; eauto).
    split.
    + intros u' x' i' Hi'. rewrite !flip_cell_at.
      destruct (same_edge (u, Some v) (u', x')) eqn:Es.
      * apply same_edge_spec in Es as [E|[E1 E2]]; simpl in *.
        -- injection E as <- <-. assert (i' = i) by (eapply at_index_unique; eauto). subst i'.
           rewrite !Nat.eqb_refl. simpl. destruct (Nat.eqb_spec u v); [contradiction|]. reflexivity.
        -- injection E1 as <-. subst x'. assert (i' = k) by (eapply at_index_unique; eauto). subst i'.
           rewrite !Nat.eqb_refl. simpl. destruct (Nat.eqb_spec v u); [congruence|]. reflexivity.
      * destruct (Nat.eqb_spec u' v) as [->|N1]; simpl.
        -- destruct (Nat.eqb_spec i' k) as [->|N2]; simpl.
           ++ exfalso. assert (x' = Some u).
              { destruct Hk' as (w1 & o1 & H1), Hi' as (w2 & o2 & H2). rewrite H2 in H1. congruence. }
              subst x'. assert (same_edge (u, Some v) (v, Some u) = true) by (apply same_edge_spec; right; split; reflexivity). congruence.
           ++ destruct (Nat.eqb_spec v u); [congruence|reflexivity].
        -- destruct (Nat.eqb_spec u' u) as [->|N2]; simpl; [|reflexivity].
           destruct (Nat.eqb_spec i' i) as [->|N3]; [|reflexivity]. exfalso.
           destruct Hi' as (w2 & o2 & H2). rewrite H2 in Hn. injection Hn as -> _ _.
           assert (same_edge (u, Some v) (u, Some v) = true) by (apply same_edge_spec; now left). congruence.
    + intros u' i' H0. rewrite !flip_cell_at.
      destruct (Nat.eqb_spec u' v) as [->|]; simpl.
      * destruct (Nat.eqb_spec i' k) as [->|]; simpl.
        { destruct Hk' as (w1 & o1 & H1). rewrite H1 in H0. discriminate. }
        destruct (Nat.eqb_spec v u); [congruence|reflexivity].
      * destruct (Nat.eqb_spec u' u) as [->|]; simpl; [|reflexivity].
        destruct (Nat.eqb_spec i' i) as [->|]; [|reflexivity]. rewrite Hn in H0. discriminate.
  - eexists. split; [reflexivity|]. split.
    + intros u' x' i' Hi'. rewrite flip_cell_at.
      destruct (Nat.eqb_spec u' u) as [->|N1]; simpl.
      * destruct (Nat.eqb_spec i' i) as [->|N2].
        -- destruct Hi' as (w2 & o2 & H2). rewrite H2 in Hn. injection Hn as -> _ _.
           assert (E : same_edge (u, None) (u, None) = true) by (apply same_edge_spec; now left). now rewrite E.
        -- destruct (same_edge (u, None) (u, x')) eqn:Es; [|reflexivity]. apply same_edge_spec in Es as [E|[E _]]; [|discriminate].
           injection E as <-. exfalso. apply N2. eapply at_index_unique; eauto.
      * destruct (same_edge (u, None) (u', x')) eqn:Es; [|reflexivity]. apply same_edge_spec in Es as [E|[E _]]; [|discriminate]. congruence.
    + intros u' i' H0. rewrite flip_cell_at. destruct (Nat.eqb_spec u' u) as [->|]; simpl; [|reflexivity].
      destruct (Nat.eqb_spec i' i) as [->|]; [|reflexivity]. rewrite Hn in H0. discriminate.
Qed.

(** Marks [M] differ from [M0] exactly on the edges of odd multiplicity given by [f]. *)
Definition marked (M0 M : marks) (f : nat * option nat -> bool) : Prop :=
  (forall u x i, at_index G u x i -> M u i = if f (u, x) then N.lxor (M0 u i) 1 else M0 u i) /\
  (forall u i, nth_error (nbrs G u) i = None -> M u i = M0 u i).

Lemma lxor_twice : forall a, N.lxor (N.lxor a 1) 1 = a.
Proof. intros. rewrite N.lxor_assoc, N.lxor_nilpotent. apply N.lxor_0_r. Qed.

Lemma marked_flip : forall M0 M f u x i, marked M0 M f -> at_index G u x i ->
  exists M', flip_edge G M u i = Ok M' /\ marked M0 M' (fun e => xorb (f e) (same_edge (u, x) e)).
Proof.
  intros M0 M f u x i [H1 H2] Hi. destruct (flip_edge_spec M u x i Hi) as (M' & E & F1 & F2). exists M'. split; [exact E|]. split.
  - intros u' x' i' Hi'. rewrite (F1 u' x' i' Hi'), (H1 u' x' i' Hi').
    destruct (same_edge (u, x) (u', x')), (f (u', x')); simpl; try reflexivity. apply lxor_twice.
  - intros u' i' H. rewrite F2, H2; auto.
Qed.
Lemma marked_ext : forall M0 M f g, (forall e, f e = g e) -> marked M0 M f -> marked M0 M g.
Proof. intros M0 M f g H [H1 H2]. split; [|exact H2]. intros u x i Hi. rewrite <- H. now apply H1. Qed.

Definition par_occ (e : nat * option nat) (l : list (nat * option nat)) : bool := Nat.odd (occurrences e l).
Lemma occ_app : forall e l m, occurrences e (l ++ m) = occurrences e l + occurrences e m.
Proof. intros. unfold occurrences. now rewrite filter_app, app_length. Qed.
Lemma occ_cons : forall e a l, occurrences e (a :: l) = (if same_edge e a then 1 else 0) + occurrences e l.
Proof. intros. unfold occurrences. simpl. destruct (same_edge e a); reflexivity. Qed.

Lemma collect_spec : forall path M0 M entries edges f, Forall2 (cell_entry G) path entries -> marked M0 M f ->
  exists M', collect G M path edges = Ok (M', edges ++ entries) /\ marked M0 M' (fun e => xorb (f e) (par_occ e entries)).
Proof.
  induction path as [|[u i] path IH]; intros M0 M entries edges f HF HM; inversion HF as [|? [u' x] ? ent' [Hu Hx] HF']; subst; simpl.
  - exists M. split; [now rewrite app_nil_r|]. eapply marked_ext; [|exact HM]. intros e. unfold par_occ. simpl. now rewrite xorb_false_r.
  - simpl in Hu, Hx. subst u'. destruct (marked_flip M0 M f u x i HM Hx) as (M' & E & HM'). rewrite E. cbn [bindO].
    destruct Hx as (w & o & Hn). rewrite Hn.
    destruct (IH M0 M' ent' (edges ++ [(u, x)]) _ HF' HM') as (M2 & E2 & HM2). rewrite E2, <- app_assoc. exists M2. split; [reflexivity|].
    eapply marked_ext; [|exact HM2]. intros e. cbn beta. unfold par_occ. rewrite occ_cons, Nat.odd_add, (same_edge_sym e).
    destruct (same_edge (u, x) e), (f e), (Nat.odd (occurrences e ent')); reflexivity.
Qed.

Lemma swap_last_perm : forall (tl : list (nat * option nat)), Permutation (match rev tl with [] => [] | y :: _ => y :: removelast tl end) tl.
Proof.
  intros tl. destruct tl as [|a tl] using rev_ind; [constructor|]. rewrite rev_app_distr. simpl. rewrite removelast_last.
  apply Permutation_cons_append.
Qed.
Lemma occ_perm : forall e l m, Permutation l m -> occurrences e l = occurrences e m.
Proof.
  intros e l m H. unfold occurrences. induction H; simpl; auto.
  - destruct (same_edge e x); simpl; congruence.
  - destruct (same_edge e x), (same_edge e y); reflexivity.
  - congruence.
Qed.
Lemma occ_pos : forall e l, 0 < occurrences e l <-> exists e', In e' l /\ same_edge e e' = true.
Proof.
  intros e l. unfold occurrences. split.
  - destruct (filter (same_edge e) l) as [|a m] eqn:E; simpl; [lia|]. intros _. exists a. apply filter_In. rewrite E. now left.
  - intros (e' & H1 & H2). assert (In e' (filter (same_edge e) l)) by now apply filter_In. destruct (filter (same_edge e) l); [destruct H|simpl; lia].
Qed.

Lemma idx_of_entry : forall u v, edge_ok (u, v) -> exists k, at_index G u v k /\
  match v with None => Ok 0 | Some _ => index_of_neighbor G u v end = Ok k.
Proof.
  intros u v (k & w & o & Hn). simpl in Hn. destruct v as [v|].
  - unfold index_of_neighbor. destruct (index_of_found (nbrs G u) (Some v) w o 0) as [k' Hk']; [eapply nth_error_In; eauto|].
    exists k'. split; [|exact Hk']. apply index_of_neighbor_spec. exact Hk'.
  - exists 0. split; [|reflexivity]. destruct (nbrs G u) as [|e rest] eqn:E; [destruct k; discriminate|].
    destruct k as [|k]; simpl in Hn.
    + exists w, o. rewrite E. exact Hn.
    + apply nth_error_In in Hn. elim (Hbnd u e rest E _ _ Hn).
Qed.

(** The loop.  [f] tells which edges are marked. *)
Lemma cancel_spec : forall fuel M0 M done rest f, length rest < fuel ->
  (forall e, In e rest -> edge_ok e) ->
  (forall u i, nth_error (nbrs G u) i <> None -> N.testbit (M0 u i) 0 = false) ->
  marked M0 M f -> (forall e e', same_edge e e' = true -> f e = f e') ->
  (forall e, f e = true -> 0 < occurrences e rest) ->
  exists M' out, cancel fuel G M done rest = Ok (M', out) /\ marked M0 M' (fun _ => false) /\
    (exists kept, out = done ++ kept /\ (forall e, In e kept -> In e rest) /\
       forall e, occurrences e kept = if f e then 1 else 0).
Proof.
  induction fuel as [|fuel IH]; intros M0 M done rest f Hf Hok H0 HM Hcong Hocc; [lia|]. cbn [cancel].
  destruct rest as [|[u v] tl].
  - exists M, done. split; [reflexivity|].
    assert (Hf0 : forall e, f e = false) by (intros e; destruct (f e) eqn:E; [apply Hocc in E; unfold occurrences in E; simpl in E; lia|reflexivity]).
    split; [eapply marked_ext; [exact Hf0|exact HM]|]. exists []. split; [now rewrite app_nil_r|]. split; [intros e []|]. intros e. now rewrite Hf0.
  - destruct (idx_of_entry u v (Hok (u, v) (or_introl eq_refl))) as (k & Hk & Ek). rewrite Ek. cbn [bindO].
    assert (Htest : N.testbit (M u k) 0 = f (u, v)).
    { rewrite (proj1 HM u v k Hk). assert (B : N.testbit (M0 u k) 0 = false) by (apply H0; destruct Hk as (w & o & ->); discriminate).
      destruct (f (u, v)); [|exact B]. rewrite N.lxor_spec, B. reflexivity. }
    rewrite Htest. destruct (f (u, v)) eqn:Ef; cbn [negb].
    + destruct (marked_flip M0 M f u v k HM Hk) as (M' & E & HM'). rewrite E. cbn [bindO].
      destruct (IH M0 M' (done ++ [(u, v)]) tl (fun e => xorb (f e) (same_edge (u, v) e))) as (M2 & out & E2 & HM2 & (kept & -> & Hin & Hk2)).
      * simpl in Hf. lia.
      * intros e He. apply Hok. now right.
      * exact H0.
      * exact HM'.
      * intros e e' Hee. rewrite (Hcong e e' Hee). f_equal. rewrite (same_edge_sym (u, v) e), (same_edge_sym (u, v) e'). now apply same_edge_cong.
      * intros e He. destruct (same_edge (u, v) e) eqn:Es.
        { rewrite <- (Hcong _ _ Es), Ef in He. discriminate. }
        rewrite xorb_false_r in He. apply Hocc in He. rewrite occ_cons, same_edge_sym, Es in He. exact He.
      * exists M2. eexists. split; [exact E2|]. split; [exact HM2|]. exists ((u, v) :: kept). split; [now rewrite <- app_assoc|].
        split; [intros e [<-|He]; [now left|right; now apply Hin]|]. intros e. rewrite occ_cons, (Hk2 e), (same_edge_sym e).
        destruct (same_edge (u, v) e) eqn:Es.
        -- rewrite <- (Hcong _ _ Es), Ef. reflexivity.
        -- rewrite xorb_false_r. destruct (f e); reflexivity.
    + pose proof (swap_last_perm tl) as HP. set (tl' := match rev tl with [] => [] | y :: _ => y :: removelast tl end) in *.
      destruct (IH M0 M done tl' f) as (M2 & out & E2 & HM2 & (kept & -> & Hin & Hk2)).
      * rewrite (Permutation_length HP). simpl in Hf. lia.
      * intros e He. apply Hok. right. exact (Permutation_in e HP He).
      * exact H0.
      * exact HM.
      * exact Hcong.
      * intros e He. rewrite (occ_perm e _ _ HP). pose proof (Hocc e He) as X. rewrite occ_cons in X.
        destruct (same_edge e (u, v)) eqn:Es; [|exact X]. rewrite (Hcong _ _ Es), Ef in He. discriminate.
      * exists M2. eexists. split; [exact E2|]. split; [exact HM2|]. exists kept. split; [reflexivity|]. split; [|exact Hk2].
        intros e He. right. exact (Permutation_in e HP (Hin e He)).
Qed.

Lemma cancel_total : forall path entries M0, Forall2 (cell_entry G) path entries ->
  (forall u i, nth_error (nbrs G u) i <> None -> N.testbit (M0 u i) 0 = false) ->
  exists M' out, edges_of_paths G M0 path = Ok (M', out) /\ (forall u i, M' u i = M0 u i) /\
    (forall e, In e out -> In e entries) /\
    forall e, occurrences e out = if Nat.odd (occurrences e entries) then 1 else 0.
Proof.
  intros path entries M0 HF H0. unfold edges_of_paths.
  assert (HM0 : marked M0 M0 (fun _ => false)) by (split; reflexivity).
  destruct (collect_spec path M0 M0 entries [] _ HF HM0) as (M1 & E1 & HM1). rewrite E1. cbn [bindO fst snd app].
  destruct (cancel_spec (S (length entries)) M0 M1 [] entries (fun e => par_occ e entries)) as (M2 & out & E2 & HM2 & (kept & -> & Hin & Hk)).
  - lia.
  - intros e He. clear - HF He. induction HF as [|c e' p l Hc _ IH]; [destruct He|]. destruct He as [->|He]; [|auto].
    destruct Hc as [E Hc]. exists (snd c). now rewrite E.
  - exact H0.
  - eapply marked_ext; [|exact HM1]. intros e. cbn beta. apply xorb_false_l.
  - intros e e' H. unfold par_occ. f_equal. unfold occurrences. f_equal. apply filter_ext. intros x. now apply same_edge_cong.
  - intros e He. unfold par_occ in He. destruct (occurrences e entries); [discriminate|lia].
  - exists M2. eexists. split; [exact E2|]. split; [|split; [exact Hin|exact Hk]].
    intros u i. destruct HM2 as [A B]. destruct (nth_error (nbrs G u) i) as [[[x w] o]|] eqn:En; [|now apply B].
    apply (A u x i). now exists w, o.
Qed.
End Flip.

Lemma cancel_wf : forall G path entries M0, wf_graph G -> Forall2 (cell_entry G) path entries ->
  (forall u i, nth_error (nbrs G u) i <> None -> N.testbit (M0 u i) 0 = false) ->
  exists M' out, edges_of_paths G M0 path = Ok (M', out) /\ (forall u i, M' u i = M0 u i) /\
    (forall e, In e out -> In e entries) /\
    forall e, occurrences e out = if Nat.odd (occurrences e entries) then 1 else 0.
Proof.
  intros G path entries M0 WF. apply cancel_total.
  - exact (wf_sym G WF). - exact (wf_noloop G WF). - exact (wf_simple G WF). - exact (wf_boundary_first G WF).
Qed.
