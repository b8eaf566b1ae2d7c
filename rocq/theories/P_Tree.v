(** Alternating trees: re-rooting, common ancestors, pruning, listing. *)
From Coq Require Import ZArith NArith List Arith Lia Bool Permutation.
From Verif Require Import M_Base M_Varying M_Tracker M_Core P_Up.
Import ListNotations.
Local Open Scope outcome_scope.
Local Open Scope nat_scope.

(** Partial correctness. *)
Definition safe {A} (m : outcome A) (P : A -> Prop) : Prop :=
  match m with Ok a => P a | Fuel => True | Throw => False | UB => False end.
Lemma safe_bind : forall A B (m : outcome A) (f : A -> outcome B) P Q,
  safe m P -> (forall a, P a -> safe (f a) Q) -> safe (bindO m f) Q.
Proof. intros A B [a| | |] f P Q H1 H2; simpl in *; auto. Qed.
Lemma safe_impl : forall A (m : outcome A) (P Q : A -> Prop), safe m P -> (forall a, P a -> Q a) -> safe m Q.
Proof. intros A [a| | |] P Q H1 H2; simpl in *; auto. Qed.
Lemma safe_ok : forall A (a : A) (P : A -> Prop), P a -> safe (Ok a) P.
Proof. auto. Qed.

Lemma upd_same : forall A (f : nat -> A) k v, upd f k v k = v.
Proof. intros. unfold upd. now rewrite Nat.eqb_refl. Qed.
Lemma upd_other : forall A (f : nat -> A) k v i, i <> k -> upd f k v i = f i.
Proof. intros. unfold upd. destruct (Nat.eqb_spec i k); [contradiction|reflexivity]. Qed.
Lemma upd_spec : forall A (f : nat -> A) k v i, upd f k v i = if i =? k then v else f i.
Proof. reflexivity. Qed.
(** Case analysis on all [upd]s in sight. *)
Ltac du := repeat match goal with
  | |- context[upd ?f ?k ?v ?i] => rewrite (upd_spec _ f k v i); destruct (Nat.eqb_spec i k); subst
  | H : context[upd ?f ?k ?v ?i] |- _ => rewrite (upd_spec _ f k v i) in H; destruct (Nat.eqb_spec i k); subst
  end.

Lemma rev_rev_e : forall e, rev_e (rev_e e) = e.
Proof. intros []. reflexivity. Qed.

(** ** unstable_erase *)
Lemma replace_first_split : forall c x l1 e l2, ~ In c (map fst l1) ->
  replace_first c x (l1 ++ (c, e) :: l2) = l1 ++ x :: l2.
Proof.
  induction l1 as [|[b f] l1 IH]; intros e l2 H; simpl.
  - now rewrite Nat.eqb_refl.
  - destruct (Nat.eqb_spec b c) as [->|]; [exfalso; apply H; now left|]. f_equal. apply IH. intros Hc. apply H. now right.
Qed.
Lemma first_split : forall c (l : list (nat * cedge)), In c (map fst l) ->
  exists l1 e l2, l = l1 ++ (c, e) :: l2 /\ ~ In c (map fst l1).
Proof.
  induction l as [|[b f] l IH]; intros H; [contradiction|].
  destruct (Nat.eq_dec b c) as [->|Hne].
  - exists [], f, l. split; auto.
  - destruct H as [H|H]; [simpl in H; congruence|]. destruct (IH H) as (l1 & e & l2 & -> & Hn).
    exists ((b, f) :: l1), e, l2. split; [reflexivity|]. simpl. intros [|]; auto.
Qed.
Lemma unstable_erase_perm : forall c l, In c (map fst l) -> exists e, Permutation l ((c, e) :: unstable_erase c l).
Proof.
  intros c l H. destruct (first_split c l H) as (l1 & e & l2 & -> & Hn). exists e. unfold unstable_erase.
  replace (existsb _ _) with true.
  2:{ symmetry. apply existsb_exists. exists (c, e). split; [apply in_or_app; right; now left|]. simpl. apply Nat.eqb_refl. }
  destruct l2 as [|y l2 _] using rev_ind.
  - rewrite rev_app_distr. simpl. rewrite replace_first_split by assumption.
    rewrite app_length. simpl. destruct l1 as [|z l1].
    + simpl. reflexivity.
    + replace (1 <? length (z :: l1) + 1) with true by (symmetry; apply Nat.ltb_lt; simpl; lia).
      rewrite removelast_last. rewrite Permutation_app_comm. reflexivity.
  - replace (rev (l1 ++ (c, e) :: l2 ++ [y])) with (y :: rev (l1 ++ (c, e) :: l2)).
    2:{ replace (l1 ++ (c, e) :: l2 ++ [y]) with ((l1 ++ (c, e) :: l2) ++ [y]) by (rewrite <- app_assoc; reflexivity).
        now rewrite rev_unit. }
    rewrite replace_first_split by assumption.
    replace (1 <? length (l1 ++ (c, e) :: l2 ++ [y])) with true
      by (symmetry; apply Nat.ltb_lt; rewrite app_length; simpl; rewrite app_length; simpl; lia).
    replace (l1 ++ y :: l2 ++ [y]) with ((l1 ++ y :: l2) ++ [y]) by (rewrite <- app_assoc; reflexivity).
    rewrite removelast_last.
    transitivity ((c, e) :: l1 ++ l2 ++ [y]); [symmetry; apply Permutation_middle|].
    apply perm_skip. apply Permutation_app_head. rewrite Permutation_app_comm. reflexivity.
Qed.
Lemma unstable_erase_absent : forall c l, ~ In c (map fst l) -> unstable_erase c l = l.
Proof.
  intros c l H. unfold unstable_erase. destruct (existsb _ l) eqn:E; [|reflexivity].
  exfalso. apply H. apply existsb_exists in E as [x [Hx Hc]]. apply Nat.eqb_eq in Hc. subst. now apply in_map.
Qed.
Lemma unstable_erase_NoDup : forall c l, NoDup (map fst l) -> NoDup (map fst (unstable_erase c l)).
Proof.
  intros c l Hnd. destruct (in_dec Nat.eq_dec c (map fst l)) as [Hc|Hc].
  - destruct (unstable_erase_perm c l Hc) as [e Hp]. apply (Permutation_map fst) in Hp.
    apply (Permutation_NoDup Hp) in Hnd. simpl in Hnd. now inversion Hnd.
  - now rewrite unstable_erase_absent.
Qed.
Lemma unstable_erase_In : forall c l x, NoDup (map fst l) -> (In x (unstable_erase c l) <-> In x l /\ fst x <> c).
Proof.
  intros c l x Hnd. destruct (in_dec Nat.eq_dec c (map fst l)) as [Hc|Hc].
  - destruct (unstable_erase_perm c l Hc) as [e Hp].
    assert (Hnd' := Permutation_NoDup (Permutation_map fst Hp) Hnd). simpl in Hnd'. inversion Hnd'; subst.
    split; intros Hx.
    + split; [apply (Permutation_in x (Permutation_sym Hp)); now right|]. intros E. apply (in_map fst) in Hx. rewrite E in Hx. contradiction.
    + destruct Hx as [Hx Hne]. apply (Permutation_in x Hp) in Hx as [<-|Hx]; [now elim Hne|assumption].
  - rewrite unstable_erase_absent by assumption. split; [|tauto]. intros Hx. split; auto. intros E. apply Hc. rewrite <- E. now apply in_map.
Qed.

(** ** Tree structure.  [A]: the nodes in use; [c]: paths to the root; [tg]: the relation that links of the
    tree must satisfy (region, region, connecting edge). *)
Record tstr (A : nat -> Prop) (T : treesM) (c : nat -> list nat) (tg : nat -> nat -> cedge -> Prop) : Prop := {
  ts_up : up_ok A (par T) c;
  ts_par : forall b q, A b -> par T b = Some q ->
     In (b, rev_e (ped T b)) (kid T q) /\
     exists i o oq, inn T b = Some i /\ out T b = Some o /\ out T q = Some oq /\ tg i o (i2o T b) /\ tg i oq (ped T b);
  ts_root : forall b, A b -> par T b = None -> inn T b = None;
  ts_out : forall b, A b -> exists o, out T b = Some o;
  ts_kid : forall a b e, A a -> In (b, e) (kid T a) -> A b /\ par T b = Some a /\ ped T b = rev_e e;
  ts_kidnd : forall a, A a -> NoDup (map fst (kid T a));
  ts_inj : forall b b' i, A b -> A b' -> inn T b = Some i -> inn T b' = Some i -> b = b' }.

Lemma ts_innpar : forall A T c tg b i, tstr A T c tg -> A b -> inn T b = Some i -> exists q, par T b = Some q.
Proof.
  intros A T c tg b i H Hb Hi. destruct (par T b) as [q|] eqn:E; [now exists q|].
  apply (ts_root A T c tg H) in E; [congruence|assumption].
Qed.

(** One rotation: [p] is a root and the parent of [a]. *)
Definition rotate (t : treesM) (a p : nat) : treesM :=
  let t5 := detach t a p in
  let e := rev_e (i2o t5 a) in
  let t6 := set_parent (set_kid t5 a (kid t5 a ++ [(p, e)])) p (Some a) (rev_e e) in
  set_i2o t6 a cedge_null.
Definition rot_up (c : nat -> list nat) (a p : nat) (b : nat) : list nat :=
  if last (c b) b =? p then (if in_dec Nat.eq_dec a (c b) then removelast (c b) else c b ++ [a]) else c b.

Section Rotate.
Variable A : nat -> Prop.
Variable T : treesM.
Variable c : nat -> list nat.
Variable tg : nat -> nat -> cedge -> Prop.
Hypothesis HT : tstr A T c tg.
Variables a p : nat.
Hypothesis Ha : A a.
Hypothesis Hp : par T a = Some p.
Hypothesis Hpp : par T p = None.

Let U := ts_up A T c tg HT.
Lemma rot_Ap : A p. Proof. exact (up_L A (par T) c U a p Ha Hp). Qed.
Lemma rot_ne : a <> p. Proof. intros ->. rewrite Hp in Hpp. discriminate. Qed.

Lemma rot_fields : forall b,
  inn (rotate T a p) b = (if b =? a then None else if b =? p then inn T a else inn T b) /\
  out (rotate T a p) b = out T b /\
  i2o (rotate T a p) b = (if b =? a then cedge_null else if b =? p then ped T a else i2o T b) /\
  par (rotate T a p) b = (if b =? p then Some a else if b =? a then None else par T b) /\
  ped (rotate T a p) b = (if b =? p then i2o T a else if b =? a then cedge_null else ped T b) /\
  kid (rotate T a p) b = (if b =? a then kid T a ++ [(p, rev_e (i2o T a))] else if b =? p then unstable_erase a (kid T p) else kid T b) /\
  vis (rotate T a p) b = vis T b.
Proof.
  intros b. pose proof rot_ne.
  assert (E : (a =? p) = false) by (now apply Nat.eqb_neq).
  assert (E' : (p =? a) = false) by (rewrite Nat.eqb_sym; exact E).
  repeat split; cbn [rotate detach set_inn set_i2o set_kid set_parent inn out i2o par ped kid vis upd];
    unfold upd; rewrite ?Nat.eqb_refl, ?E, ?E', ?rev_rev_e; try reflexivity; destruct (b =? a), (b =? p); reflexivity.
Qed.

Lemma rot_root_a : root c a = p.
Proof. rewrite (root_step A (par T) c U a p Ha Hp). exact (root_none A (par T) c U p rot_Ap Hpp). Qed.

Lemma rot_up_ok : up_ok A (par (rotate T a p)) (rot_up c a p).
Proof.
  intros b Hb. assert (R := rot_fields b). destruct R as (_ & _ & _ & -> & _).
  assert (Hcp : c p = [p]) by (rewrite (up_eq A (par T) c U p rot_Ap), Hpp; reflexivity).
  assert (Hca : c a = [a; p]) by (rewrite (up_eq A (par T) c U a Ha), Hp, Hcp; reflexivity).
  pose proof rot_ne as Hne.
  assert (Ra : rot_up c a p a = [a]).
  { unfold rot_up. rewrite Hca. simpl. rewrite Nat.eqb_refl. destruct (Nat.eq_dec a a); [reflexivity|congruence]. }
  assert (Rp : rot_up c a p p = [p; a]).
  { unfold rot_up. rewrite Hcp. simpl. rewrite Nat.eqb_refl. destruct (Nat.eq_dec p a); [congruence|]. reflexivity. }
  destruct (Nat.eqb_spec b p) as [->|Hbp].
  { split; [now rewrite Ra, Rp|]. intros q E. injection E as <-. exact Ha. }
  destruct (Nat.eqb_spec b a) as [->|Hba].
  { split; [exact Ra|]. discriminate. }
  split; [|intros q E; exact (up_L A (par T) c U b q Hb E)].
  unfold rot_up. destruct (par T b) as [q|] eqn:E.
  - assert (Hq : A q) by exact (up_L A (par T) c U b q Hb E).
    assert (Hl : last (c b) b = last (c q) q) by exact (root_step A (par T) c U b q Hb E).
    rewrite Hl. destruct (Nat.eqb_spec (last (c q) q) p) as [Hr|Hr].
    + rewrite (up_eq A (par T) c U b Hb), E.
      destruct (in_dec Nat.eq_dec a (b :: c q)) as [[|Hin]|Hn]; [congruence| |].
      * destruct (in_dec Nat.eq_dec a (c q)) as [Hin'|]; [|contradiction].
        destruct (c q) as [|z l] eqn:Ec; [destruct Hin|]. reflexivity.
      * destruct (in_dec Nat.eq_dec a (c q)) as [Hin'|]; [exfalso; apply Hn; now right|]. reflexivity.
    + now rewrite (up_eq A (par T) c U b Hb), E.
  - rewrite (up_eq A (par T) c U b Hb), E. simpl. destruct (Nat.eqb_spec b p); [congruence|reflexivity].
Qed.

Lemma rot_tstr : tstr A (rotate T a p) (rot_up c a p) tg.
Proof.
  pose proof rot_ne as Hne. pose proof rot_Ap as HAp.
  assert (Enp : (a =? p) = false) by now apply Nat.eqb_neq.
  destruct (ts_par A T c tg HT a p Ha Hp) as [Hk (i & o & op & Hi & Ho & Hop & T1 & T2)].
  split.
  - exact rot_up_ok.
  - intros b q Hb. destruct (rot_fields b) as (-> & -> & -> & -> & -> & _ & _).
    destruct (rot_fields q) as (_ & -> & _ & _ & _ & -> & _).
    destruct (Nat.eqb_spec b p) as [->|Hbp].
    + intros E. injection E as <-. rewrite !Nat.eqb_refl.
      destruct (Nat.eqb_spec p a); [congruence|].
      split; [apply in_or_app; right; now left|]. exists i, op, o. repeat split; auto.
    + destruct (Nat.eqb_spec b a) as [->|Hba]; [discriminate|]. intros E.
      destruct (ts_par A T c tg HT b q Hb E) as [Hk' Hx]. split; [|exact Hx].
      destruct (Nat.eqb_spec q a) as [->|Hqa]; [apply in_or_app; now left|].
      destruct (Nat.eqb_spec q p) as [->|Hqp]; [|exact Hk'].
      apply unstable_erase_In; [exact (ts_kidnd A T c tg HT p HAp)|]. split; auto.
  - intros b Hb. destruct (rot_fields b) as (-> & _ & _ & -> & _).
    destruct (Nat.eqb_spec b p) as [->|Hbp]; [discriminate|].
    destruct (Nat.eqb_spec b a) as [->|Hba]; [reflexivity|]. exact (ts_root A T c tg HT b Hb).
  - intros b Hb. destruct (rot_fields b) as (_ & -> & _). exact (ts_out A T c tg HT b Hb).
  - intros x b e Hx. destruct (rot_fields x) as (_ & _ & _ & _ & _ & -> & _).
    destruct (rot_fields b) as (_ & _ & _ & -> & -> & _ & _). intros Hin.
    destruct (Nat.eqb_spec x a) as [->|Hxa].
    + apply in_app_or in Hin as [Hin|[Hin|[]]].
      * destruct (ts_kid A T c tg HT a b e Ha Hin) as (Hb & E1 & E2). split; auto.
        destruct (Nat.eqb_spec b p) as [->|]; [congruence|]. destruct (Nat.eqb_spec b a) as [->|]; [congruence|]. auto.
      * injection Hin as <- <-. rewrite Nat.eqb_refl, rev_rev_e. auto.
    + destruct (Nat.eqb_spec x p) as [->|Hxp].
      * apply unstable_erase_In in Hin as [Hin Hn]; [|exact (ts_kidnd A T c tg HT p HAp)].
        destruct (ts_kid A T c tg HT p b e HAp Hin) as (Hb & E1 & E2). split; auto. simpl in Hn.
        destruct (Nat.eqb_spec b p) as [->|]; [congruence|]. destruct (Nat.eqb_spec b a) as [->|]; [congruence|]. auto.
      * destruct (ts_kid A T c tg HT x b e Hx Hin) as (Hb & E1 & E2). split; auto.
        destruct (Nat.eqb_spec b p) as [->|]; [congruence|]. destruct (Nat.eqb_spec b a) as [->|]; [congruence|]. auto.
  - intros x Hx. destruct (rot_fields x) as (_ & _ & _ & _ & _ & -> & _).
    destruct (Nat.eqb_spec x a) as [->|Hxa].
    + rewrite map_app. apply (Permutation_NoDup (Permutation_app_comm [p] _)). constructor; [|exact (ts_kidnd A T c tg HT a Ha)].
      intros Hin. apply in_map_iff in Hin as [[z e] [Ez Hz]]. simpl in Ez. subst.
      destruct (ts_kid A T c tg HT a p e Ha Hz) as (_ & E & _). congruence.
    + destruct (Nat.eqb_spec x p) as [->|Hxp]; [|exact (ts_kidnd A T c tg HT x Hx)].
      apply unstable_erase_NoDup. exact (ts_kidnd A T c tg HT p HAp).
  - intros b b' j Hb Hb'. destruct (rot_fields b) as (-> & _). destruct (rot_fields b') as (-> & _).
    destruct (Nat.eqb_spec b a) as [->|]; [discriminate|]. destruct (Nat.eqb_spec b' a) as [->|]; [discriminate|].
    pose proof (ts_inj A T c tg HT) as Hinj.
    destruct (Nat.eqb_spec b p) as [->|]; destruct (Nat.eqb_spec b' p) as [->|]; auto.
    + intros E1 E2. exfalso. apply n0. symmetry. eapply Hinj; eauto.
    + intros E1 E2. exfalso. apply n. eapply Hinj; eauto.
    + eauto.
Qed.

Lemma rot_root : forall b, A b -> root (rot_up c a p) b = if root c b =? p then a else root c b.
Proof.
  intros b Hb. unfold root at 1. unfold rot_up. fold (root c b).
  destruct (Nat.eqb_spec (root c b) p) as [Hr|Hr]; [|fold (root c b); destruct (Nat.eqb_spec (root c b) p); [contradiction|reflexivity]].
  destruct (in_dec Nat.eq_dec a (c b)) as [Hin|Hn].
  - destruct (up_suffix A (par T) c U b Hb a Hin) as [l E]. rewrite E.
    assert (Hca : c a = [a; p]).
    { rewrite (up_eq A (par T) c U a Ha), Hp, (up_eq A (par T) c U p rot_Ap), Hpp; reflexivity. }
    rewrite Hca. replace (l ++ [a; p]) with ((l ++ [a]) ++ [p]) by (rewrite <- app_assoc; reflexivity).
    rewrite removelast_last. apply last_last.
  - apply last_last.
Qed.
End Rotate.

(** ** become_root (C21) *)
(** The connections of a forest: inner region, outer region, edge from the first to the second. *)
Definition link (A : nat -> Prop) (T : treesM) (i o : nat) (e : cedge) : Prop :=
  exists b q, A b /\ par T b = Some q /\ inn T b = Some i /\
    ((out T b = Some o /\ i2o T b = e) \/ (out T q = Some o /\ ped T b = e)).
Lemma rot_link : forall A T c tg a p, tstr A T c tg -> A a -> par T a = Some p -> par T p = None ->
  forall i o e, link A T i o e <-> link A (rotate T a p) i o e.
Proof.
  intros A T c tg a p HT Ha Hp Hpp i o e. pose proof (rot_fields A T a p Ha Hp Hpp) as RF.
  assert (HAp : A p) by exact (up_L A (par T) c (ts_up _ _ _ _ HT) a p Ha Hp).
  assert (Hne : a <> p) by congruence.
  split; intros (b & q & Hb & Hq & Hi & Ho).
  - destruct (Nat.eq_dec b a) as [->|Hba].
    + exists p, a. rewrite Hp in Hq. injection Hq as <-.
      destruct (RF p) as (-> & -> & -> & -> & -> & _). destruct (RF a) as (_ & -> & _).
      rewrite Nat.eqb_refl. destruct (Nat.eqb_spec p a); [congruence|]. tauto.
    + assert (Hbp : b <> p) by congruence. exists b, q.
      destruct (RF b) as (-> & -> & -> & -> & -> & _). destruct (RF q) as (_ & -> & _).
      destruct (Nat.eqb_spec b p); [congruence|]. destruct (Nat.eqb_spec b a); [congruence|]. auto.
  - destruct (RF b) as (E1 & E2 & E3 & E4 & E5 & _). destruct (RF q) as (_ & E6 & _). rewrite E1 in Hi. rewrite E4 in Hq.
    rewrite E2, E3, E5, E6 in Ho.
    destruct (Nat.eqb_spec b p) as [->|Hbp].
    + injection Hq as <-. destruct (Nat.eqb_spec p a); [congruence|]. exists a, p. tauto.
    + destruct (Nat.eqb_spec b a) as [->|Hba]; [discriminate|]. exists b, q. auto.
Qed.
Record rerooted (A : nat -> Prop) (T T' : treesM) (c c' : nat -> list nat) (a : nat) : Prop := {
  rr_par : par T' a = None;
  rr_root : forall b, A b -> root c' b = if root c b =? root c a then a else root c b;
  rr_out : out T' = out T;
  rr_vis : vis T' = vis T;
  rr_other : forall b, A b -> ~ In b (c a) ->
     par T' b = par T b /\ ped T' b = ped T b /\ inn T' b = inn T b /\ i2o T' b = i2o T b /\ kid T' b = kid T b;
  rr_inn : forall i, (exists b, A b /\ root c b = root c a /\ inn T b = Some i) <->
                     (exists b, A b /\ root c b = root c a /\ inn T' b = Some i);
  (** the parent links on the path from [a] to the old root are reversed *)
  rr_path : forall b q, A b -> In b (c a) -> par T b = Some q -> par T' q = Some b;
  rr_link : forall i o e, link A T i o e <-> link A T' i o e }.

Lemma become_root_spec : forall k s a A c tg, tstr A (tr s) c tg -> A a ->
  safe (become_root k s a) (fun s' => s' = set_tr s (tr s') /\ exists c', tstr A (tr s') c' tg /\ rerooted A (tr s) (tr s') c c' a).
Proof.
  induction k; intros s a A c tg HT Ha; [exact I|]. cbn [become_root].
  pose proof (ts_up _ _ _ _ HT) as U.
  destruct (par (tr s) a) as [p|] eqn:Hp.
  2:{ cbn. split; [now destruct s|]. exists c. split; [assumption|].
      assert (Hr : root c a = a) by (eapply root_none; eauto).
      split; auto.
      - intros b Hb. rewrite Hr. destruct (Nat.eqb_spec (root c b) a); auto.
      - intros i. reflexivity.
      - intros b q Hb Hin E. rewrite (up_eq A _ c U a Ha), Hp in Hin. destruct Hin as [<-|[]]. congruence.
      - reflexivity. }
  assert (HAp : A p) by (eapply up_L; eauto).
  eapply safe_bind; [apply (IHk s p A c tg HT HAp)|]. intros s1 [Es1 (c1 & HT1 & RR)].
  assert (Hnin : ~ In a (c p)).
  { intros Hin. pose proof (up_strict A _ c U a p a Ha Hp Hin). lia. }
  destruct (rr_other _ _ _ _ _ _ RR a Ha Hnin) as (E1 & E2 & E3 & E4 & E5).
  rewrite E1, Hp. cbn [deref bindO].
  assert (Hp1 : par (tr s1) a = Some p) by congruence.
  assert (Hpp1 : par (tr s1) p = None) by exact (rr_par _ _ _ _ _ _ RR).
  cbn [safe].
  match goal with |- ?s2 = _ /\ _ => set (s2' := s2) end.
  assert (Et : tr s2' = rotate (tr s1) a p) by reflexivity.
  split. { unfold s2'. rewrite Es1 at 1. reflexivity. }
  exists (rot_up c1 a p). rewrite Et. split; [apply rot_tstr with (T := tr s1); auto|].
  pose proof (rot_fields A (tr s1) a p Ha Hp1 Hpp1) as RF.
  assert (Hrootp : root c p = root c a) by (symmetry; eapply root_step; eauto).
  assert (Hr1 : forall b, A b -> root c1 b = if root c b =? root c a then p else root c b).
  { intros b Hb. rewrite (rr_root _ _ _ _ _ _ RR b Hb), Hrootp. reflexivity. }
  split.
  - destruct (RF a) as (_ & _ & _ & -> & _). rewrite Nat.eqb_refl. destruct (Nat.eqb_spec a p); [|reflexivity]. subst. congruence.
  - intros b Hb. rewrite (rot_root A (tr s1) c1 tg HT1 a p Ha Hp1 Hpp1 b Hb), (Hr1 b Hb).
    destruct (Nat.eqb_spec (root c b) (root c a)) as [|Hne].
    + now rewrite Nat.eqb_refl.
    + destruct (Nat.eqb_spec (root c b) p) as [Hbp|]; [|reflexivity]. exfalso. apply Hne.
      rewrite <- Hrootp. assert (In (root c b) (c b)) by exact (proj1 (root_spec A _ c U b Hb)).
      rewrite Hbp in H. rewrite <- (root_up A _ c U b p Hb H). reflexivity.
  - transitivity (out (tr s1)); [|exact (rr_out _ _ _ _ _ _ RR)]. reflexivity.
  - transitivity (vis (tr s1)); [|exact (rr_vis _ _ _ _ _ _ RR)]. reflexivity.
  - intros b Hb Hn. assert (Hba : b <> a) by (intros ->; apply Hn; eapply up_self; eauto).
    assert (Hnp : ~ In b (c p)) by (intros Hin; apply Hn; rewrite (up_eq A _ c U a Ha), Hp; now right).
    assert (Hbp : b <> p) by (intros ->; apply Hnp; eapply up_self; eauto).
    destruct (RF b) as (-> & _ & -> & -> & -> & -> & _).
    destruct (Nat.eqb_spec b a); [congruence|]. destruct (Nat.eqb_spec b p); [congruence|].
    destruct (rr_other _ _ _ _ _ _ RR b Hb Hnp) as (? & ? & ? & ? & ?). repeat split; assumption.
  - intros i.
    transitivity (exists b, A b /\ root c b = root c a /\ inn (tr s1) b = Some i).
    { pose proof (rr_inn _ _ _ _ _ _ RR i) as X. rewrite Hrootp in X. exact X. }
    split.
    + intros (b & Hb & Hr & Hi). destruct (Nat.eq_dec b a) as [->|Hba].
      * exists p. repeat split; auto. destruct (RF p) as (-> & _).
        destruct (Nat.eqb_spec p a); [subst; congruence|]. now rewrite Nat.eqb_refl.
      * destruct (Nat.eq_dec b p) as [->|Hbp].
        { pose proof (ts_root _ _ _ _ HT1 p HAp Hpp1). congruence. }
        exists b. repeat split; auto. destruct (RF b) as (-> & _).
        destruct (Nat.eqb_spec b a); [congruence|]. destruct (Nat.eqb_spec b p); [congruence|]. assumption.
    + intros (b & Hb & Hr & Hi). destruct (RF b) as (E & _). rewrite E in Hi.
      destruct (Nat.eqb_spec b a); [discriminate|]. destruct (Nat.eqb_spec b p); [subst; exists a|exists b]; auto.
  - intros b q Hb Hin Hbq. destruct (RF q) as (_ & _ & _ & -> & _).
    rewrite (up_eq A _ c U a Ha), Hp in Hin. destruct Hin as [<-|Hin].
    + rewrite Hp in Hbq. injection Hbq as <-. now rewrite Nat.eqb_refl.
    + pose proof (rr_path _ _ _ _ _ _ RR b q Hb Hin Hbq) as E.
      destruct (Nat.eqb_spec q p) as [->|]; [congruence|].
      destruct (Nat.eqb_spec q a) as [->|]; [|exact E].
      exfalso. assert (In a (c b)) by (rewrite (up_eq A _ c U b Hb), Hbq; right; eapply up_self; eauto).
      apply Hnin. eapply up_trans; eauto.
  - intros i o e. rewrite (rr_link _ _ _ _ _ _ RR i o e). exact (rot_link A (tr s1) c1 tg a p HT1 Ha Hp1 Hpp1 i o e).
Qed.
(** Enough fuel. *)
Lemma become_root_total : forall k s a A c tg, tstr A (tr s) c tg -> A a -> length (c a) <= k ->
  exists s', become_root k s a = Ok s'.
Proof.
  induction k; intros s a A c tg HT Ha Hk; pose proof (ts_up _ _ _ _ HT) as U.
  - pose proof (up_eq A _ c U a Ha) as E. rewrite E in Hk. simpl in Hk. lia.
  - pose proof (become_root_spec (S k) s a A c tg HT Ha) as S. cbn [become_root] in *.
    destruct (par (tr s) a) as [p|] eqn:Hp; [|eauto].
    assert (HAp : A p) by (eapply up_L; eauto).
    destruct (IHk s p A c tg HT HAp) as [s1 E].
    { rewrite (up_eq A _ c U a Ha), Hp in Hk. simpl in Hk. lia. }
    rewrite E in *. cbn [bindO] in *. destruct (par (tr s1) a); cbn [deref bindO] in *; [eauto|destruct S].
Qed.
