From Coq Require Import List Arith Bool Permutation Sorted Lia.
From Verif Require Import M_Base M_Arena S_Arena.
Import ListNotations.

Definition AInv (a : arena) (live : list nat) : Prop :=
  Permutation (allocated a) (available a ++ live) /\ NoDup (allocated a) /\ (forall p, In p (allocated a) -> p < brk a).

Lemma ainv_new : AInv arena_new [].
Proof. repeat split; simpl; try constructor; tauto. Qed.

Lemma ainv_alloc a live : AInv a live ->
  exists p a1, arena_alloc a = Ok (p, a1) /\ AInv a1 (p :: live) /\ ~ In p live /\
    (available a <> [] -> allocated a1 = allocated a).
Proof.
  intros (HP & ND & HB). unfold arena_alloc. destruct (available a) as [|q l] eqn:E; simpl.
  - exists (brk a), (mkA (brk a :: allocated a) [] (S (brk a))). split; [reflexivity|]. simpl in *.
    assert (N : ~ In (brk a) (allocated a)) by (intros H; apply HB in H; lia).
    split; [|split].
    + repeat split; simpl.
      * now constructor.
      * now constructor.
      * intros p [<-|H]; [lia|]. apply HB in H. lia.
    + intros H. apply N. eapply Permutation_in; [symmetry; exact HP|exact H].
    + congruence.
  - rewrite E. exists q, (mkA (allocated a) l (brk a)). split; [reflexivity|].
    assert (ND2 : NoDup ((q :: l) ++ live)) by (eapply Permutation_NoDup; eauto).
    simpl in ND2. inversion ND2; subst.
    split; [|split].
    + repeat split; simpl; auto. rewrite HP. simpl. apply Permutation_middle.
    + intros H. apply H1. apply in_or_app. now right.
    + reflexivity.
Qed.

Lemma ainv_del a live p rest : AInv a live -> Permutation live (p :: rest) -> AInv (arena_del a p) rest.
Proof.
  intros (HP & ND & HB) H. repeat split; simpl; auto.
  rewrite HP, H. symmetry. apply Permutation_middle.
Qed.

Lemma ainv_run a live ops a' live' : arena_run a live ops a' live' -> AInv a live -> AInv a' live'.
Proof.
  induction 1; intros I; auto.
  - apply IHarena_run. destruct (ainv_alloc _ _ I) as (p' & a1' & E & I' & _). rewrite H in E. inversion E; subst. exact I'.
  - apply IHarena_run. eapply ainv_del; eauto.
Qed.

Lemma insert_perm x l : Permutation (insert x l) (x :: l).
Proof.
  induction l as [|y l IH]; simpl; [reflexivity|]. destruct (x <=? y); [reflexivity|].
  rewrite IH. apply perm_swap.
Qed.
Lemma sort_perm l : Permutation (sort l) l.
Proof. induction l as [|x l IH]; simpl; [reflexivity|]. rewrite insert_perm. now constructor. Qed.
Lemma insert_sorted x l : StronglySorted le l -> StronglySorted le (insert x l).
Proof.
  induction 1 as [|y l S IH F]; simpl; [repeat constructor|].
  destruct (Nat.leb_spec x y).
  - constructor; [constructor; auto|]. constructor; [lia|]. eapply Forall_impl; [|exact F]. simpl; intros; lia.
  - constructor; [exact IH|]. eapply Permutation_Forall; [symmetry; apply insert_perm|]. constructor; [lia|exact F].
Qed.
Lemma sort_sorted l : StronglySorted le (sort l).
Proof. induction l; simpl; [constructor|now apply insert_sorted]. Qed.

Lemma destroy_loop_spec A : forall B, StronglySorted le A -> StronglySorted le B -> NoDup A -> NoDup B ->
  (forall x, In x B -> In x A) -> forall x, In x (destroy_loop A B) <-> (In x A /\ ~ In x B).
Proof.
  induction A as [|a A IH]; intros B SA SB NA NB Sub x; simpl; [tauto|].
  inversion SA as [|? ? SA' FA]; subst. inversion NA as [|? ? NiA NA']; subst.
  destruct B as [|b B].
  - rewrite (IH [] SA' SB NA' NB ltac:(intros ? [])) || simpl.
    split; [intros [->|H]|intros [[->|H] _]]; try tauto; simpl in *.
    + apply (IH [] SA' SB NA' NB ltac:(intros ? [])) in H. tauto.
    + right. apply (IH [] SA' SB NA' NB ltac:(intros ? [])). tauto.
  - inversion SB as [|? ? SB' FB]; subst. inversion NB as [|? ? NiB NB']; subst.
    assert (Hab : a <= b).
    { destruct (Sub b (or_introl eq_refl)) as [->|Hb]; [lia|]. rewrite Forall_forall in FA. now apply FA. }
    destruct (Nat.eqb_spec b a) as [->|N].
    + rewrite (IH B SA' SB' NA' NB').
      * simpl. split; [intros [H1 H2]; split; [tauto|intros [<-|H]; tauto]|intros [[<-|H1] H2]; tauto].
      * intros y Hy. destruct (Sub y (or_intror Hy)) as [<-|]; [tauto|assumption].
    + assert (Hna : ~ In a (b :: B)).
      { intros [E|H]; [congruence|]. rewrite Forall_forall in FB. specialize (FB _ H). lia. }
      assert (Sub' : forall y, In y (b :: B) -> In y A).
      { intros y Hy. destruct (Sub y Hy) as [<-|]; [tauto|assumption]. }
      pose proof (IH (b :: B) SA' SB NA' NB Sub' x) as IHx. cbn [In] in *.
      split; [intros [E|H]; [subst x; tauto|apply IHx in H; tauto]|intros [[E|H1] H2]; [now left|right; apply IHx; tauto]].
Qed.

Lemma destroy_loop_NoDup A : forall B, NoDup A -> NoDup (destroy_loop A B).
Proof.
  induction A as [|a A IH]; intros B NA; simpl; [constructor|]. inversion NA; subst.
  assert (Sub : forall B y, In y (destroy_loop A B) -> In y A).
  { clear. induction A as [|a A IH]; intros B y; simpl; [tauto|].
    destruct B as [|b B]; simpl; [intros [->|H]; [now left|right; eauto]|].
    destruct (b =? a); simpl; [intros H; right; eauto|intros [->|H]; [now left|right; eauto]]. }
  destruct B as [|b B]; [constructor; [intros H; apply Sub in H; tauto|auto]|].
  destruct (b =? a); [auto|constructor; [intros H; apply Sub in H; tauto|auto]].
Qed.

Lemma pool_safe ops a live : arena_run arena_new [] ops a live ->
  NoDup live /\ length (allocated a) = length (available a) + length live /\
  exists p a1, arena_alloc a = Ok (p, a1) /\ ~ In p live /\ (available a <> [] -> allocated a1 = allocated a).
Proof.
  intros R. pose proof (ainv_run _ _ _ _ _ R ainv_new) as I.
  destruct (ainv_alloc _ _ I) as (p & a1 & E & _ & N & Hr). destruct I as (HP & ND & HB).
  assert (ND2 : NoDup (available a ++ live)) by (eapply Permutation_NoDup; eauto).
  split; [|split].
  - clear -ND2. induction (available a); simpl in *; [assumption|]. inversion ND2; auto.
  - rewrite (Permutation_length HP). apply app_length.
  - exists p, a1. auto.
Qed.

Lemma NoDup_app_parts {X} (l1 l2 : list X) : NoDup (l1 ++ l2) -> NoDup l1 /\ NoDup l2 /\ (forall x, In x l1 -> In x l2 -> False).
Proof.
  induction l1 as [|a l1 IH]; simpl; intros H; [repeat split; [constructor|assumption|tauto]|].
  inversion H; subst. destruct (IH H3) as (N1 & N2 & D). repeat split; auto.
  - constructor; [intros I; apply H2, in_or_app; now left|assumption].
  - intros x [->|I] I2; [apply H2, in_or_app; now right|eauto].
Qed.

Lemma pool_destroy ops a live : arena_run arena_new [] ops a live ->
  Permutation (fst (arena_destroy a)) live /\ Permutation (snd (arena_destroy a)) (allocated a) /\ NoDup (allocated a).
Proof.
  intros R. destruct (ainv_run _ _ _ _ _ R ainv_new) as (HP & ND & HB).
  assert (ND2 : NoDup (available a ++ live)) by (eapply Permutation_NoDup; eauto).
  destruct (NoDup_app_parts _ _ ND2) as (N1 & N2 & Dj).
  split; [|split]; [|apply sort_perm|exact ND]. simpl.
  assert (NA : NoDup (sort (allocated a))) by (eapply Permutation_NoDup; [symmetry; apply sort_perm|exact ND]).
  assert (NB : NoDup (sort (available a))) by (eapply Permutation_NoDup; [symmetry; apply sort_perm|exact N1]).
  apply NoDup_Permutation; [now apply destroy_loop_NoDup|exact N2|].
  intros x. rewrite destroy_loop_spec; auto using sort_sorted.
  - assert (S1 : In x (sort (allocated a)) <-> In x (available a ++ live)).
    { split; intros H.
      - eapply Permutation_in; [exact HP|]. eapply Permutation_in; [apply sort_perm|exact H].
      - eapply Permutation_in; [symmetry; apply sort_perm|]. eapply Permutation_in; [symmetry; exact HP|exact H]. }
    assert (S2 : In x (sort (available a)) <-> In x (available a)).
    { split; apply Permutation_in; [apply sort_perm|symmetry; apply sort_perm]. }
    rewrite S1, S2, in_app_iff. split; [tauto|]. intros H. split; [now right|]. intros H'. eauto.
  - intros y Hy. eapply Permutation_in; [symmetry; apply sort_perm|]. eapply Permutation_in; [symmetry; exact HP|].
    apply in_or_app. left. eapply Permutation_in; [apply sort_perm|exact Hy].
Qed.
