(** Sums over lists. *)
From Coq Require Import ZArith List Bool Arith Lia Permutation.
Import ListNotations.
Local Open Scope Z_scope.

Fixpoint zsum {A} (f : A -> Z) (l : list A) : Z :=
  match l with [] => 0 | a :: l' => f a + zsum f l' end.

Lemma zsum_app : forall A (f : A -> Z) l l', zsum f (l ++ l') = zsum f l + zsum f l'.
Proof. induction l; intros; simpl; [reflexivity|]. rewrite IHl. lia. Qed.
Lemma zsum_ext : forall A (f g : A -> Z) l, (forall a, In a l -> f a = g a) -> zsum f l = zsum g l.
Proof. induction l; intros H; simpl; [reflexivity|]. rewrite H, IHl; auto with datatypes. Qed.
Lemma zsum_le : forall A (f g : A -> Z) l, (forall a, In a l -> f a <= g a) -> zsum f l <= zsum g l.
Proof.
  induction l; intros H; simpl; [lia|]. assert (f a <= g a) by auto with datatypes.
  assert (zsum f l <= zsum g l) by auto with datatypes. lia.
Qed.
Lemma zsum_add : forall A (f g : A -> Z) l, zsum (fun a => f a + g a) l = zsum f l + zsum g l.
Proof. induction l; simpl; lia. Qed.
Lemma zsum_0 : forall A (f : A -> Z) l, (forall a, In a l -> f a = 0) -> zsum f l = 0.
Proof. induction l; intros H; simpl; [reflexivity|]. rewrite H, IHl; auto with datatypes. Qed.
Lemma zsum_nonneg : forall A (f : A -> Z) l, (forall a, In a l -> 0 <= f a) -> 0 <= zsum f l.
Proof.
  induction l; intros H; simpl; [lia|]. assert (0 <= f a) by auto with datatypes.
  assert (0 <= zsum f l) by auto with datatypes. lia.
Qed.
Lemma zsum_swap : forall A B (f : A -> B -> Z) l m,
  zsum (fun a => zsum (f a) m) l = zsum (fun b => zsum (fun a => f a b) l) m.
Proof.
  induction l; intros; simpl.
  - symmetry. apply zsum_0. reflexivity.
  - rewrite IHl, <- zsum_add. reflexivity.
Qed.
Lemma zsum_perm : forall A (f : A -> Z) l l', Permutation l l' -> zsum f l = zsum f l'.
Proof. induction 1; simpl; lia. Qed.
Lemma zsum_map : forall A B (h : A -> B) (f : B -> Z) l, zsum f (map h l) = zsum (fun a => f (h a)) l.
Proof. induction l; simpl; [reflexivity|]. rewrite IHl. reflexivity. Qed.
Lemma zsum_rev : forall A (f : A -> Z) l, zsum f (rev l) = zsum f l.
Proof. induction l; simpl; [reflexivity|]. rewrite zsum_app. simpl. lia. Qed.

(** Sum over a list of a function vanishing outside a sublist. *)
Lemma filter_id : forall A (p : A -> bool) l, (forall x, In x l -> p x = true) -> filter p l = l.
Proof. induction l; intros H; simpl; [reflexivity|]. rewrite H by now left. rewrite IHl; auto with datatypes. Qed.
Lemma zsum_remove : forall (f : nat -> Z) l a, In a l -> NoDup l ->
  zsum f l = f a + zsum f (filter (fun x => negb (x =? a)%nat) l).
Proof.
  induction l; intros x Hin Hnd; [contradiction|]. simpl. inversion Hnd; subst.
  destruct Hin as [->|Hin].
  - rewrite Nat.eqb_refl. simpl. f_equal.
    rewrite filter_id; [reflexivity|]. intros z Hz. destruct (Nat.eqb_spec z x); [subst; contradiction|reflexivity].
  - assert (a <> x) by (intros ->; contradiction). destruct (Nat.eqb_spec a x); [contradiction|]. simpl.
    rewrite (IHl x) by assumption. lia.
Qed.
Lemma zsum_support : forall (f : nat -> Z) l m,
  NoDup l -> NoDup m -> incl m l -> (forall a, In a l -> ~ In a m -> f a = 0) -> zsum f l = zsum f m.
Proof.
  intros f l m. revert l. induction m; intros l Hl Hm Hi H0.
  - simpl. apply zsum_0. intros. apply H0; auto.
  - inversion Hm; subst. rewrite (zsum_remove f l a); auto with datatypes. simpl. f_equal.
    apply IHm; auto.
    + now apply NoDup_filter.
    + intros z Hz. apply filter_In. split; [apply Hi; now right|].
      destruct (Nat.eqb_spec z a); [subst; contradiction|reflexivity].
    + intros z Hz Hn. apply filter_In in Hz as [Hz Hne]. apply H0; auto. intros [->|]; [|contradiction].
      rewrite Nat.eqb_refl in Hne. discriminate.
Qed.

