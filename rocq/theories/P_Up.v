(** Paths to the root in a forest given by a parent function.  [c b] lists b, its parent, and so on. *)
From Coq Require Import List Arith Lia Bool.
Import ListNotations.

Definition up_ok (L : nat -> Prop) (p : nat -> option nat) (c : nat -> list nat) : Prop :=
  forall b, L b -> c b = b :: match p b with Some q => c q | None => [] end
                  /\ forall q, p b = Some q -> L q.

Section Up.
Variable L : nat -> Prop.
Variable p : nat -> option nat.
Variable c : nat -> list nat.
Hypothesis H : up_ok L p c.

Lemma up_eq : forall b, L b -> c b = b :: match p b with Some q => c q | None => [] end.
Proof. intros b Hb. apply (H b Hb). Qed.
Lemma up_L : forall b q, L b -> p b = Some q -> L q.
Proof. intros b q Hb. apply (H b Hb). Qed.
Lemma up_self : forall b, L b -> In b (c b).
Proof. intros b Hb. rewrite up_eq by assumption. now left. Qed.
Lemma up_nonnil : forall b, L b -> c b <> [].
Proof. intros b Hb. rewrite up_eq by assumption. discriminate. Qed.

(** Induction along the path. *)
Lemma up_ind : forall (P : nat -> Prop),
  (forall b, L b -> p b = None -> P b) ->
  (forall b q, L b -> p b = Some q -> L q -> P q -> P b) ->
  forall b, L b -> P b.
Proof.
  intros P H0 H1. assert (forall n b, length (c b) <= n -> L b -> P b).
  { induction n; intros b Hn Hb; rewrite up_eq in Hn by assumption; simpl in Hn; [lia|].
    destruct (p b) as [q|] eqn:E; [|now apply H0].
    apply (H1 b q); auto; [eapply up_L; eauto|]. apply IHn; [lia|]. eapply up_L; eauto. }
  intros b Hb. eapply H2; eauto.
Qed.

Lemma up_all_L : forall b, L b -> forall q, In q (c b) -> L q.
Proof.
  apply (up_ind (fun b => forall q, In q (c b) -> L q)).
  - intros b Hb E q Hq. rewrite up_eq, E in Hq by assumption. destruct Hq as [<-|[]]; assumption.
  - intros b r Hb E Hr IH q Hq. rewrite up_eq, E in Hq by assumption. destruct Hq as [<-|Hq]; auto.
Qed.

(** Suffix property. *)
Lemma up_suffix : forall b, L b -> forall q, In q (c b) -> exists l, c b = l ++ c q.
Proof.
  apply (up_ind (fun b => forall q, In q (c b) -> exists l, c b = l ++ c q)).
  - intros b Hb E q Hq. rewrite up_eq, E in Hq by assumption. destruct Hq as [<-|[]]. now exists [].
  - intros b r Hb E Hr IH q Hq. rewrite up_eq, E in Hq by assumption. destruct Hq as [<-|Hq]; [now exists []|].
    destruct (IH q Hq) as [l Hl]. exists (b :: l). rewrite up_eq, E by assumption. simpl. now rewrite Hl.
Qed.

Lemma up_length : forall b q, L b -> In q (c b) -> length (c q) <= length (c b).
Proof. intros b q Hb Hq. destruct (up_suffix b Hb q Hq) as [l ->]. rewrite app_length. lia. Qed.

Lemma up_strict : forall b q r, L b -> p b = Some q -> In r (c q) -> length (c r) < length (c b).
Proof.
  intros b q r Hb E Hr. rewrite (up_eq b), E by assumption. simpl.
  pose proof (up_length q r (up_L b q Hb E) Hr). lia.
Qed.

Lemma up_NoDup : forall b, L b -> NoDup (c b).
Proof.
  apply (up_ind (fun b => NoDup (c b))).
  - intros b Hb E. rewrite up_eq, E by assumption. repeat constructor. intros [].
  - intros b r Hb E Hr IH. rewrite up_eq, E by assumption. constructor; [|assumption].
    intros Hin. pose proof (up_strict b r b Hb E Hin). lia.
Qed.

Lemma up_antisym : forall a b, L a -> L b -> In a (c b) -> In b (c a) -> a = b.
Proof.
  intros a b Ha Hb H1 H2. destruct (up_suffix b Hb a H1) as [l1 E1]. destruct (up_suffix a Ha b H2) as [l2 E2].
  assert (length l1 = 0) by (apply (f_equal (@length nat)) in E1, E2; rewrite app_length in E1, E2; lia).
  destruct l1; [|discriminate]. simpl in E1. rewrite (up_eq a), (up_eq b) in E1 by assumption. congruence.
Qed.

Lemma up_trans : forall a b d, L a -> In b (c a) -> In d (c b) -> In d (c a).
Proof. intros a b d Ha Hb Hd. destruct (up_suffix a Ha b Hb) as [l ->]. apply in_or_app. now right. Qed.

(** Two ancestors of the same node are comparable. *)
Lemma up_comparable : forall b, L b -> forall x y, In x (c b) -> In y (c b) -> In x (c y) \/ In y (c x).
Proof.
  apply (up_ind (fun b => forall x y, In x (c b) -> In y (c b) -> In x (c y) \/ In y (c x))).
  - intros b Hb E x y Hx Hy. rewrite up_eq, E in Hx, Hy by assumption.
    destruct Hx as [<-|[]]; destruct Hy as [<-|[]]. left. now apply up_self.
  - intros b r Hb E Hr IH x y Hx Hy. assert (Hx' := Hx). assert (Hy' := Hy).
    rewrite up_eq, E in Hx, Hy by assumption.
    destruct Hx as [<-|Hx]; [right; assumption|]. destruct Hy as [<-|Hy]; [left; assumption|]. now apply IH.
Qed.

(** Inversion of membership through a child. *)
Lemma up_child : forall b, L b -> forall q, In q (c b) -> b <> q ->
  exists r, p r = Some q /\ In r (c b) /\ L r.
Proof.
  apply (up_ind (fun b => forall q, In q (c b) -> b <> q -> exists r, p r = Some q /\ In r (c b) /\ L r)).
  - intros b Hb E q Hq Hne. rewrite up_eq, E in Hq by assumption. destruct Hq as [<-|[]]. congruence.
  - intros b r Hb E Hr IH q Hq Hne. rewrite up_eq, E in Hq by assumption. destruct Hq as [<-|Hq]; [congruence|].
    destruct (Nat.eq_dec r q) as [->|Hne'].
    + exists b. repeat split; auto. now apply up_self.
    + destruct (IH q Hq Hne') as [z [Hz [Hz' Hz'']]]. exists z. repeat split; auto.
      rewrite up_eq, E by assumption. now right.
Qed.
Lemma up_child_unique : forall b x y q, L b -> In x (c b) -> In y (c b) -> p x = Some q -> p y = Some q -> x = y.
Proof.
  intros b x y q Hb Hx Hy Ex Ey.
  assert (Lx := up_all_L b Hb x Hx). assert (Ly := up_all_L b Hb y Hy).
  destruct (up_comparable b Hb x y Hx Hy) as [Hxy|Hxy].
  - rewrite (up_eq y), Ey in Hxy by assumption. destruct Hxy as [|Hxy]; [congruence|].
    pose proof (up_length q x (up_L y q Ly Ey) Hxy). rewrite (up_eq x), Ex in H0 by assumption. simpl in H0. lia.
  - rewrite (up_eq x), Ex in Hxy by assumption. destruct Hxy as [|Hxy]; [congruence|].
    pose proof (up_length q y (up_L x q Lx Ex) Hxy). rewrite (up_eq y), Ey in H0 by assumption. simpl in H0. lia.
Qed.

(** The root. *)
Definition root (b : nat) : nat := last (c b) b.
Lemma last_cons_nonnil : forall (A : Type) (a : A) l d d', l <> [] -> last (a :: l) d = last l d'.
Proof.
  intros A a l d d' Hl. destruct l as [|x l]; [congruence|]. simpl.
  revert x Hl. induction l; intros; [reflexivity|]. simpl in *. apply IHl. discriminate.
Qed.
Lemma root_none : forall b, L b -> p b = None -> root b = b.
Proof. intros b Hb E. unfold root. rewrite up_eq, E by assumption. reflexivity. Qed.
Lemma root_step : forall b q, L b -> p b = Some q -> root b = root q.
Proof.
  intros b q Hb E. unfold root. rewrite (up_eq b), E by assumption. apply last_cons_nonnil. apply up_nonnil.
  eapply up_L; eauto.
Qed.
Lemma root_spec : forall b, L b -> In (root b) (c b) /\ L (root b) /\ p (root b) = None.
Proof.
  apply (up_ind (fun b => In (root b) (c b) /\ L (root b) /\ p (root b) = None)).
  - intros b Hb E. rewrite root_none by assumption. repeat split; auto. now apply up_self.
  - intros b q Hb E Hq (I1 & I2 & I3). rewrite (root_step b q) by assumption. repeat split; auto.
    rewrite up_eq, E by assumption. now right.
Qed.
Lemma root_up : forall b q, L b -> In q (c b) -> root q = root b.
Proof.
  intros b q Hb. revert b Hb q. apply (up_ind (fun b => forall q, In q (c b) -> root q = root b)).
  - intros b Hb E q Hq. rewrite up_eq, E in Hq by assumption. destruct Hq as [<-|[]]. reflexivity.
  - intros b r Hb E Hr IH q Hq. rewrite up_eq, E in Hq by assumption. destruct Hq as [<-|Hq]; [reflexivity|].
    rewrite (root_step b r) by assumption. auto.
Qed.
Lemma up_root_only : forall b q, L b -> In q (c b) -> p q = None -> q = root b.
Proof.
  intros b q Hb Hq E. rewrite <- (root_up b q Hb Hq). symmetry. apply root_none; auto.
  eapply up_all_L; eauto.
Qed.
Lemma up_last : forall b, L b -> c b = removelast (c b) ++ [root b].
Proof. intros b Hb. unfold root. apply app_removelast_last. now apply up_nonnil. Qed.
Lemma up_split_unique : forall b q l l', c b = l ++ c q -> c b = l' ++ c q -> l = l'.
Proof. intros b q l l' E1 E2. rewrite E1 in E2. now apply app_inv_tail in E2. Qed.
End Up.
