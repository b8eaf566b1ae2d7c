(** Termination, part 1: computations that stop, given enough fuel. *)
From Coq Require Import List Arith Lia.
From Verif Require Import M_Base M_Core P_Tree.
Import ListNotations.
Local Open Scope nat_scope.

(** [m f] is the result with fuel [f].  From some amount of fuel on, the result is always the same. *)
Definition stops {A} (m : nat -> outcome A) : Prop := exists K v, v <> Fuel /\ forall f, K <= f -> m f = v.

Lemma stops_ret : forall A (v : outcome A), v <> Fuel -> stops (fun _ => v).
Proof. intros A v H. exists 0, v. auto. Qed.
Lemma stops_ok : forall A (x : A), stops (fun _ => Ok x).
Proof. intros. apply stops_ret. discriminate. Qed.
Lemma stops_deref : forall p, stops (fun _ => deref p).
Proof. intros [x|]; apply stops_ret; discriminate. Qed.
Lemma stops_ext : forall A (m m' : nat -> outcome A) K, (forall f, K <= f -> m f = m' f) -> stops m' -> stops m.
Proof. intros A m m' K E (K' & v & Hv & H). exists (Nat.max K K'), v. split; [assumption|]. intros f Hf. rewrite E by lia. apply H. lia. Qed.
Lemma stops_bind : forall A B (m : nat -> outcome A) (k : nat -> A -> outcome B) (P : A -> Prop), stops m -> (forall f, safe (m f) P) ->
  (forall x, P x -> stops (fun f => k f x)) -> stops (fun f => bindO (m f) (k f)).
Proof.
  intros A B m k P (K & v & Hv & H) HS HK. pose proof (HS K) as S1. rewrite (H K (le_n K)) in S1. destruct v as [x| | |]; try contradiction; try congruence.
  cbn [safe] in S1. destruct (HK x S1) as (K' & v' & Hv' & H'). exists (Nat.max K K'), v'. split; [assumption|].
  intros f Hf. rewrite H by lia. cbn [bindO]. apply H'. lia.
Qed.
(** The same without a specification. *)
Lemma stops_bind_any : forall A B (m : nat -> outcome A) (k : nat -> A -> outcome B), stops m ->
  (forall x, (exists K, forall f, K <= f -> m f = Ok x) -> stops (fun f => k f x)) -> stops (fun f => bindO (m f) (k f)).
Proof.
  intros A B m k (K & v & Hv & H) HK. destruct v as [x| | |]; [| | |congruence].
  - destruct (HK x (ex_intro _ K H)) as (K' & v' & Hv' & H'). exists (Nat.max K K'), v'. split; [assumption|].
    intros f Hf. rewrite H by lia. cbn [bindO]. apply H'. lia.
  - exists K, Throw. split; [discriminate|]. intros f Hf. now rewrite H.
  - exists K, UB. split; [discriminate|]. intros f Hf. now rewrite H.
Qed.
Lemma stops_shift : forall A (m : nat -> outcome A) d, stops m -> stops (fun f => m (f - d)).
Proof. intros A m d (K & v & Hv & H). exists (K + d), v. split; [assumption|]. intros f Hf. apply H. lia. Qed.

Lemma stops_sub0 : forall A (m : nat -> outcome A), stops (fun f => m (f - 0)) -> stops m.
Proof. intros A m H. eapply (stops_ext _ _ _ 0); [|exact H]. intros f _. cbv beta. now rewrite Nat.sub_0_r. Qed.

(** A recursive function with its own counter. *)
Lemma stops_fix : forall A (F : nat -> nat -> outcome A) (m : nat -> nat -> outcome A) d, (forall f k, F f (S k) = m f k) -> stops (fun f => m f (f - S d)) -> stops (fun f => F f (f - d)).
Proof.
  intros A F m d E H. eapply (stops_ext _ _ _ (S d)); [|exact H]. intros f Hf. cbv beta. destruct (f - d) as [|k] eqn:Ek; [lia|]. rewrite E. f_equal. lia.
Qed.

(** Folds. *)
Lemma fold_bad : forall A X (g : A -> X -> outcome A) l m, (forall a : A, m <> Ok a) -> fold_left (fun o x => bindO o (fun a => g a x)) l m = m.
Proof. intros A X g. induction l as [|y l IH]; intros m Hm; [reflexivity|]. cbn [fold_left]. destruct m; try (apply IH; assumption). congruence. Qed.
Lemma fold_cons : forall A X (g : A -> X -> outcome A) x l a,
  fold_left (fun o x => bindO o (fun a => g a x)) (x :: l) (Ok a) = bindO (g a x) (fun a' => fold_left (fun o x => bindO o (fun a => g a x)) l (Ok a')).
Proof.
  intros A X g x l a. cbn [fold_left bindO]. destruct (g a x) as [a'| | |]; [reflexivity| | |]; apply fold_bad; discriminate.
Qed.
Lemma stops_fold : forall A X (g : nat -> A -> X -> outcome A) l (I : list X -> A -> Prop) a, I [] a ->
  (forall don x rest a, l = don ++ x :: rest -> I don a -> stops (fun f => g f a x) /\ forall f, safe (g f a x) (I (don ++ [x]))) ->
  stops (fun f => fold_left (fun o x => bindO o (fun a => g f a x)) l (Ok a)).
Proof.
  intros A X g l I a H0 HS.
  assert (E : forall rest don a, l = don ++ rest -> I don a -> stops (fun f => fold_left (fun o x => bindO o (fun a => g f a x)) rest (Ok a))).
  { induction rest as [|x rest IH]; intros don a' El Hd; [apply stops_ok|].
    destruct (HS don x rest a' El Hd) as [S1 S2].
    apply (stops_ext _ _ (fun f => bindO (g f a' x) (fun a' => fold_left (fun o x => bindO o (fun a => g f a x)) rest (Ok a'))) 0); [intros; apply fold_cons|].
    eapply stops_bind; [exact S1|exact S2|]. intros a'' H''. apply (IH (don ++ [x])); [|assumption]. rewrite El, <- app_assoc. reflexivity. }
  apply (E l [] a eq_refl H0).
Qed.
Lemma stops_foldS : forall X (g : nat -> state -> X -> outcome state) l (I : list X -> state -> Prop) s, I [] s ->
  (forall don x rest s, l = don ++ x :: rest -> I don s -> stops (fun f => g f s x) /\ forall f, safe (g f s x) (I (don ++ [x]))) ->
  stops (fun f => foldS (g f) l s).
Proof. intros X g l I s. apply stops_fold. Qed.


(** A computation that stops, without error and with a result satisfying [P]. *)
Definition ends {A} (m : nat -> outcome A) (P : A -> Prop) : Prop := stops m /\ forall f, safe (m f) P.

Lemma ends_ok : forall A (x : A) (P : A -> Prop), P x -> ends (fun _ => Ok x) P.
Proof. intros A x P H. split; [apply stops_ok|intros f; exact H]. Qed.
Lemma ends_safe : forall A (m : nat -> outcome A) P f, ends m P -> safe (m f) P.
Proof. intros A m P f [_ H]. apply H. Qed.
Lemma ends_bind : forall A B (m : nat -> outcome A) (k : nat -> A -> outcome B) (P : A -> Prop) (Q : B -> Prop), ends m P ->
  (forall x, P x -> ends (fun f => k f x) Q) -> ends (fun f => bindO (m f) (k f)) Q.
Proof.
  intros A B m k P Q [H1 H2] HK. split.
  - eapply stops_bind; [exact H1|exact H2|]. intros x Hx. apply HK, Hx.
  - intros f. eapply safe_bind; [apply H2|]. intros x Hx. apply HK, Hx.
Qed.
Lemma ends_impl : forall A (m : nat -> outcome A) (P Q : A -> Prop), ends m P -> (forall x, P x -> Q x) -> ends m Q.
Proof. intros A m P Q [H1 H2] H. split; [assumption|]. intros f. eapply safe_impl; [apply H2|exact H]. Qed.
Lemma ends_ext : forall A (m m' : nat -> outcome A) P, (forall f, m f = m' f) -> ends m' P -> ends m P.
Proof. intros A m m' P E [H1 H2]. split; [eapply (stops_ext _ _ _ 0); [intros f _; apply E|exact H1]|]. intros f. rewrite E. apply H2. Qed.
Lemma ends_foldS : forall X (g : nat -> state -> X -> outcome state) l (I : list X -> state -> Prop) s, I [] s ->
  (forall don x rest s, l = don ++ x :: rest -> I don s -> ends (fun f => g f s x) (I (don ++ [x]))) ->
  ends (fun f => foldS (g f) l s) (I l).
Proof.
  intros X g l I s H0 HS.
  assert (E : forall rest don a, l = don ++ rest -> I don a -> ends (fun f => foldS (g f) rest a) (I l)).
  { induction rest as [|x rest IH]; intros don a' El Hd; [rewrite app_nil_r in El; subst don; apply ends_ok; assumption|].
    apply (ends_ext _ _ (fun f => bindO (g f a' x) (foldS (g f) rest))); [intros f; apply fold_cons|].
    eapply ends_bind; [exact (HS don x rest a' El Hd)|]. intros a'' H''. apply (IH (don ++ [x])); [|assumption]. rewrite El, <- app_assoc. reflexivity. }
  apply (E l [] s eq_refl H0).
Qed.

Lemma ends_fix : forall A (F m : nat -> nat -> outcome A) d P, (forall f k, F f (S k) = m f k) -> (forall f, F f 0 = Fuel) ->
  ends (fun f => m f (f - S d)) P -> ends (fun f => F f (f - d)) P.
Proof.
  intros A F m d P E E0 [H1 H2]. split; [eapply stops_fix; eassumption|]. intros f. destruct (f - d) as [|k] eqn:Ek; [rewrite E0; exact Logic.I|].
  rewrite E. replace k with (f - S d) by lia. apply H2.
Qed.
Lemma ends_fold : forall A X (g : nat -> A -> X -> outcome A) l (I : list X -> A -> Prop) a, I [] a ->
  (forall don x rest a, l = don ++ x :: rest -> I don a -> ends (fun f => g f a x) (I (don ++ [x]))) ->
  ends (fun f => fold_left (fun o x => bindO o (fun a => g f a x)) l (Ok a)) (I l).
Proof.
  intros A X g l I a H0 HS.
  assert (E : forall rest don a, l = don ++ rest -> I don a -> ends (fun f => fold_left (fun o x => bindO o (fun a => g f a x)) rest (Ok a)) (I l)).
  { induction rest as [|x rest IH]; intros don a' El Hd; [rewrite app_nil_r in El; subst don; apply ends_ok; assumption|].
    apply (ends_ext _ _ (fun f => bindO (g f a' x) (fun a' => fold_left (fun o x => bindO o (fun a => g f a x)) rest (Ok a')))); [intros f; apply fold_cons|].
    eapply ends_bind; [exact (HS don x rest a' El Hd)|]. intros a'' H''. apply (IH (don ++ [x])); [|assumption]. rewrite El, <- app_assoc. reflexivity. }
  apply (E l [] a eq_refl H0).
Qed.
