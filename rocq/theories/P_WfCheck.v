(** A decision procedure for [wf_graph], for examples. *)
From Coq Require Import ZArith NArith List Bool Arith Lia.
From Verif Require Import M_Core S_Core.
Import ListNotations.
Local Open Scope nat_scope.

Definition onat_eqb (x y : option nat) : bool :=
  match x, y with None, None => true | Some a, Some b => a =? b | _, _ => false end.
Lemma onat_eqb_spec : forall x y, reflect (x = y) (onat_eqb x y).
Proof. intros [a|] [b|]; simpl; try (constructor; congruence). destruct (Nat.eqb_spec a b); constructor; congruence. Qed.
Definition nbr_eqb (x y : nbr) : bool :=
  let '(a, w, o) := x in let '(b, w', o') := y in onat_eqb a b && (w =? w')%Z && (o =? o')%N.
Lemma nbr_eqb_spec : forall x y, nbr_eqb x y = true -> x = y.
Proof.
  intros [[a w] o] [[b w'] o'] H. simpl in H. apply andb_prop in H as [H H3]. apply andb_prop in H as [H1 H2].
  destruct (onat_eqb_spec a b); [|discriminate]. apply Z.eqb_eq in H2. apply N.eqb_eq in H3. congruence.
Qed.
Fixpoint nodupb (l : list (option nat)) : bool :=
  match l with [] => true | x :: l' => negb (existsb (onat_eqb x) l') && nodupb l' end.
Lemma nodupb_spec : forall l, nodupb l = true -> NoDup l.
Proof.
  induction l as [|x l IH]; simpl; intros H; constructor; apply andb_prop in H as [H1 H2]; [|auto].
  intros Hin. apply negb_true_iff in H1. enough (existsb (onat_eqb x) l = true) by congruence.
  apply existsb_exists. exists x. split; [exact Hin|]. destruct (onat_eqb_spec x x); congruence.
Qed.
Definition wf_node (G : graph) (u : nat) : bool :=
  forallb (fun e => let '(x, w, o) := e in
    (0 <=? w)%Z && Z.even w &&
    match x with None => true | Some v => negb (u =? v) && existsb (nbr_eqb (Some u, w, o)) (nbrs G v) end) (nbrs G u) &&
  nodupb (map (fun e => fst (fst e)) (nbrs G u)) &&
  match nbrs G u with [] => true | _ :: r => forallb (fun e => match fst (fst e) with None => false | _ => true end) r end.
Definition wf_check (G : graph) : bool := forallb (wf_node G) (seq 0 (length G)).
Lemma wf_check_sound : forall G, wf_check G = true -> wf_graph G.
Proof.
  intros G H. assert (HN : forall u, wf_node G u = true).
  { intros u. destruct (Nat.lt_ge_cases u (length G)) as [L|L].
    - apply (proj1 (forallb_forall _ _) H). apply in_seq. lia.
    - unfold wf_node, nbrs. rewrite nth_overflow by lia. reflexivity. }
  assert (HF : forall u x w o, In (x, w, o) (nbrs G u) ->
    (0 <= w)%Z /\ Z.even w = true /\ match x with None => True | Some v => u <> v /\ In (Some u, w, o) (nbrs G v) end).
  { intros u x w o Hin. specialize (HN u). unfold wf_node in HN. apply andb_prop in HN as [HN _]. apply andb_prop in HN as [HN _].
    pose proof (proj1 (forallb_forall _ _) HN _ Hin) as E. cbv beta iota in E. apply andb_prop in E as [E E3]. apply andb_prop in E as [E1 E2].
    apply Z.leb_le in E1. split; [exact E1|]. split; [exact E2|]. destruct x as [v|]; [|exact I]. apply andb_prop in E3 as [E3 E4].
    apply negb_true_iff, Nat.eqb_neq in E3. split; [exact E3|]. apply existsb_exists in E4 as (y & Hy & Ey). apply nbr_eqb_spec in Ey. now subst y. }
  split.
  - intros u x w o Hin. destruct (HF u x w o Hin) as (A & B & _). now split.
  - intros u v w o Hin. apply (HF u (Some v) w o Hin).
  - intros u w o Hin. destruct (HF u (Some u) w o Hin) as (_ & _ & A & _). now apply A.
  - intros u. specialize (HN u). unfold wf_node in HN. apply andb_prop in HN as [HN _]. apply andb_prop in HN as [_ HN]. now apply nodupb_spec.
  - intros u e rest E w o Hin. specialize (HN u). unfold wf_node in HN. apply andb_prop in HN as [_ HN]. rewrite E in HN.
    pose proof (proj1 (forallb_forall _ _) HN _ Hin) as X. discriminate.
Qed.
