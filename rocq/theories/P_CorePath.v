(** Paths as lists of edges; cancelling repeated edges. *)
From Coq Require Import ZArith NArith List Bool Arith Lia Permutation.
From Verif Require Import M_Core S_Core P_Sum P_Dual P_CoreExt2.
Import ListNotations.
Local Open Scope Z_scope.

Lemma degree_app : forall v F F', degree v (F ++ F') = (degree v F + degree v F')%nat.
Proof. induction F; intros; simpl; [reflexivity|]. rewrite IHF. lia. Qed.
Lemma weight_app : forall F F', weight_of (F ++ F') = weight_of F + weight_of F'.
Proof. induction F as [|[[[u x] w] o] F IH]; intros; simpl; [reflexivity|]. rewrite IH. lia. Qed.
Lemma obs_app : forall F F', obs_of (F ++ F') = N.lxor (obs_of F) (obs_of F').
Proof. induction F as [|[[[u x] w] o] F IH]; intros; cbn [obs_of app]; [reflexivity|]. now rewrite IH, N.lxor_assoc. Qed.

Section Path.
Variable G : graph.
Hypothesis WF : wf_graph G.

(** The edge between two neighbours, named from its smaller end. *)
Lemma edge_of : forall u v w o, In (Some v, w, o) (nbrs G u) -> exists e, is_edge G e /\ weight_of [e] = w /\ obs_of [e] = o /\
  forall z, ends_at z e = ((if u =? z then 1 else 0) + (if v =? z then 1 else 0))%nat.
Proof.
  intros u v w o H. assert (Hne : u <> v) by (intros ->; exact (wf_noloop G WF _ _ _ H)). destruct (Nat.lt_ge_cases u v) as [L|L].
  - exists (u, Some v, w, o). split; [split; assumption|]. cbn [weight_of obs_of]. rewrite Z.add_0_r, N.lxor_0_r. repeat split.
  - exists (v, Some u, w, o). split; [split; [apply (wf_sym G WF); assumption|lia]|]. cbn [weight_of obs_of]. rewrite Z.add_0_r, N.lxor_0_r. repeat split. intros z. cbn [ends_at]. lia.
Qed.
Lemma walk_edges : forall a b l o, walk G a b l o -> exists F, Forall (is_edge G) F /\ weight_of F = l /\ obs_of F = o /\
  forall z, Nat.odd (degree z F) = xorb (a =? z)%nat (b =? z)%nat.
Proof.
  intros a b l o H. induction H as [|v l o x w ob H IH Hin].
  - exists []. repeat split; [constructor|]. intros z. simpl. now rewrite xorb_nilpotent.
  - destruct IH as (F & F1 & F2 & F3 & F4). destruct (edge_of v x w ob Hin) as (e & E1 & E2 & E3 & E4). exists (F ++ [e]).
    split; [apply Forall_app; auto|]. rewrite weight_app, obs_app, F2, F3, E2, E3. repeat split. intros z. rewrite degree_app, Nat.odd_add, F4. cbn [degree]. rewrite E4, Nat.add_0_r, Nat.odd_add.
    destruct (v =? z)%nat, (x =? z)%nat, (a =? z)%nat; reflexivity.
Qed.
Lemma path_edges : forall a x l o, path G a x l o -> exists F, Forall (is_edge G) F /\ weight_of F = l /\ obs_of F = o /\
  forall z, Nat.odd (degree z F) = xorb (a =? z)%nat (match x with Some b => b =? z | None => false end)%nat.
Proof.
  intros a [b|] l o H; [apply walk_edges; assumption|]. destruct H as (v & l' & o' & w & ob & H & Hin & -> & ->).
  destruct (walk_edges a v l' o' H) as (F & F1 & F2 & F3 & F4). exists (F ++ [(v, None, w, ob)]). split; [apply Forall_app; split; [assumption|]; constructor; [now split|constructor]|].
  rewrite weight_app, obs_app, F2, F3. cbn [weight_of obs_of]. rewrite Z.add_0_r, N.lxor_0_r. repeat split. intros z. rewrite degree_app, Nat.odd_add, F4. cbn [degree ends_at]. rewrite !Nat.add_0_r.
  destruct (v =? z)%nat, (a =? z)%nat; reflexivity.
Qed.

Lemma count_odd_In : forall l z, NoDup l -> Nat.odd (count_occ Nat.eq_dec l z) = true <-> In z l.
Proof.
  intros l z H. pose proof (proj1 (NoDup_count_occ Nat.eq_dec l) H z) as C. rewrite (count_occ_In Nat.eq_dec l z). destruct (count_occ Nat.eq_dec l z) as [|[|n]]; simpl; split; intros; try lia; try discriminate; auto.
Qed.
Lemma paths_edges : forall l len, paths G l len -> exists F, Forall (is_edge G) F /\ weight_of F = len /\ obs_of F = xorl l /\
  forall z, Nat.odd (degree z F) = Nat.odd (count_occ Nat.eq_dec (tips l) z).
Proof.
  induction l as [|e l IH]; intros len H; cbn [paths] in H.
  - subst len. exists []. repeat split. constructor.
  - destruct H as (a & w & E1 & E2 & E3). destruct (IH _ E3) as (F & F1 & F2 & F3 & F4). destruct (path_edges a (eto e) w (eobs e) E2) as (F' & P1 & P2 & P3 & P4).
    exists (F' ++ F). split; [apply Forall_app; auto|]. rewrite weight_app, obs_app, F2, F3, P2, P3. split; [lia|]. split; [reflexivity|]. intros z. rewrite degree_app, Nat.odd_add, F4, P4.
    cbn [tips flat_map]. fold (tips l). rewrite E1. cbn [opt]. rewrite !count_occ_app, !Nat.odd_add. f_equal.
    destruct (Nat.eqb_spec a z), (eto e) as [b|]; cbn [opt count_occ]; repeat (match goal with |- context [Nat.eq_dec ?x ?y] => destruct (Nat.eq_dec x y) end); try destruct (Nat.eqb_spec b z); try congruence; try reflexivity.
Qed.
Lemma paths_explain : forall l len ev, paths G l len -> Permutation (tips l) ev -> NoDup ev -> exists F, explains G F ev /\ weight_of F = len /\ obs_of F = xorl l.
Proof.
  intros l len ev H P ND. destruct (paths_edges l len H) as (F & F1 & F2 & F3 & F4). exists F. repeat split; auto; intros X.
  - rewrite F4 in X. apply (Permutation_in _ P). apply count_odd_In; [|assumption]. apply (Permutation_NoDup (Permutation_sym P) ND).
  - rewrite F4. apply count_odd_In; [apply (Permutation_NoDup (Permutation_sym P) ND)|]. now apply (Permutation_in _ (Permutation_sym P)).
Qed.

(** ** Cancelling repeated edges *)
Definition edge_dec : forall a b : edge, {a = b} + {a <> b}.
Proof. repeat decide equality. Defined.
Definition toggle (e : edge) (F : list edge) : list edge := if in_dec edge_dec e F then remove edge_dec e F else e :: F.
Definition cancel (F : list edge) : list edge := fold_right toggle [] F.

Lemma remove_split : forall e F, NoDup F -> In e F -> Permutation F (e :: remove edge_dec e F) /\ NoDup (remove edge_dec e F).
Proof.
  intros e F. induction F as [|x F IH]; intros ND H; [destruct H|]. apply NoDup_cons_iff in ND as [N1 N2]. cbn [remove]. destruct (edge_dec e x) as [<-|Hne].
  - rewrite notin_remove by assumption. split; [reflexivity|assumption].
  - destruct H as [->|H]; [congruence|]. destruct (IH N2 H) as [P Q]. split.
    + etransitivity; [apply perm_skip; exact P|]. apply perm_swap.
    + constructor; [|assumption]. intros X. apply in_remove in X as [X _]. contradiction.
Qed.
Lemma degree_perm : forall v F F', Permutation F F' -> degree v F = degree v F'.
Proof. intros v F F' P. induction P; simpl; lia. Qed.
Lemma weight_perm : forall F F', Permutation F F' -> weight_of F = weight_of F'.
Proof. intros F F' P. induction P as [|[[[a b] c] d]|[[[a b] c] d] [[[a' b'] c'] d']|]; simpl; lia. Qed.
Lemma obs_perm : forall F F', Permutation F F' -> obs_of F = obs_of F'.
Proof. intros F F' P. induction P as [|[[[a b] c] d] ? ? ? IH|[[[a b] c] d] [[[a' b'] c'] d']|]; cbn [obs_of]; try congruence. rewrite <- !N.lxor_assoc. f_equal. apply N.lxor_comm. Qed.
Lemma toggle_spec : forall e F, NoDup F -> Forall (is_edge G) (e :: F) -> NoDup (toggle e F) /\ Forall (is_edge G) (toggle e F) /\
  weight_of (toggle e F) <= weight_of (e :: F) /\ obs_of (toggle e F) = obs_of (e :: F) /\ forall v, Nat.odd (degree v (toggle e F)) = Nat.odd (degree v (e :: F)).
Proof.
  intros e F ND HF. unfold toggle. destruct (in_dec edge_dec e F) as [H|H].
  - destruct (remove_split e F ND H) as [P Q]. split; [assumption|]. split; [|split; [|split]].
    + apply Forall_forall. intros x Hx. apply in_remove in Hx as [Hx _]. rewrite Forall_forall in HF. apply HF. now right.
    + assert (W : weight_of F = weight_of (e :: remove edge_dec e F)) by (apply weight_perm; assumption). assert (0 <= weight_of [e]).
      { apply Forall_inv in HF. destruct e as [[[u x] w] o]. cbn [weight_of]. destruct HF as [Hin _]. pose proof (wf_weight G WF _ _ _ _ Hin). lia. }
      destruct e as [[[u x] w] o]. cbn [weight_of] in *. lia.
    + assert (W : obs_of F = obs_of (e :: remove edge_dec e F)) by (apply obs_perm; assumption). destruct e as [[[u x] w] o]. cbn [obs_of] in *. rewrite W, <- N.lxor_assoc, N.lxor_nilpotent, N.lxor_0_l. reflexivity.
    + intros v. cbn [degree]. rewrite (degree_perm v _ _ P). cbn [degree]. rewrite !Nat.odd_add. now destruct (Nat.odd (ends_at v e)), (Nat.odd (degree v (remove edge_dec e F))).
  - split; [constructor; assumption|]. split; [assumption|]. split; [lia|]. split; reflexivity.
Qed.
Lemma cancel_spec : forall F, Forall (is_edge G) F -> NoDup (cancel F) /\ Forall (is_edge G) (cancel F) /\ weight_of (cancel F) <= weight_of F /\ obs_of (cancel F) = obs_of F /\
  forall v, Nat.odd (degree v (cancel F)) = Nat.odd (degree v F).
Proof.
  induction F as [|e F IH]; intros HF; cbn [cancel fold_right].
  - repeat split; [constructor|constructor|lia].
  - destruct (IH (Forall_inv_tail HF)) as (I1 & I2 & I3 & I4 & I5). fold (cancel F). destruct (toggle_spec e (cancel F) I1) as (T1 & T2 & T3 & T4 & T5); [constructor; [now apply Forall_inv in HF|assumption]|].
    split; [assumption|]. split; [assumption|]. destruct e as [[[u x] w] o]. cbn [weight_of obs_of] in *. split; [lia|]. split; [congruence|]. intros v. rewrite T5. cbn [degree]. rewrite !Nat.odd_add. now rewrite I5.
Qed.
Lemma cancel_explains : forall F ev, explains G F ev -> exists F', NoDup F' /\ explains G F' ev /\ weight_of F' <= weight_of F /\ obs_of F' = obs_of F.
Proof.
  intros F ev [H1 H2]. destruct (cancel_spec F H1) as (C1 & C2 & C3 & C4 & C5). exists (cancel F). split; [assumption|]. split; [|now split]. split; [assumption|]. intros v. rewrite C5. apply H2.
Qed.
End Path.
