(** A copy of a graph in which the virtual boundary is a declared boundary node: right replies for the copy are right for the graph. *)
From Coq Require Import Reals ZArith List Bool Arith Lia Lra Permutation Classical_Prop.
From Verif Require Import P_Pipeline3 S_Spread P_Spread M_Base M_Bits S_Bits M_Merge M_UserGraph S_UserGraph P_UserGraph S_Pipeline P_Pipeline M_Matching S_Matching P_Matching.
Import ListNotations.
Local Open Scope nat_scope.

Definition other_end (m : nat) (e : uedge RN) : nat := match node2 e with Some v => v | None => m end.
Definition copy_of (m : nat) (e e' : uedge RN) : Prop :=
  weight e' = weight e /\ (forall k, Nat.odd (count_occ Nat.eq_dec (obs e') k) = Nat.odd (count_occ Nat.eq_dec (obs e) k)) /\
  ((node1 e' = node1 e /\ node2 e' = Some (other_end m e)) \/ (node1 e' = other_end m e /\ node2 e' = Some (node1 e))).
Record copies (g g' : ugraph RN) : Prop := {
  cp_inv : Inv g; cp_flags : flags_ok RN g; cp_inv' : Inv g'; cp_flags' : flags_ok RN g';
  cp_to : forall e, In e (edges g) -> exists e', In e' (edges g') /\ copy_of (num_nodes g) e e';
  cp_from : forall e', In e' (edges g') -> exists e, In e (edges g) /\ copy_of (num_nodes g) e e';
  cp_bnodes : forall v, v < num_nodes g -> (In v (bnodes g') <-> In v (bnodes g));
  cp_virtual : forall e, In e (edges g) -> node2 e = None -> In (num_nodes g) (bnodes g');
  cp_detectors : num_detectors g' = num_detectors g;
  cp_length : length (bnodes g) <= length (bnodes g');
  cp_nodes : num_nodes g <= num_nodes g';
  cp_nobs : nobs g' = nobs g;
  cp_ids : fault_ids_in_range g -> fault_ids_in_range g'
}.

Lemma perm_follow : forall A B (R : A -> B -> Prop) (l l1 : list B), Permutation l1 l -> forall k, Forall2 R k l -> exists k1, Permutation k1 k /\ Forall2 R k1 l1.
Proof.
  intros A B R l l1 P. induction P as [|x l1 l2 P IH|x y l1|l1 l2 l3 P1 IH1 P2 IH2]; intros k H.
  - inversion H; subst. exists []. auto.
  - inversion H as [|a ? k' ? H1 H2]; subst. destruct (IH k' H2) as (k1 & P1 & F1). exists (a :: k1). split; [now constructor|now constructor].
  - inversion H as [|a ? k' ? H1 H2]; subst. inversion H2 as [|b ? k'' ? H3 H4]; subst. exists (b :: a :: k''). split; [apply perm_swap|]. constructor; [exact H3|]. now constructor.
  - destruct (IH2 k H) as (k2 & P3 & F2). destruct (IH1 k2 F2) as (k1 & P4 & F1). exists k1. split; [now transitivity k2|exact F1].
Qed.

Section Copy.
Variables g g' : ugraph RN.
Hypothesis CP : copies g g'.
Let m := num_nodes g.
Notation copy := (copy_of m).

Lemma g_ends : forall e, In e (edges g) -> node1 e < m /\ forall v, node2 e = Some v -> v < m.
Proof. intros e He. destruct (cp_inv _ _ CP) as (_ & HN & _). exact (HN e He). Qed.
Lemma g_bound : forall v, In v (bnodes g) -> v < m.
Proof. exact (proj2 (cp_flags _ _ CP)). Qed.
Lemma simple_eq : forall h : ugraph RN, Inv h -> forall e f, In e (edges h) -> In f (edges h) -> joins e (node1 f) (node2 f) -> e = f.
Proof. intros h (_ & _ & S) e f He Hf J. apply In_nth_error in He as [i Hi]. apply In_nth_error in Hf as [j Hj]. pose proof (S i j e f Hi Hj J). subst j. congruence. Qed.
Lemma copy_fun : forall e e1 e2, In e1 (edges g') -> In e2 (edges g') -> copy e e1 -> copy e e2 -> e1 = e2.
Proof.
  intros e e1 e2 H1 H2 (_ & _ & C1) (_ & _ & C2). apply (simple_eq g' (cp_inv' _ _ CP)); try assumption. unfold joins.
  destruct C1 as [[A1 A2]|[A1 A2]], C2 as [[B1 B2]|[B1 B2]]; rewrite A1, A2, B1, B2; auto.
Qed.
Lemma other_some : forall e, In e (edges g) -> other_end m e <> m -> node2 e = Some (other_end m e).
Proof. intros e He H. unfold other_end in *. destruct (node2 e); [reflexivity|contradiction]. Qed.
Lemma copy_inj : forall e f e', In e (edges g) -> In f (edges g) -> copy e e' -> copy f e' -> e = f.
Proof.
  intros e f e' He Hf (_ & _ & C1) (_ & _ & C2). apply (simple_eq g (cp_inv _ _ CP)); try assumption. unfold joins.
  destruct (g_ends e He) as [E1 E2]. destruct (g_ends f Hf) as [F1 F2].
  assert (X : (node1 f = node1 e /\ other_end m f = other_end m e) \/ (node1 f = other_end m e /\ other_end m f = node1 e)).
  { destruct C1 as [[A1 A2]|[A1 A2]], C2 as [[B1 B2]|[B1 B2]]; rewrite A1 in B1; rewrite A2 in B2; injection B2 as B2; auto. }
  unfold other_end in X. destruct (node2 e) as [v|] eqn:V, (node2 f) as [w|] eqn:W.
  - destruct X as [[X1 X2]|[X1 X2]]; [left; split; congruence|right; split; congruence].
  - specialize (E2 v eq_refl). destruct X as [[X1 X2]|[X1 X2]]; lia.
  - specialize (F2 w eq_refl). destruct X as [[X1 X2]|[X1 X2]]; lia.
  - destruct X as [[X1 X2]|[X1 X2]]; [left; split; congruence|lia].
Qed.

(** ** Sets of edges *)
Lemma lift : forall F, incl F (edges g) -> exists F', Forall2 copy F F' /\ incl F' (edges g').
Proof.
  induction F as [|e F IH]; intros H; [exists []; split; [constructor|intros x []]|]. destruct IH as (F' & H1 & H2); [intros x Hx; apply H; now right|].
  destruct (cp_to _ _ CP e (H e (or_introl eq_refl))) as (e' & H3 & H4). exists (e' :: F'). split; [now constructor|]. intros x [<-|Hx]; auto.
Qed.
Lemma lower : forall F', incl F' (edges g') -> exists F, Forall2 copy F F' /\ incl F (edges g).
Proof.
  induction F' as [|e' F' IH]; intros H; [exists []; split; [constructor|intros x []]|]. destruct IH as (F & H1 & H2); [intros x Hx; apply H; now right|].
  destruct (cp_from _ _ CP e' (H e' (or_introl eq_refl))) as (e & H3 & H4). exists (e :: F). split; [now constructor|]. intros x [<-|Hx]; auto.
Qed.
Lemma f2_in_r : forall (F F' : list (uedge RN)), Forall2 copy F F' -> forall e', In e' F' -> exists e, In e F /\ copy e e'.
Proof. induction 1 as [|e f F F' C H IH]; intros x []; [subst; exists e; split; [now left|assumption]|]. destruct (IH x H0) as (y & H1 & H2). exists y. split; [now right|assumption]. Qed.
Lemma f2_in_l : forall (F F' : list (uedge RN)), Forall2 copy F F' -> forall e, In e F -> exists e', In e' F' /\ copy e e'.
Proof. induction 1 as [|e f F F' C H IH]; intros x []; [subst; exists f; split; [now left|assumption]|]. destruct (IH x H0) as (y & H1 & H2). exists y. split; [now right|assumption]. Qed.
Lemma nodup_up : forall F F', Forall2 copy F F' -> incl F (edges g) -> NoDup F -> NoDup F'.
Proof.
  induction 1 as [|e f F F' C H IH]; intros I ND; [constructor|]. apply NoDup_cons_iff in ND as [N1 N2]. constructor.
  - intros Hf. destruct (f2_in_r _ _ H f Hf) as (x & Hx & Cx). apply N1. rewrite (copy_inj e x f); auto; [apply I; now left|apply I; now right].
  - apply IH; [intros x Hx; apply I; now right|exact N2].
Qed.
Lemma nodup_down : forall F F', Forall2 copy F F' -> incl F' (edges g') -> NoDup F' -> NoDup F.
Proof.
  induction 1 as [|e f F F' C H IH]; intros I ND; [constructor|]. apply NoDup_cons_iff in ND as [N1 N2]. constructor.
  - intros He. destruct (f2_in_l _ _ H e He) as (x & Hx & Cx). apply N1. rewrite (copy_fun e f x); auto; [apply I; now left|apply I; now right].
  - apply IH; [intros x Hx; apply I; now right|exact N2].
Qed.
Lemma copy_ends : forall v e e', v <> m -> copy e e' -> edge_ends v e' = edge_ends v e.
Proof.
  intros v e e' Hv (_ & _ & C). unfold edge_ends. destruct C as [[-> ->]|[-> ->]]; unfold other_end; destruct (node2 e) as [x|]; try reflexivity; try lia.
  - destruct (Nat.eqb_spec m v); [congruence|]. lia.
  - destruct (Nat.eqb_spec m v); [congruence|]. lia.
Qed.
Lemma f2_degree : forall v F F', v <> m -> Forall2 copy F F' -> total_degree v F' = total_degree v F.
Proof. intros v F F' Hv. induction 1 as [|e f F F' C H IH]; [reflexivity|]. cbn [total_degree fold_right]. fold (total_degree v F) (total_degree v F'). rewrite IH, (copy_ends v e f Hv C). reflexivity. Qed.
Lemma f2_weight : forall F F', Forall2 copy F F' -> total_weight F' = total_weight F.
Proof. induction 1 as [|e f F F' C H IH]; [reflexivity|]. cbn [total_weight fold_right]. fold (total_weight F) (total_weight F'). rewrite IH. now rewrite (proj1 C). Qed.
Lemma f2_len : forall F F', Forall2 copy F F' -> length F' = length F.
Proof. induction 1; [reflexivity|]. cbn. now f_equal. Qed.
Lemma f2_flips : forall k F F', Forall2 copy F F' -> flips_observable k F' = flips_observable k F.
Proof. intros k. induction 1 as [|e f F F' C H IH]; [reflexivity|]. cbn [flips_observable fold_right]. fold (flips_observable k F) (flips_observable k F'). now rewrite IH, (proj1 (proj2 C)). Qed.
Lemma degree_zero : forall v F, incl F (edges g) -> m <= v -> total_degree v F = 0.
Proof.
  intros v F I L. induction F as [|e F IH]; [reflexivity|]. cbn [total_degree fold_right]. fold (total_degree v F). rewrite IH by (intros x Hx; apply I; now right). destruct (g_ends e (I e (or_introl eq_refl))) as [E1 E2].
  unfold edge_ends. destruct (Nat.eqb_spec (node1 e) v); [lia|]. destruct (node2 e) as [x|]; [|reflexivity]. specialize (E2 x eq_refl). destruct (Nat.eqb_spec x v); [lia|reflexivity].
Qed.
Lemma degree_m : forall F F', Forall2 copy F F' -> incl F (edges g) -> ~ In m (bnodes g') -> total_degree m F' = 0.
Proof.
  intros F F' H. induction H as [|e f F F' C H IH]; intros I NB; [reflexivity|]. cbn [total_degree fold_right]. fold (total_degree m F'). rewrite IH by first [assumption | intros x Hx; apply I; now right].
  assert (He : In e (edges g)) by (apply I; now left). destruct (g_ends e He) as [E1 E2]. destruct (node2 e) as [x|] eqn:EX; [|elim NB; exact (cp_virtual _ _ CP e He EX)]. specialize (E2 x eq_refl).
  destruct C as (_ & _ & C). unfold other_end in C. rewrite EX in C. unfold edge_ends. destruct C as [[-> ->]|[-> ->]]; destruct (Nat.eqb_spec (node1 e) m), (Nat.eqb_spec x m); lia.
Qed.
Lemma corrects_up : forall F F' evs, Forall2 copy F F' -> incl F' (edges g') -> corrects g F evs -> corrects g' F' evs.
Proof.
  intros F F' evs H I (ND & I0 & O). split; [now apply (nodup_up F F')|]. split; [exact I|]. intros v NB. destruct (Nat.lt_ge_cases v m) as [L|L].
  - rewrite (f2_degree v F F') by first [lia | assumption]. apply O. now rewrite <- (cp_bnodes _ _ CP v L).
  - assert (E : total_degree v F' = 0). { destruct (Nat.eq_dec v m) as [->|N]; [now apply (degree_m F F')|]. rewrite (f2_degree v F F') by assumption. now apply degree_zero. }
    rewrite E. rewrite <- O by (intros B; apply g_bound in B; lia). now rewrite degree_zero.
Qed.
Lemma corrects_down : forall F F' evs, Forall2 copy F F' -> incl F (edges g) -> (forall v, In v evs -> v < m) -> corrects g' F' evs -> corrects g F evs.
Proof.
  intros F F' evs H I EV (ND & I0 & O). split; [now apply (nodup_down F F')|]. split; [exact I|]. intros v NB. destruct (Nat.lt_ge_cases v m) as [L|L].
  - rewrite <- (f2_degree v F F') by first [lia | assumption]. apply O. now rewrite (cp_bnodes _ _ CP v L).
  - rewrite degree_zero by assumption. split; [discriminate|]. intros Hv. apply EV in Hv. lia.
Qed.

(** ** Weights *)
Lemma all_up : forall Q : R -> Prop, (forall e, In e (edges g) -> Q (weight e)) -> forall e', In e' (edges g') -> Q (weight e').
Proof. intros Q H e' He'. destruct (cp_from _ _ CP e' He') as (e & He & (-> & _)). now apply H. Qed.
Lemma near_down : forall F F' evs, Forall2 copy F F' -> near_best g' F' evs -> near_best g F evs.
Proof.
  intros F F' evs H NB F1 C1. destruct (lift F1 (proj1 (proj2 C1))) as (F1' & H1 & I1). destruct (NB F1' (corrects_up F1 F1' evs H1 I1 C1)) as [N1 N2].
  rewrite (f2_weight F F' H), (f2_weight F1 F1' H1), (f2_len F F' H), (f2_len F1 F1' H1) in *. split.
  - intros M HM. apply N1. exact (all_up (fun w => Rabs w <= M)%R HM).
  - intros HZ. apply N2. exact (all_up (fun w => exists z, w = IZR z) HZ).
Qed.
Lemma reported_down : forall w F F', Forall2 copy F F' -> weight_reported g' w F' -> weight_reported g w F.
Proof.
  intros w F F' H [N1 N2]. rewrite (f2_weight F F' H) in *. rewrite (f2_len F F' H) in N1. split.
  - intros M HM. apply N1. exact (all_up (fun w => Rabs w <= M)%R HM).
  - intros HZ. apply N2. exact (all_up (fun w => exists z, w = IZR z) HZ).
Qed.

(** ** Replies *)
Lemma row_down : forall (P : nat -> Prop) row w, (forall v, P v -> v < m) -> right_row g' P row w -> right_row g P row w.
Proof.
  intros P row w HP (evs & F' & E & -> & C & NB & WR). destruct (lower F' (proj1 (proj2 C))) as (F & H & I). exists evs, F. split; [exact E|]. split.
  - rewrite (cp_nobs _ _ CP). apply map_ext. intros i. now rewrite (f2_flips i F F' H).
  - split; [apply (corrects_down F F'); try assumption; intros v Hv; apply HP, E, Hv|]. split; [now apply (near_down F F')|now apply (reported_down w F F')].
Qed.
Lemma shot_down : forall ps pp shot x, (forall v, shot_event ps shot v -> v < m) -> right_shot g' ps pp shot x -> right_shot g ps pp shot x.
Proof. intros ps pp shot x HP (row & H1 & H2). exists row. split; [now apply row_down|]. now rewrite <- (cp_nobs _ _ CP). Qed.
Lemma not_boundary : forall v, ~ In v (bnodes g') -> ~ In v (bnodes g).
Proof. intros v N B. apply N. apply (cp_bnodes _ _ CP); [now apply g_bound|exact B]. Qed.
Lemma boundary_down : forall v, v <> m -> In v (bnodes g') -> v < m -> In v (bnodes g).
Proof. intros v _ B L. now apply (cp_bnodes _ _ CP). Qed.
Lemma at_down : forall e e', In e (edges g) -> copy e e' -> In (other_end m e) (bnodes g') -> at_boundary g (node2 e).
Proof. intros e e' He C B. unfold other_end in B. unfold at_boundary. destruct (node2 e) as [v|] eqn:E; [|exact I]. apply (cp_bnodes _ _ CP v); [exact (proj2 (g_ends e He) v E)|exact B]. Qed.
Lemma bedge_down : forall u e e', In e (edges g) -> copy e e' -> boundary_edge_of g' u e' -> boundary_edge_of g u e.
Proof.
  intros u e e' He C [NB B]. split; [now apply not_boundary|]. pose proof (at_down e e' He C) as AD. destruct C as (_ & _ & C). destruct (g_ends e He) as [E1 E2].
  assert (BN : forall v, v < m -> In v (bnodes g') -> In v (bnodes g)) by (intros v L; apply (cp_bnodes _ _ CP v L)).
  assert (OM : other_end m e = u -> node2 e = Some u). { intros <-. unfold other_end in *. destruct (node2 e) eqn:EN; [reflexivity|]. elim NB. exact (cp_virtual _ _ CP e He EN). }
  destruct C as [[C1 C2]|[C1 C2]], B as [[B1 B2]|[B1 B2]]; rewrite C1 in *; rewrite C2 in *.
  - left. split; [exact B1|]. apply AD. exact B2.
  - injection B1 as B1. right. split; [now apply OM|]. now apply BN.
  - right. split; [now apply OM|]. apply BN; [exact E1|exact B2].
  - injection B1 as B1. left. split; [exact B1|]. now apply AD.
Qed.
Lemma shows_down : forall p e e', In e (edges g) -> copy e e' -> shows g' p e' -> shows g p e.
Proof.
  intros [u [v|]] e e' He C; unfold shows; cbn [fst snd]; [|now apply bedge_down]. intros (B1 & B2 & J). split; [now apply not_boundary|]. split; [now apply not_boundary|]. destruct C as (_ & _ & C).
  assert (OM : forall x, ~ In x (bnodes g') -> other_end m e = x -> node2 e = Some x). { intros x NB <-. unfold other_end in *. destruct (node2 e) eqn:EN; [reflexivity|]. elim NB. exact (cp_virtual _ _ CP e He EN). }
  destruct C as [[C1 C2]|[C1 C2]], J as [[J1 J2]|[J1 J2]]; rewrite C1 in *; rewrite C2 in *; injection J2 as J2.
  - left. split; [exact J1|]. now apply OM.
  - right. split; [exact J1|]. now apply OM.
  - right. split; [exact J2|]. now apply OM.
  - left. split; [exact J2|]. now apply OM.
Qed.
Lemma shows_all_down : forall out L L', Forall2 copy L L' -> incl L (edges g) -> Forall2 (shows g') out L' -> Forall2 (shows g) out L.
Proof.
  intros out L L' H. revert out. induction H as [|e f L L' C H IH]; intros out I S; inversion S as [|p ? ps ? S1 S2]; subst; [constructor|]. constructor; [apply (shows_down _ e f); try assumption; apply I; now left|]. apply IH; [intros x Hx; apply I; now right|assumption].
Qed.
Lemma edges_down : forall (P : nat -> Prop) out, (forall v, P v -> v < m) -> right_edges g' P out -> right_edges g P out.
Proof.
  intros P out HP (evs & F' & E & (L' & PL & SL) & C & NB). destruct (lower F' (proj1 (proj2 C))) as (F & H & I). destruct (perm_follow _ _ copy F' L' PL F H) as (L & P1 & H1). exists evs, F. split; [exact E|]. split.
  - exists L. split; [exact P1|]. apply (shows_all_down out L L' H1); [|exact SL]. intros x Hx. apply I. exact (Permutation_in x P1 Hx).
  - split; [|now apply (near_down F F')]. apply (corrects_down F F'); try assumption. intros v Hv. apply HP, E, Hv.
Qed.
Lemma joins_down : forall p Q', (forall v, In v (ends_of p) -> v < m) -> joins_pair g' p Q' -> exists Q, Forall2 copy Q Q' /\ joins_pair g p Q.
Proof.
  intros [u [v|]] Q' HP; unfold joins_pair; cbn [fst snd].
  - intros [C NB]. destruct (lower Q' (proj1 (proj2 C))) as (Q & H & I). exists Q. split; [exact H|]. split; [apply (corrects_down Q Q'); assumption|]. intros e He. destruct (f2_in_l Q Q' H e He) as (e' & He' & (_ & _ & J)). destruct (NB e' He') as [N1 N2].
    assert (BN : forall x, In x (bnodes g) -> In x (bnodes g')) by (intros x Hx; apply (cp_bnodes _ _ CP x); [now apply g_bound|exact Hx]).
    assert (AT : at_boundary g (node2 e) -> In (other_end m e) (bnodes g')). { unfold at_boundary, other_end. destruct (node2 e) as [x|] eqn:EN; [apply BN|]. intros _. exact (cp_virtual _ _ CP e (I e He) EN). }
    destruct J as [[J1 J2]|[J1 J2]]; rewrite J1 in *; rewrite J2 in *; unfold at_boundary in N2; split; auto.
  - intros C. destruct (lower Q' (proj1 (proj2 C))) as (Q & H & I). exists Q. split; [exact H|]. apply (corrects_down Q Q'); assumption.
Qed.
Lemma joins_all_down : forall out Qs', (forall v, In v (flat_map ends_of out) -> v < m) -> Forall2 (joins_pair g') out Qs' -> exists Qs, Forall2 copy (concat Qs) (concat Qs') /\ Forall2 (joins_pair g) out Qs.
Proof.
  intros out Qs' HP H. induction H as [|p Q' out Qs' J H IH]; [exists []; split; constructor|]. destruct IH as (Qs & H1 & H2); [intros v Hv; apply HP; cbn; apply in_or_app; now right|].
  destruct (joins_down p Q') as (Q & H3 & H4); [intros v Hv; apply HP; cbn; apply in_or_app; now left|exact J|]. exists (Q :: Qs). split; [cbn; now apply Forall2_app|now constructor].
Qed.
Lemma pairs_down : forall (P : nat -> Prop) out, (forall v, P v -> v < m) -> right_pairs g' P out -> right_pairs g P out.
Proof.
  intros P out HP (ND & EN & evs & Qs' & E & J & NB). split; [exact ND|]. split.
  - intros v. rewrite EN. split; intros [A B]; (split; [exact A|]); intros C; apply B; apply (cp_bnodes _ _ CP v); auto.
  - destruct (joins_all_down out Qs') as (Qs & H1 & H2); [intros v Hv; apply HP; now apply EN|exact J|]. exists evs, Qs. split; [exact E|]. split; [exact H2|]. now apply (near_down (concat Qs) (concat Qs')).
Qed.
Lemma dict_down : forall (P : nat -> Prop) t, (forall v, P v -> v < m) -> right_dict g' P t -> right_dict g P t.
Proof. intros P t HP (out & H1 & H2). exists out. split; [now apply pairs_down|exact H2]. Qed.

(** ** Questions *)
Lemma shows_up : forall p e e', In e (edges g) -> copy e e' -> shows g p e -> shows g' p e'.
Proof.
  intros [u x] e e' He C. destruct (g_ends e He) as [E1 E2]. destruct C as (_ & _ & C).
  assert (NB : forall v, v < m -> ~ In v (bnodes g) -> ~ In v (bnodes g')) by (intros v Hv N I; apply N; now apply (cp_bnodes _ _ CP v Hv)).
  destruct x as [v|]; unfold shows; cbn [fst snd].
  - intros (B1 & B2 & J). assert (UV : u < m /\ v < m) by (destruct J as [[<- J]|[<- J]]; (split; [|]); first [exact E1|exact (E2 _ J)]). split; [now apply NB|]. split; [now apply NB|].
    assert (OE : forall y, node2 e = Some y -> other_end m e = y) by (intros y Ey; unfold other_end; now rewrite Ey).
    destruct J as [[J1 J2]|[J1 J2]]; rewrite (OE _ J2), J1 in C; tauto.
  - intros [B1 J]. destruct J as [[J1 J2]|[J1 J2]].
    + split; [apply NB; [now rewrite <- J1|exact B1]|]. assert (OB : In (other_end m e) (bnodes g')).
      { unfold other_end. destruct (node2 e) as [v|] eqn:Ev; [apply (cp_bnodes _ _ CP v); [now apply E2|exact J2]|exact (cp_virtual _ _ CP e He Ev)]. }
      destruct C as [[C1 C2]|[C1 C2]]; [left|right]; rewrite C1, C2; [split; [exact J1|exact OB]|split; [now rewrite J1|exact OB]].
    + split; [apply NB; [now apply E2|exact B1]|]. assert (OE : other_end m e = u) by (unfold other_end; now rewrite J1). assert (NI : In (node1 e) (bnodes g')) by (apply (cp_bnodes _ _ CP (node1 e)); [exact E1|exact J2]).
      destruct C as [[C1 C2]|[C1 C2]]; [right|left]; rewrite C1, C2, OE; (split; [reflexivity|exact NI]).
Qed.
Lemma f2_absolute : forall F F', Forall2 copy F F' -> absolute_weight F' = absolute_weight F.
Proof. induction 1 as [|e f F F' C H IH]; [reflexivity|]. change (Rabs (weight f) + absolute_weight F' = Rabs (weight e) + absolute_weight F)%R. rewrite IH, (proj1 C). reflexivity. Qed.
Lemma integer_up : integer_weights g -> integer_weights g'.
Proof. intros H e' He'. destruct (cp_from _ _ CP e' He') as (e & He & Ce). rewrite (proj1 Ce). now apply H. Qed.
Lemma compact_up : compact g -> compact g'.
Proof.
  intros [H|[HI H]]; [left|right; split; [now apply integer_up|]].
  - revert H. apply few_covers; intros p (e & He & S); left.
    + destruct (cp_to _ _ CP e He) as (e' & He' & Ce). exists e'. split; [exact He'|now apply (shows_up p e e')].
    + destruct (cp_from _ _ CP e He) as (e0 & He0 & Ce). exists e0. split; [exact He0|now apply (shows_down p e0 e)].
  - revert H. apply close_covers; intros p c (e & He & S & ->); left.
    + destruct (cp_to _ _ CP e He) as (e' & He' & Ce). exists e'. split; [exact He'|]. split; [now apply (shows_up p e e')|now rewrite (proj1 Ce)].
    + destruct (cp_from _ _ CP e He) as (e0 & He0 & Ce). exists e0. split; [exact He0|]. split; [now apply (shows_down p e0 e)|now rewrite (proj1 Ce)].
Qed.
Lemma negative_copies : forall L, exists L', length L' <= length L /\ (absolute_weight L' <= absolute_weight L)%R /\ forall e e', In e L -> In e' (edges g') -> copy e e' -> In e' L'.
Proof.
  induction L as [|e L (L' & H1 & A & H2)]; [exists []; split; [cbn; lia|split; [apply Rle_refl|intros e e' []]]|]. destruct (classic (exists e', In e' (edges g') /\ copy e e')) as [(x & Hx & Cx)|N].
  - exists (x :: L'). split; [cbn; lia|]. split; [change (Rabs (weight x) + absolute_weight L' <= Rabs (weight e) + absolute_weight L)%R; rewrite (proj1 Cx); lra|].
    intros f f' [<-|Hf] Hf' C; [left; exact (copy_fun e x f' Hx Hf' Cx C)|right; now apply (H2 f f')].
  - exists L'. split; [cbn; lia|]. split; [change (absolute_weight L' <= Rabs (weight e) + absolute_weight L)%R; pose proof (Rabs_pos (weight e)); lra|].
    intros f f' [<-|Hf] Hf' C; [elim N; eauto|now apply (H2 f f')].
Qed.
Lemma manageable_up : forall F F', Forall2 copy F F' -> manageable g F -> manageable g' F'.
Proof.
  intros F F' H [(L & HL & LE)|HC]; [left|right; now apply compact_up]. destruct (negative_copies L) as (L' & L1 & LA & L2). exists L'. split.
  - intros e' He' W. destruct (cp_from _ _ CP e' He') as (e & He & Ce). apply (L2 e e'); try assumption. apply HL; [exact He|]. now rewrite <- (proj1 Ce).
  - destruct LE as [LE|[HI LE]]; [left; rewrite app_length in *; rewrite (f2_len F F' H); lia|right]. split; [now apply integer_up|]. rewrite absolute_app in *. rewrite (f2_absolute F F' H). lra.
Qed.
Lemma explainable_up : forall P, explainable g P -> explainable g' P /\ forall v, P v -> v < m.
Proof.
  intros P (evs & F & E & C & L). destruct (lift F (proj1 (proj2 C))) as (F' & H & I). split.
  - exists evs, F'. split; [exact E|]. split; [now apply (corrects_up F F')|]. exact (manageable_up F F' H L).
  - intros v Pv. apply E in Pv. exact (explained_range g F evs (cp_inv _ _ CP) (cp_flags _ _ CP) C v Pv).
Qed.
Lemma askable_up : forall P, askable g P -> askable g' P /\ forall v, P v -> v < m.
Proof.
  intros P [H|[HC HR]]; [destruct (explainable_up P H); split; [now left|assumption]|]. split; [|exact HR]. right. split; [now apply compact_up|]. intros v Hv. specialize (HR v Hv). pose proof (cp_nodes _ _ CP). lia.
Qed.
Lemma solvable_same : forall P : nat -> Prop, (forall v, P v -> v < m) -> (solvable g P <-> solvable g' P).
Proof.
  intros P HP. split.
  - intros (evs & F & E & C). destruct (lift F (proj1 (proj2 C))) as (F' & H & I). exists evs, F'. split; [exact E|]. now apply (corrects_up F F').
  - intros (evs & F' & E & C). destruct (lower F' (proj1 (proj2 C))) as (F & H & I). exists evs, F. split; [exact E|]. apply (corrects_down F F'); try assumption. intros v Hv. apply HP, E, Hv.
Qed.
Lemma harmless_up : conversion_harmless g -> conversion_harmless g'.
Proof.
  intros [H1 H2]. split.
  - intros e' He' B1 B2. destruct (cp_from _ _ CP e' He') as (e & He & Ce). rewrite (proj1 Ce). pose proof (at_down e e' He Ce) as AD. destruct (g_ends e He) as [E1 _]. apply H1; [exact He| |].
    + destruct Ce as (_ & _ & [[C1 C2]|[C1 C2]]); apply (cp_bnodes _ _ CP); try exact E1; [now rewrite <- C1|rewrite C2 in B2; exact B2].
    + apply AD. destruct Ce as (_ & _ & [[C1 C2]|[C1 C2]]); [rewrite C2 in B2; exact B2|rewrite C1 in B1; exact B1].
  - intros e' f' u He' Hf' N B1 B2. destruct (cp_from _ _ CP e' He') as (e & He & Ce). destruct (cp_from _ _ CP f' Hf') as (f & Hf & Cf). rewrite (proj1 Ce), (proj1 Cf). apply (H2 e f u He Hf).
    + intros <-. apply N. exact (copy_fun e e' f' He' Hf' Ce Cf).
    + exact (bedge_down u e e' He Ce B1).
    + exact (bedge_down u f f' Hf Cf B2).
Qed.
Lemma usable_up : usable g -> usable g'.
Proof.
  intros (U1 & U2 & U3). split; [now apply (cp_ids _ _ CP)|]. split; [|now apply harmless_up]. destruct U2 as [U2|(e & He & U2)].
  - left. intros e' He'. destruct (cp_from _ _ CP e' He') as (e & He & Ce). rewrite (proj1 Ce). now apply U2.
  - right. destruct (cp_to _ _ CP e He) as (e' & He' & Ce). exists e'. split; [exact He'|]. now rewrite (proj1 Ce).
Qed.
Lemma loop_up : no_negative_loop g -> no_negative_loop g'.
Proof.
  intros H e' He' L. destruct (cp_from _ _ CP e' He') as (e & He & (-> & _ & C)). apply H; [exact He|]. destruct (g_ends e He) as [E1 E2]. unfold other_end in C. destruct (node2 e) as [v|] eqn:E; destruct C as [[C1 C2]|[C1 C2]]; rewrite C1, C2 in L; injection L as L; try congruence; lia.
Qed.
Lemma weights_up : (forall e, In e (edges g) -> (0 <= weight e)%R) -> forall e', In e' (edges g') -> (0 <= weight e')%R.
Proof. exact (all_up (fun w => 0 <= w)%R). Qed.
Lemma accepted_up : forall z, accepted g z -> accepted g' z.
Proof. pose proof (cp_detectors _ _ CP) as D. pose proof (cp_length _ _ CP). intros [l|nc rows|]; unfold accepted; rewrite ?D; try tauto; try lia. Qed.
Lemma packed_mono : forall a b, a <= b -> packed_len a <= packed_len b.
Proof. intros a b H. unfold packed_len. apply Nat.div_le_mono; lia. Qed.
Lemma batch_up : forall ps z, accepted_batch g ps z -> accepted_batch g' ps z.
Proof. intros ps [l|nc rows|]; unfold accepted_batch; try tauto; cbv zeta. rewrite (cp_detectors _ _ CP). pose proof (cp_nodes _ _ CP) as N. pose proof (packed_mono _ _ N). destruct ps; lia. Qed.

Definition asked (h : ugraph RN) (c : mcall) : Prop :=
  match c with Modify _ => False | AskBatch packed _ z => accepted_batch h packed z | AskDecode z | AskEdges z | AskPairs z | AskDict z => accepted h z end.
Lemma fair_up : forall c, asked g c -> fair g c -> fair g' c.
Proof.
  intros [x|z|ps pp z|z|z|z] A FC; cbn [fair asked] in *; try contradiction; intros _; specialize (FC A).
  - destruct FC as [U E]. split; [now apply usable_up|now apply askable_up].
  - destruct FC as [U E]. split; [now apply usable_up|]. destruct z as [l|nc shots|]; auto. eapply Forall_impl; [|exact E]. intros s Hs. now apply askable_up.
  - destruct FC as (U & L & E). split; [now apply usable_up|]. split; [now apply loop_up|now apply askable_up].
  - destruct FC as (U & L & E). split; [now apply usable_up|]. split; [now apply weights_up|now apply askable_up].
  - destruct FC as (U & L & E). split; [now apply usable_up|]. split; [now apply weights_up|now apply askable_up].
Qed.
Lemma answered_down : forall z r (good good' : Prop), accepted g z -> askable g (event_at z) -> (good' -> good) -> answered g' z r good' -> answered g z r good.
Proof.
  intros z r good good' A AS HG (R1 & R2 & _). pose proof (solvable_same _ (proj2 (askable_up _ AS))) as S. pose proof (accepted_up z A) as A'. split; [|split].
  - intros _ H. apply HG, R1; [exact A'|now apply S].
  - intros _ H. apply R2; [exact A'|]. intros H'. now apply H, S.
  - contradiction.
Qed.
Lemma right_down : forall c r, asked g c -> fair g c -> right g' c r -> right g c r.
Proof.
  intros [x|z|ps pp z|z|z|z] r A FC R; cbn [fair asked right] in *; try contradiction; specialize (FC A).
  - refine (answered_down z r _ _ A (proj2 FC) _ R). intros (row & w & -> & H). exists row, w. split; [reflexivity|]. apply row_down; [|exact H]. exact (proj2 (askable_up _ (proj2 FC))).
  - destruct R as [R _]. specialize (R (batch_up ps z A)). split; [intros _|contradiction]. destruct z as [q|nc shots|]; auto. destruct FC as [_ E]. destruct R as [R1 R2].
    assert (S : forall shot, In shot shots -> (solvable g (shot_event ps shot) <-> solvable g' (shot_event ps shot)) /\ forall v, shot_event ps shot v -> v < m).
    { intros shot Hs. rewrite Forall_forall in E. pose proof (proj2 (askable_up _ (E shot Hs))) as HR. split; [now apply solvable_same|exact HR]. }
    split.
    + intros H. destruct R1 as (l & -> & F2); [rewrite Forall_forall in *; intros shot Hs; apply (S shot Hs), (H shot Hs)|]. exists l. split; [reflexivity|]. clear - F2 S CP m.
      induction F2 as [|s x shots l T F2 IH]; [constructor|]. constructor; [|apply IH; intros shot Hs; apply S; now right]. apply shot_down; [|exact T]. exact (proj2 (S s (or_introl eq_refl))).
    + intros H. apply R2. apply Exists_exists in H as (shot & Hs & H). apply Exists_exists. exists shot. split; [exact Hs|]. intros H'. apply H. now apply (S shot Hs).
  - refine (answered_down z r _ _ A (proj2 (proj2 FC)) _ R). intros (out & -> & H). exists out. split; [reflexivity|]. apply edges_down; [|exact H]. exact (proj2 (askable_up _ (proj2 (proj2 FC)))).
  - refine (answered_down z r _ _ A (proj2 (proj2 FC)) _ R). intros (out & -> & H). exists out. split; [reflexivity|]. apply pairs_down; [|exact H]. exact (proj2 (askable_up _ (proj2 (proj2 FC)))).
  - refine (answered_down z r _ _ A (proj2 (proj2 FC)) _ R). intros (t & -> & H). exists t. split; [reflexivity|]. apply dict_down; [|exact H]. exact (proj2 (askable_up _ (proj2 (proj2 FC)))).
Qed.
Lemma all_fair_up : forall cs, Forall (asked g) cs -> all_fair g cs -> all_fair g' cs.
Proof.
  induction cs as [|c cs IH]; intros A FC; [exact I|]. cbn [all_fair] in *. pose proof (Forall_inv A) as A1. destruct FC as [F1 F2]. assert (E : forall h, after h c = h) by (destruct c; [destruct A1| | | | |]; reflexivity).
  rewrite E in *. split; [now apply fair_up|]. apply IH; [now inversion A|exact F2].
Qed.
Lemma all_right_down : forall cs rs, Forall (asked g) cs -> all_fair g cs -> all_right g' cs rs -> all_right g cs rs.
Proof.
  induction cs as [|c cs IH]; intros [|r rs] A FC R; cbn [all_right all_fair] in *; auto. pose proof (Forall_inv A) as A1. destruct FC as [F1 F2]. assert (E : forall h, after h c = h) by (destruct c; [destruct A1| | | | |]; reflexivity).
  rewrite E in *. destruct R as [R1 R2]. split; [now apply right_down|]. apply IH; [now inversion A|exact F2|exact R2].
Qed.
End Copy.
