(** What is lost when graphs are written or read. *)
From Coq Require Import Reals ZArith List Bool Arith Lia Lra Permutation Sorted.
From Verif Require Import M_Base M_Dem P_Dem S_Dem M_Merge S_Merge P_Merge M_GraphIO M_Matching S_Matching S_GraphMap P_GraphMap P_Pipeline S_GraphIO P_GraphIO M_UserGraph S_UserGraph P_UserGraph S_Pipeline P_GraphWrite.
Import ListNotations.
Local Open Scope nat_scope.

Lemma in_range : forall w : R, (-16777215 <= w <= 16777215)%R -> w_exceeds RN w = false.
Proof. intros w H. cbn [w_exceeds RN]. unfold Rltb, max_user_weight. destruct (Rlt_dec _ _) as [L|]; [|reflexivity]. pose proof (Rabs_le w 16777215 (conj (proj1 H) (proj2 H))). lra. Qed.
Lemma in_range' : forall w : R, (-16777215 <= w <= 16777215)%R -> (Rabs w <= max_user_weight)%R.
Proof. intros w H. unfold max_user_weight. apply Rabs_le. lra. Qed.

(** ** Detectors without edges *)
Definition lonely : ugraph RN := new_graph RN 3 0.
Lemma lonely_lost : exists g', made lonely /\ writable lonely /\ read_graph (N := RN) 1%R (to_networkx lonely) (Some (nobs lonely)) = Ok g' /\ num_detectors lonely = 3 /\ num_detectors g' = 0.
Proof. exists (set_boundary (new_graph RN 0 0) []). split; [apply made_new|]. split; [split; [constructor|split; intros e]; [intros x []|intros []]|]. split; [reflexivity|]. split; reflexivity. Qed.

(** ** Boundary nodes without edges *)
Definition walled : ugraph RN := run (new_graph RN 3 0) [ @OpAdd RN 0 (Some 2) [] 1%R (-1)%R SMALLEST_WEIGHT; @OpSetBoundary RN [1] ].
Lemma walled_edges : edges walled = [@mkE RN 0 (Some 2) [] 1%R (-1)%R].
Proof. unfold walled, run. cbn [fold_left apply_op]. unfold py_add. rewrite in_range by lra. reflexivity. Qed.
Lemma walled_props : num_nodes walled = 3 /\ bnodes walled = [1] /\ nobs walled = 0.
Proof. unfold walled, run. cbn [fold_left apply_op]. unfold py_add. rewrite in_range by lra. repeat split. Qed.
Lemma walled_lost : exists g', made walled /\ writable walled /\ read_graph (N := RN) 1%R (to_networkx walled) (Some (nobs walled)) = Ok g' /\ In 1 (bnodes walled) /\ ~ In 1 (bnodes g') /\ num_detectors walled = 2 /\ num_detectors g' = 3.
Proof.
  pose proof walled_edges as E. destruct walled_props as (P1 & P2 & P3).
  assert (EG : py_nodes (to_networkx walled) = [(0, false); (2, false)]%Z). { unfold to_networkx. cbn [py_nodes]. rewrite E, P1. match goal with |- context [nx_nodes ?l] => change (nx_nodes l) with [0; 2] end. cbn [map]. unfold written_node, has_virtual_boundary. rewrite E, P1, P2. reflexivity. }
  assert (EE : exists a, py_edges (to_networkx walled) = [(0%Z, 2%Z, a)] /\ a = edge_attrs (@mkE RN 0 (Some 2) [] 1%R (-1)%R)). { eexists. split; [|reflexivity]. unfold to_networkx. cbn [py_edges]. rewrite E, P1. reflexivity. }
  destruct EE as (a & EE & Ea).
  assert (RD : readable (to_networkx walled)). { split; [intros z; rewrite EG; cbn; intros [H|[H|[]]]; discriminate|]. intros x. rewrite EE. intros [<-|[]]. cbn. split; [lia|]. split; [lia|]. exists (fun _ => False). rewrite Ea. cbn. split; [intros z []|tauto]. }
  destruct (reading _ (Some (nobs walled)) RD) as (g' & R & _ & _ & D). exists g'. split; [unfold walled, run; cbn [fold_left]; apply made_changed, made_changed, made_new|]. split.
  { split; [rewrite P2; repeat constructor; intros []|]. split; intros e; rewrite E; [intros x [<-|[]] []|]. intros [<-|[]]. split; [constructor|]. apply in_range'. cbn. lra. }
  split; [exact R|]. split; [rewrite P2; now left|]. split; [rewrite (d_boundary _ _ _ D), EG; cbn; intros [H|[H|[]]]; discriminate|]. split; [unfold num_detectors; rewrite P1, P2; reflexivity|].
  assert (B : bnodes g' = []). { destruct (bnodes g') as [|v l] eqn:EB; [reflexivity|]. assert (H : In v (bnodes g')) by (rewrite EB; now left). apply (d_boundary _ _ _ D) in H. rewrite EG in H. destruct H as [H|[H|[]]]; discriminate. }
  assert (K : kept (0%Z, 2%Z, a)) by (rewrite Ea; apply in_range'; cbn; lra).
  unfold num_detectors. rewrite B. cbn. rewrite Nat.sub_0_r. destruct (d_nodes _ _ _ D) as [(N1 & N2 & N3) NM]. apply Nat.le_antisymm.
  - apply NM. rewrite EG, EE. split; [cbn; lia|]. split; [intros v [H|[H|[]]]; discriminate|]. intros x u v [<-|[]] _ [H|H]; cbn in H; injection H as H1 H2; lia.
  - apply (N3 (0%Z, 2%Z, a) 2 0); [rewrite EE; now left|exact K|]. right. reflexivity.
Qed.

(** ** Fault ids that cancel *)
Definition cancelling : list (instruction RD) := [(1/4, [Det 0; Obs 0; Obs 0])]%R : list (R * list target).
Lemma cancelling_lost : (Rabs (log_likelihood_ratio (1/4)) <= max_user_weight)%R -> exists g', read_graph (N := RN) 1%R (to_rustworkx (N := RN) (load_dem RD 1 1 cancelling)) (Some 1) = Ok g' /\
  get_edge_data (N := RN) (load_dem RD 1 1 cancelling) 0 None = Some ([0; 0], log_likelihood_ratio (1/4)%R, (1/4)%R) /\ get_edge_data g' 0 (Some 1) = Some ([0], log_likelihood_ratio (1/4)%R, (1/4)%R).
Proof.
  intros W. assert (E0 : Rltb 0 (1/4) = true) by (apply Rltb_true; lra). set (g := load_dem RD 1 1 cancelling : ugraph RN).
  assert (Q : exists nb, g = @mkG RN [nb] [@mkE RN 0 None [0; 0] (log_likelihood_ratio (1/4)) (1/4)%R] [] 1 (if p_outside RN (1/4)%R then false else true) true /\ nb = mkN [(0, true)] false).
  { eexists. split; [|reflexivity]. unfold g, load_dem, cancelling. cbn [fold_left iter_targets app]. cbn [p_pos RD]. rewrite E0. reflexivity. }
  destruct Q as (nb & Eg & Enb). assert (D0 : get_edge_data g 0 None = Some ([0; 0], log_likelihood_ratio (1/4)%R, (1/4)%R)) by (rewrite Eg, Enb; reflexivity).
  set (a := edge_attrs (@mkE RN 0 None [0; 0] (log_likelihood_ratio (1/4)) (1/4)%R)).
  assert (EN : py_nodes (to_rustworkx g) = [(0, false); (1, true)]%Z) by (rewrite Eg; reflexivity).
  assert (EE : py_edges (to_rustworkx g) = [(0%Z, 1%Z, a)]) by (rewrite Eg; reflexivity).
  assert (RD' : readable (to_rustworkx g)). { split; [intros z; rewrite EN; cbn; intros [H|[H|[]]]; [discriminate|injection H as <-; lia]|]. intros x. rewrite EE. intros [<-|[]]. cbn. split; [lia|]. split; [lia|]. exists (fun k => k = 0). cbn. split; [intros z [<-|[]]; lia|]. intros k. split; [intros ->; now left|]. intros [H|[]]. lia. }
  destruct (reading _ (Some 1) RD') as (g' & R & _ & _ & D). exists g'. split; [exact R|]. split; [exact D0|].
  assert (K : kept (0%Z, 1%Z, a)) by exact W.
  pose proof (d_all _ _ _ D 0 1 (0%Z, 1%Z, a) ltac:(rewrite EE; now left) K (or_introl eq_refl)) as N. destruct (get_edge_data g' 0 (Some 1)) as [[[o w] p]|] eqn:ED; [|congruence].
  destruct (d_edge _ _ _ D _ _ _ _ _ ED) as (x & (B & _ & l1 & l2 & EX & _) & M & So & -> & ->). rewrite EE in EX. destruct l1 as [|? [|? ?]]; [|discriminate|discriminate]. injection EX as <- <-. cbn in M.
  assert (O : forall k, In k o <-> k = 0). { intros k. destruct M as [_ M]. rewrite M. cbn. split; [intros [H|[]]; lia|intros ->; now left]. }
  assert (Eo : o = [0]). { destruct o as [|k o]; [elim (proj2 (O 0) eq_refl)|]. pose proof (proj1 (O k) (or_introl eq_refl)). subst k. destruct o as [|j o]; [reflexivity|]. pose proof (proj1 (O j) (or_intror (or_introl eq_refl))). subst j. inversion So as [|? ? _ F]; subst. apply Forall_inv in F. lia. }
  subst o. f_equal. f_equal. unfold meant_prob, a, edge_attrs. cbn. assert (E1 : Rltb (1/4) 0 = false) by (apply Rltb_false; lra). assert (E2 : Rltb 1 (1/4) = false) by (apply Rltb_false; lra). rewrite E1, E2. reflexivity.
Qed.

(** ** Parallel edges *)
Definition doubled : pygraph RN := mkPy [(0, false); (1, true)]%Z
  [(0, 1, mkA (N := RN) (Some (IdInt 0)) None (Some 2%R) None)%Z; (0, 1, mkA (N := RN) (Some (IdInt 5)) None (Some 1%R) None)%Z].
Lemma doubled_readable : readable doubled.
Proof.
  split; [intros z [H|[H|[]]]; [discriminate|injection H as <-; lia]|]. intros x [<-|[<-|[]]]; cbn; (split; [lia|]); (split; [lia|]); [exists (fun k => k = 0)|exists (fun k => k = 5)]; right; (split; [lia|]); intros k; lia.
Qed.
Lemma doubled_out : exists g, read_graph (N := RN) 1%R doubled None = Ok g /\ ~ fault_ids_in_range g.
Proof.
  destruct (reading doubled None doubled_readable) as (g & E & I & _ & D). exists g. split; [exact E|]. intros FI.
  assert (K : forall x, In x (py_edges doubled) -> kept x) by (intros x [<-|[<-|[]]]; apply in_range'; cbn; lra).
  pose proof (d_all _ _ _ D 0 1 _ (or_introl eq_refl) (K _ (or_introl eq_refl)) (or_introl eq_refl)) as N. destruct (get_edge_data g 0 (Some 1)) as [[[o w] p]|] eqn:ED; [|congruence].
  destruct (d_edge _ _ _ D _ _ _ _ _ ED) as (x & (B & Kx & l1 & l2 & EX & H1 & H2) & M & So & _ & _). cbn [py_edges doubled] in EX. destruct l1 as [|y l1].
  - injection EX as <- <-. specialize (H2 _ (or_introl eq_refl) (or_introl eq_refl) (K _ (or_intror (or_introl eq_refl)))). cbn in H2. lra.
  - destruct l1 as [|z [|? ?]]; [|discriminate|discriminate]. injection EX as <- <- <-. cbn in M. destruct M as [[M _]|[_ M]]; [lia|]. assert (H5 : In 5 o) by (apply M; reflexivity).
    apply (proj1 (get_edge_data_spec (N := RN) g 0 (Some 1) _ I)) in ED. destruct ED as (e & He & _ & Ea). injection Ea as Ea _ _. subst o. specialize (FI e 5 He H5).
    destruct (d_fault_ids _ _ _ D) as [_ NM]. assert (L : nobs g <= 1); [|lia]. apply NM. split; [cbn; lia|]. intros x S k (_ & m1 & m2 & EX & HF) Mx Sk. cbn [py_edges doubled] in EX. destruct m1 as [|y m1].
    + injection EX as <- <-. cbn in Mx. destruct Mx as [[Mx _]|[_ Mx]]; [lia|]. apply Mx in Sk. lia.
    + destruct m1 as [|z [|? ?]]; [|discriminate|discriminate]. injection EX as <- <- <-. exfalso. apply (HF _ 0 1 (or_introl eq_refl) (K _ (or_introl eq_refl)) (or_introl eq_refl)). left. reflexivity.
Qed.
