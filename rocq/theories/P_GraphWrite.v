(** Writing a graph as a networkx or rustworkx graph and reading it back. *)
From Coq Require Import Reals ZArith List Bool Arith Lia Lra Permutation Sorted Classical_Prop.
From Verif Require Import M_Base M_Dem P_Dem S_Dem M_Merge P_Merge M_CheckMatrix P_CheckMatrix P_CheckMatrix2 M_CoreHeap M_GraphIO M_Matching S_Matching P_Matching S_GraphMap P_GraphMap P_Pipeline P_DemDecode S_GraphIO P_GraphIO M_UserGraph S_UserGraph P_UserGraph S_Pipeline P_GraphCopy.
Import ListNotations.
Local Open Scope nat_scope.

Definition tidy_prob (p : R) : R := if p_outside RN p then (-1)%R else p.
Definition at_ends (m : nat) (e : uedge RN) (u v : nat) : Prop := (node1 e = u /\ other_end m e = v) \/ (node1 e = v /\ other_end m e = u).
Lemma mem_in : forall x l, mem x l = true <-> In x l.
Proof. intros x l. unfold mem. rewrite existsb_exists. split; [intros (y & H & E); apply Nat.eqb_eq in E; now subst|]. intros H. exists x. split; [exact H|apply Nat.eqb_refl]. Qed.
Lemma virtual_iff : forall g : ugraph RN, Inv g -> (has_virtual_boundary g = true <-> uses_virtual_boundary g).
Proof.
  intros g HI. unfold has_virtual_boundary, uses_virtual_boundary. rewrite existsb_exists. split.
  - intros (e & He & E). exists (node1 e), (attributes_of e). apply data_some; [exact HI|exact He|]. left. split; [reflexivity|]. destruct (node2 e); [discriminate|reflexivity].
  - intros (u & a & H). apply get_edge_data_spec in H; [|exact HI]. destruct H as (e & He & J & _). exists e. split; [exact He|]. destruct J as [[_ ->]|[J _]]; [reflexivity|discriminate].
Qed.
Lemma virtual_edge : forall g : ugraph RN, Inv g -> (uses_virtual_boundary g <-> exists e, In e (edges g) /\ node2 e = None).
Proof.
  intros g HI. split.
  - intros (u & a & H). apply get_edge_data_spec in H; [|exact HI]. destruct H as (e & He & J & _). exists e. split; [exact He|]. destruct J as [[_ ->]|[J _]]; [reflexivity|discriminate].
  - intros (e & He & E). exists (node1 e), (attributes_of e). apply data_some; [exact HI|exact He|]. left. auto.
Qed.

Section Written.
Variables (g : ugraph RN) (G : pygraph RN).
Hypothesis HI : Inv g.
Hypothesis HF : flags_ok RN g.
Hypothesis HW : writable g.
Let m := num_nodes g.
Notation written e x := (snd x = edge_attrs (N := RN) e /\ (ends x = (Z.of_nat (node1 e), Z.of_nat (other_end m e)) \/ ends x = (Z.of_nat (other_end m e), Z.of_nat (node1 e)))).
Hypothesis W1 : forall e, In e (edges g) -> exists x, In x (py_edges G) /\ written e x.
Hypothesis W2 : forall x, In x (py_edges G) -> exists e, In e (edges g) /\ written e x.
Hypothesis W3 : forall v, In (Z.of_nat v, true) (py_nodes G) <-> In v (bnodes g) \/ (uses_virtual_boundary g /\ v = m).
Hypothesis W3' : forall z b, In (z, b) (py_nodes G) -> (0 <= z)%Z.
Hypothesis W4 : forall n, m <= n -> (uses_virtual_boundary g -> S m <= n) -> length (py_nodes G) <= n.
Hypothesis W5 : forall n, length (py_nodes G) <= n -> (forall v, In (Z.of_nat v, true) (py_nodes G) -> v < n) -> (forall x u v, In x (py_edges G) -> kept x -> between u v x -> u < n) -> m <= n.

Lemma w_ends : forall e, In e (edges g) -> node1 e < m /\ forall v, node2 e = Some v -> v < m.
Proof. intros e He. destruct HI as (_ & HN & _). exact (HN e He). Qed.
Lemma edge_unique : forall e f u v, In e (edges g) -> In f (edges g) -> at_ends m e u v -> at_ends m f u v -> e = f.
Proof.
  intros e f u v He Hf Ae Af. apply (simple_eq g HI e f He Hf). destruct (w_ends e He) as [E1 E2]. destruct (w_ends f Hf) as [F1 F2]. unfold at_ends, other_end, joins in *.
  destruct (node2 e) as [x|], (node2 f) as [y|].
  - destruct Ae as [[A1 A2]|[A1 A2]], Af as [[B1 B2]|[B1 B2]]; subst; auto.
  - specialize (E2 x eq_refl). destruct Ae as [[A1 A2]|[A1 A2]], Af as [[B1 B2]|[B1 B2]]; lia.
  - specialize (F2 y eq_refl). destruct Ae as [[A1 A2]|[A1 A2]], Af as [[B1 B2]|[B1 B2]]; lia.
  - destruct Ae as [[A1 A2]|[A1 A2]], Af as [[B1 B2]|[B1 B2]]; subst; auto; lia.
Qed.
Lemma written_between : forall e x u v, written e x -> (between u v x <-> at_ends m e u v).
Proof.
  intros e x u v [_ Hx]. unfold between, at_ends. destruct Hx as [->| ->]; split; intros [H|H].
  - injection H as H1 H2. apply Nat2Z.inj in H1, H2. auto.
  - injection H as H1 H2. apply Nat2Z.inj in H1, H2. auto.
  - destruct H as [-> ->]. auto.
  - destruct H as [-> ->]. auto.
  - injection H as H1 H2. apply Nat2Z.inj in H1, H2. auto.
  - injection H as H1 H2. apply Nat2Z.inj in H1, H2. auto.
  - destruct H as [-> ->]. auto.
  - destruct H as [-> ->]. auto.
Qed.
Lemma attrs_meant : forall e : uedge RN, meant (edge_attrs e) (fun k => In k (obs e)).
Proof.
  intros e. cbn. split.
  - intros z Hz. apply in_map_iff in Hz as (k & <- & _). lia.
  - intros k. rewrite in_map_iff. split; [intros Hk; exists k; split; [reflexivity|now apply set_of_in]|]. intros (j & Ej & Hj). apply Nat2Z.inj in Ej. subst. exact (proj1 (set_of_in _ _) Hj).
Qed.
Lemma written_weight : forall e x, written e x -> meant_weight x = weight e /\ meant_prob x = tidy_prob (prob e).
Proof. intros e x [H _]. unfold meant_weight, meant_prob. rewrite H. cbn. auto. Qed.
Lemma written_kept : forall e x, In e (edges g) -> written e x -> kept x.
Proof. intros e x He Hx. unfold kept. rewrite (proj1 (written_weight e x Hx)). now apply HW. Qed.
Lemma written_readable : readable G.
Proof.
  split; [intros z Hz; now apply (W3' z true)|]. intros x Hx. destruct (W2 x Hx) as (e & He & Ea & Ee). split; [|split].
  - destruct Ee as [->| ->]; cbn; lia.
  - destruct Ee as [->| ->]; cbn; lia.
  - rewrite Ea. exists (fun k => In k (obs e)). apply attrs_meant.
Qed.

Variable g' : ugraph RN.
Hypothesis HI' : Inv g'.
Hypothesis HF' : flags_ok RN g'.
Hypothesis HD : described G (nobs g) g'.

Lemma data_written : forall e u v, In e (edges g) -> at_ends m e u v -> exists o, get_edge_data g' u (Some v) = Some (o, weight e, tidy_prob (prob e)) /\ Permutation (obs e) o /\ NoDup o.
Proof.
  intros e u v He A. destruct (W1 e He) as (x & Hx & Wx). pose proof (d_all _ _ _ HD u v x Hx (written_kept e x He Wx) (proj2 (written_between e x u v Wx) A)) as N.
  destruct (get_edge_data g' u (Some v)) as [[[o w] p]|] eqn:D; [|congruence]. clear N. destruct (d_edge _ _ _ HD u v o w p D) as (y & (By & Ky & l1 & l2 & Ey & _) & My & So & -> & ->).
  assert (Hy : In y (py_edges G)) by (rewrite Ey; apply in_or_app; right; now left). destruct (W2 y Hy) as (f & Hf & Wy). pose proof (proj1 (written_between f y u v Wy) By) as Af. pose proof (edge_unique e f u v He Hf A Af). subst f.
  destruct (written_weight e y Wy) as [-> ->]. exists o. split; [reflexivity|]. split; [|now apply sorted_nodup]. apply NoDup_Permutation; [now apply HW|now apply sorted_nodup|]. intros k. rewrite (proj1 Wy) in My. exact (meant_same _ _ _ (attrs_meant e) My k).
Qed.
Lemma data_from : forall u v a, get_edge_data g' u (Some v) = Some a -> exists e, In e (edges g) /\ at_ends m e u v.
Proof.
  intros u v [[o w] p] D. destruct (d_edge _ _ _ HD u v o w p D) as (y & (By & Ky & l1 & l2 & Ey & _) & _). assert (Hy : In y (py_edges G)) by (rewrite Ey; apply in_or_app; right; now left). destruct (W2 y Hy) as (f & Hf & Wy). exists f. split; [exact Hf|]. now apply (written_between f y u v Wy).
Qed.
Lemma ends_some : forall e u v, In e (edges g) -> u < m -> v < m -> (at_ends m e u v <-> joins e u (Some v)).
Proof.
  intros e u v He Hu Hv. destruct (w_ends e He) as [E1 E2]. unfold at_ends, other_end, joins. destruct (node2 e) as [x|]; split; intros [[H1 H2]|[H1 H2]]; subst; auto; try lia; try discriminate; try (injection H2 as <-); try (injection H1 as <-); auto.
Qed.
Lemma ends_none : forall e u, In e (edges g) -> u < m -> (at_ends m e u m <-> joins e u None).
Proof.
  intros e u He Hu. destruct (w_ends e He) as [E1 E2]. unfold at_ends, other_end, joins. destruct (node2 e) as [x|].
  - specialize (E2 x eq_refl). split; intros [[H1 H2]|[H1 H2]]; try lia; discriminate.
  - split; intros [[H1 H2]|[H1 H2]]; subst; auto; try lia; discriminate.
Qed.
Lemma tidy_ok : forall p, ((0 <= p <= 1 -> tidy_prob p = p) /\ (~ (0 <= p <= 1) -> tidy_prob p = -1))%R.
Proof.
  intros p. unfold tidy_prob. cbn. destruct (Rltb p 0) eqn:E1; cbn [orb]; [apply Rltb_true in E1; split; [lra|reflexivity]|]. apply Rltb_false in E1. destruct (Rltb 1 p) eqn:E2; [apply Rltb_true in E2; split; [lra|reflexivity]|]. apply Rltb_false in E2. split; [reflexivity|]. intros H. elim H. lra.
Qed.
Lemma same_stored : forall e u v w, In e (edges g) -> at_ends m e u v -> get_edge_data g u w = Some (attributes_of e) -> same_option (get_edge_data g u w) (get_edge_data g' u (Some v)).
Proof. intros e u v w He A E. destruct (data_written e u v He A) as (o & -> & P & _). rewrite E. cbn. split; [exact P|]. split; [reflexivity|]. apply tidy_ok. Qed.
Lemma same_absent : forall u v w, (forall e, In e (edges g) -> at_ends m e u v -> joins e u w) -> get_edge_data g u w = None -> same_option (get_edge_data g u w) (get_edge_data g' u (Some v)).
Proof.
  intros u v w H E. rewrite E. destruct (get_edge_data g' u (Some v)) as [a|] eqn:D; [|exact I]. destruct (data_from u v a D) as (e & He & A). rewrite (data_some g u w e HI He (H e He A)) in E. discriminate.
Qed.
Lemma new_nodes : num_nodes g' = (if has_virtual_boundary g then S m else m).
Proof.
  pose proof (virtual_iff g HI) as V. destruct (d_nodes _ _ _ HD) as [(P1 & P2 & P3) PM]. apply Nat.le_antisymm.
  - apply PM. split; [|split].
    + apply W4; [destruct (has_virtual_boundary g); lia|]. intros H. apply V in H. rewrite H. lia.
    + intros v Hv. apply W3 in Hv as [Hv|[Hv ->]]; [apply (proj2 HF) in Hv; change (length (nodes g)) with m in Hv; destruct (has_virtual_boundary g); lia|]. apply V in Hv. rewrite Hv. lia.
    + intros x u v Hx Kx B. destruct (W2 x Hx) as (e & He & Wx). apply (written_between e x u v Wx) in B. destruct (w_ends e He) as [E1 E2]. unfold at_ends, other_end in B. destruct (node2 e) as [y|] eqn:E.
      * specialize (E2 y eq_refl). destruct (has_virtual_boundary g); destruct B as [[B1 B2]|[B1 B2]]; lia.
      * assert (Hv : has_virtual_boundary g = true) by (apply V, (virtual_edge g HI); eauto). rewrite Hv. destruct B as [[B1 B2]|[B1 B2]]; lia.
  - pose proof (W5 (num_nodes g') P1 P2 P3). destruct (has_virtual_boundary g) eqn:E; [|assumption]. apply P2. apply W3. right. split; [now apply V|reflexivity].
Qed.
Lemma new_boundary : forall v, In v (bnodes g') <-> In v (bnodes g) \/ (uses_virtual_boundary g /\ v = m).
Proof. intros v. rewrite (d_boundary _ _ _ HD). apply W3. Qed.
Lemma new_length : length (bnodes g') = length (bnodes g) + if has_virtual_boundary g then 1 else 0.
Proof.
  pose proof (virtual_iff g HI) as V. destruct HW as (ND & _ & _). assert (NM : ~ In m (bnodes g)) by (intros H; apply (proj2 HF) in H; change (length (nodes g)) with m in H; lia). destruct (has_virtual_boundary g) eqn:E.
  - rewrite Nat.add_1_r. change (S (length (bnodes g))) with (length (m :: bnodes g)). apply Permutation_length. apply NoDup_Permutation; [exact (d_boundary_once _ _ _ HD)|now constructor|]. intros v. rewrite new_boundary. cbn. split; [intros [H|[_ ->]]; auto|]. intros [<-|H]; auto. right. split; [now apply V|reflexivity].
  - rewrite Nat.add_0_r. apply Permutation_length. apply NoDup_Permutation; [exact (d_boundary_once _ _ _ HD)|exact ND|]. intros v. rewrite new_boundary. split; [intros [H|[H _]]; auto; apply V in H; discriminate|auto].
Qed.
Lemma new_detectors : num_detectors g' = num_detectors g.
Proof. unfold num_detectors. rewrite new_nodes, new_length. fold m. destruct (has_virtual_boundary g); lia. Qed.
Lemma new_nobs : nobs g' = nobs g.
Proof.
  destruct (d_fault_ids _ _ _ HD) as [[P1 P2] PM]. apply Nat.le_antisymm; [|exact P1]. apply PM. split; [lia|]. intros x S k (_ & l1 & l2 & E & _) Mx Sk. assert (Hx : In x (py_edges G)) by (rewrite E; apply in_or_app; right; now left). destruct (W2 x Hx) as (e & He & Wx).
  destruct HW as (_ & FI & _). apply (FI e k He). rewrite (proj1 Wx) in Mx. now apply (meant_same _ _ _ Mx (attrs_meant e) k).
Qed.
Lemma copy_same : same_graph g g'.
Proof.
  pose proof (virtual_iff g HI) as V. constructor; fold m.
  - intros u v Hu Hv. destruct (find_edge (edges g) u (Some v)) as [(i & e & Hi & J)|NO].
    + apply nth_error_In in Hi. apply (same_stored e); [exact Hi|now apply ends_some|]. now apply data_some.
    + apply same_absent; [intros e He A; now apply ends_some|]. now apply data_none.
  - intros u Hu. destruct (find_edge (edges g) u None) as [(i & e & Hi & J)|NO].
    + apply nth_error_In in Hi. apply (same_stored e); [exact Hi|now apply ends_none|]. now apply data_some.
    + apply same_absent; [intros e He A; now apply ends_none|]. now apply data_none.
  - intros v. destruct (get_edge_data g' m (Some v)) as [a|] eqn:D; [|now left]. right. destruct (data_from m v a D) as (e & He & A). destruct (w_ends e He) as [E1 E2]. unfold at_ends, other_end in A. destruct (node2 e) as [x|]; [specialize (E2 x eq_refl)|]; destruct A as [[A1 A2]|[A1 A2]]; lia.
  - exact new_boundary.
  - intros H. rewrite new_nodes. apply V in H. now rewrite H.
  - intros H. rewrite new_nodes. destruct (has_virtual_boundary g); [elim H; now apply V|reflexivity].
  - exact new_detectors.
  - exact new_nobs.
Qed.
Lemma count_nodup : forall (l : list nat) k, NoDup l -> count_occ Nat.eq_dec l k = if in_dec Nat.eq_dec k l then 1 else 0.
Proof.
  intros l k ND. destruct (in_dec Nat.eq_dec k l) as [H|H]; [|now apply count_occ_not_In]. apply NoDup_count_occ' with (decA := Nat.eq_dec) in H; assumption.
Qed.
Lemma stored_copy : forall e e' o u v, In e (edges g) -> at_ends m e u v -> joins e' u (Some v) -> attributes_of e' = (o, weight e, tidy_prob (prob e)) -> Permutation (obs e) o -> copy_of m e e'.
Proof.
  intros e e' o u v He A J At P. injection At as A1 A2 A3. split; [exact A2|]. split.
  - intros k. f_equal. rewrite A1. symmetry. now apply Permutation_count_occ.
  - unfold at_ends in A. unfold joins in J. destruct A as [[<- <-]|[<- <-]], J as [[J1 J2]|[J1 J2]]; try (injection J1 as J1); auto.
Qed.
Lemma copy_copies : copies g g'.
Proof.
  constructor; try assumption; fold m.
  - intros e He. assert (A : at_ends m e (node1 e) (other_end m e)) by (left; auto). destruct (data_written e _ _ He A) as (o & D & P & _). apply (proj1 (get_edge_data_spec (N := RN) g' _ _ _ HI')) in D. destruct D as (e' & He' & J & E). exists e'. split; [exact He'|]. exact (stored_copy e e' o _ _ He A J (eq_sym E) P).
  - intros e' He'. destruct (node2 e') as [v|] eqn:E2.
    + assert (J : joins e' (node1 e') (Some v)) by (left; auto). pose proof (data_some g' (node1 e') (Some v) e' HI' He' J) as D. destruct (data_from _ _ _ D) as (e & He & A). exists e. split; [exact He|]. destruct (data_written e _ _ He A) as (o & D' & P & _). rewrite D in D'. injection D' as D1 D2 D3. apply (stored_copy e e' o (node1 e') v He A J); [|exact P]. unfold attributes_of. now rewrite D1, D2, D3.
    + pose proof (data_some g' (node1 e') None e' HI' He' (or_introl (conj eq_refl E2))) as D. rewrite (d_virtual _ _ _ HD) in D. discriminate.
  - intros v Hv. rewrite new_boundary. split; [intros [H|[_ ->]]; [exact H|lia]|auto].
  - intros e He E. apply new_boundary. right. split; [apply (virtual_edge g HI); eauto|reflexivity].
  - exact new_detectors.
  - rewrite new_length. lia.
  - rewrite new_nodes. destruct (has_virtual_boundary g); lia.
  - exact new_nobs.
  - intros _ e' k He' Hk. rewrite new_nobs. destruct (node2 e') as [v|] eqn:E2.
    + assert (J : joins e' (node1 e') (Some v)) by (left; auto). pose proof (data_some g' (node1 e') (Some v) e' HI' He' J) as D. destruct (data_from _ _ _ D) as (e & He & A). destruct (data_written e _ _ He A) as (o & D' & P & _). rewrite D in D'. injection D' as D' _ _. destruct HW as (_ & FI & _). apply (FI e k He). apply (Permutation_in k (Permutation_sym P)). now rewrite <- D'.
    + pose proof (data_some g' (node1 e') None e' HI' He' (or_introl (conj eq_refl E2))) as D. rewrite (d_virtual _ _ _ HD) in D. discriminate.
Qed.
Lemma copy_answers : answers_for g g'.
Proof.
  intros cs Q FC. pose proof copy_copies as CP. assert (Q' : Forall (asked g) cs) by exact Q.
  assert (WT : forall e', In e' (edges g') -> w_exceeds RN (weight e') = false). { intros e' He'. destruct (cp_from _ _ CP e' He') as (e & He & C & _). rewrite C. cbn. apply Rltb_false. now apply HW. }
  destruct (run_ok cs (new_matching g') g' (new_fits g' HI' HF' WT) (all_fair_up g g' CP cs Q' FC)) as (K & m' & rs & H1 & H2). exists K, m', rs. split; [exact H1|]. exact (all_right_down g g' CP cs rs Q' FC H2).
Qed.
End Written.

Lemma read_back : forall g G, Inv g -> flags_ok RN g -> writable g ->
  (forall e, In e (edges g) -> exists x, In x (py_edges G) /\ (snd x = edge_attrs (N := RN) e /\ (ends x = (Z.of_nat (node1 e), Z.of_nat (other_end (num_nodes g) e)) \/ ends x = (Z.of_nat (other_end (num_nodes g) e), Z.of_nat (node1 e))))) ->
  (forall x, In x (py_edges G) -> exists e, In e (edges g) /\ (snd x = edge_attrs (N := RN) e /\ (ends x = (Z.of_nat (node1 e), Z.of_nat (other_end (num_nodes g) e)) \/ ends x = (Z.of_nat (other_end (num_nodes g) e), Z.of_nat (node1 e))))) ->
  (forall v, In (Z.of_nat v, true) (py_nodes G) <-> In v (bnodes g) \/ (uses_virtual_boundary g /\ v = num_nodes g)) ->
  (forall z b, In (z, b) (py_nodes G) -> (0 <= z)%Z) ->
  (forall n, num_nodes g <= n -> (uses_virtual_boundary g -> S (num_nodes g) <= n) -> length (py_nodes G) <= n) ->
  (forall n, length (py_nodes G) <= n -> (forall v, In (Z.of_nat v, true) (py_nodes G) -> v < n) -> (forall x u v, In x (py_edges G) -> kept x -> between u v x -> u < n) -> num_nodes g <= n) ->
  exists g', read_graph (N := RN) 1%R G (Some (nobs g)) = Ok g' /\ same_graph g g' /\ answers_for g g'.
Proof.
  intros g G HI HF HW W1 W2 W3 W3' W4 W5. destruct (reading G (Some (nobs g)) (written_readable g G W2 W3')) as (g' & E & I' & F' & D). exists g'. split; [exact E|]. split.
  - exact (copy_same g G HI HF HW W1 W2 W3 W4 W5 g' D).
  - exact (copy_answers g G HI HF HW W1 W2 W3 W4 W5 g' I' F' D).
Qed.

(** ** What is written *)
Lemma fold_link : forall es acc, (forall i j x y, nth_error (acc ++ es) i = Some x -> nth_error (acc ++ es) j = Some y -> same_link (N := RN) (fst (fst x)) (snd (fst x)) y = true -> i = j) -> fold_left (link (N := RN)) es acc = acc ++ es.
Proof.
  induction es as [|x es IH]; intros acc H; [now rewrite app_nil_r|]. cbn [fold_left]. assert (E : link acc x = acc ++ [x]).
  { destruct x as [[u v] a]. unfold link. destruct (existsb (same_link u v) acc) eqn:EX; [|reflexivity]. apply existsb_exists in EX as (y & Hy & L). apply In_nth_error in Hy as (j & Hj).
    assert (J : j < length acc) by (apply nth_error_Some; congruence). specialize (H (length acc) j (u, v, a) y). rewrite nth_error_app2, Nat.sub_diag in H by lia. rewrite nth_error_app1 in H by exact J. specialize (H eq_refl Hj L). lia. }
  rewrite E. rewrite IH; rewrite <- app_assoc; [reflexivity|exact H].
Qed.
Section Lists.
Variable g : ugraph RN.
Hypothesis HI : Inv g.
Hypothesis HF : flags_ok RN g.
Let m := num_nodes g.
Let es := map (written_edge m) (edges g).
Lemma l_ends : forall e, In e (edges g) -> node1 e < m /\ forall v, node2 e = Some v -> v < m.
Proof. intros e He. destruct HI as (_ & HN & _). exact (HN e He). Qed.
Lemma links_all : fold_left (link (N := RN)) es [] = es.
Proof.
  rewrite fold_link; [reflexivity|]. cbn [app]. intros i j x y Hi Hj L. unfold es in *. rewrite nth_error_map in Hi, Hj. destruct (nth_error (edges g) i) as [e|] eqn:Ei; [|discriminate]. destruct (nth_error (edges g) j) as [f|] eqn:Ej; [|discriminate].
  cbn in Hi, Hj. injection Hi as <-. injection Hj as <-. destruct HI as (_ & _ & S). apply (S i j e f Ei Ej). unfold written_edge in L. cbn in L. apply nth_error_In in Ei. apply nth_error_In in Ej. destruct (l_ends e Ei) as [E1 E2]. destruct (l_ends f Ej) as [F1 F2].
  apply orb_true_iff in L. rewrite !andb_true_iff, !Nat.eqb_eq in L. unfold joins. destruct (node2 e) as [a|], (node2 f) as [b|].
  - destruct L as [[-> ->]|[-> ->]]; auto.
  - specialize (E2 a eq_refl). destruct L as [[L1 L2]|[L1 L2]]; lia.
  - specialize (F2 b eq_refl). destruct L as [[L1 L2]|[L1 L2]]; lia.
  - destruct L as [[L1 L2]|[L1 L2]]; [left; auto|lia].
Qed.
Lemma es_in : forall u v a, In (u, v, a) es <-> exists e, In e (edges g) /\ u = node1 e /\ v = other_end m e /\ a = edge_attrs e.
Proof.
  intros u v a. unfold es. rewrite in_map_iff. split.
  - intros (e & E & He). exists e. split; [exact He|]. unfold written_edge in E. injection E as <- <- <-. auto.
  - intros (e & He & -> & -> & ->). exists e. auto.
Qed.
Lemma node_flag : forall l v, In (Z.of_nat v, true) (map (written_node g) l) <-> In v l /\ (In v (bnodes g) \/ (uses_virtual_boundary g /\ v = m)).
Proof.
  intros l v. rewrite in_map_iff. unfold written_node. rewrite <- (virtual_iff g HI). fold m. split.
  - intros (i & E & Hi). injection E as E1 E2. apply Nat2Z.inj in E1. subst i. split; [exact Hi|]. rewrite orb_true_iff, andb_true_iff, mem_in, Nat.eqb_eq in E2. exact E2.
  - intros [Hv H]. exists v. split; [|exact Hv]. f_equal. rewrite orb_true_iff, andb_true_iff, mem_in, Nat.eqb_eq. exact H.
Qed.
Lemma node_sign : forall l z b, In (z, b) (map (written_node g) l) -> (0 <= z)%Z.
Proof. intros l z b H. apply in_map_iff in H as (i & E & _). injection E as <- _. lia. Qed.
Lemma end_below : forall e u v, In e (edges g) -> at_ends m e u v -> u < m \/ (uses_virtual_boundary g /\ u = m).
Proof.
  intros e u v He A. destruct (l_ends e He) as [E1 E2]. unfold at_ends, other_end in A. destruct (node2 e) as [x|] eqn:E; [specialize (E2 x eq_refl); left; destruct A as [[A1 A2]|[A1 A2]]; lia|].
  destruct A as [[A1 A2]|[A1 A2]]; [left; lia|right; split; [apply (virtual_edge g HI); eauto|lia]].
Qed.

(** rustworkx *)
Lemma rustworkx_back : writable g -> exists g', read_graph (N := RN) 1%R (to_rustworkx g) (Some (nobs g)) = Ok g' /\ same_graph g g' /\ answers_for g g'.
Proof.
  intros HW. pose proof (virtual_iff g HI) as V. apply read_back; try assumption; unfold to_rustworkx; fold m; fold es; cbn [py_nodes py_edges]; rewrite ?links_all.
  - intros e He. exists (listed (written_edge m e)). split; [apply in_map; unfold es; now apply in_map|]. split; [reflexivity|]. left. reflexivity.
  - intros x Hx. apply in_map_iff in Hx as ([[u v] a] & <- & Hx). apply es_in in Hx as (e & He & -> & -> & ->). exists e. split; [exact He|]. split; [reflexivity|]. left. reflexivity.
  - intros v. rewrite node_flag. split; [intros [_ H]; exact H|]. intros H. split; [|exact H]. apply in_seq. destruct H as [H|[H ->]]; [apply (proj2 HF) in H; change (length (nodes g)) with m in H; destruct (has_virtual_boundary g); lia|]. apply V in H. rewrite H. lia.
  - apply node_sign.
  - intros n H1 H2. rewrite map_length, seq_length. destruct (has_virtual_boundary g); [specialize (H2 (proj1 V eq_refl)); lia|lia].
  - intros n H _ _. rewrite map_length, seq_length in H. destruct (has_virtual_boundary g); lia.
Qed.

(** networkx *)
Lemma touch_in : forall l u x, In x (touch l u) <-> In x l \/ x = u.
Proof.
  intros l u x. unfold touch. destruct (mem u l) eqn:E; [apply mem_in in E; split; [auto|intros [H| ->]; auto]|]. rewrite in_app_iff. cbn. split; [intros [H|[H|[]]]; auto|intros [H|H]; auto].
Qed.
Lemma touch_nodup : forall l u, NoDup l -> NoDup (touch l u).
Proof.
  intros l u ND. unfold touch. destruct (mem u l) eqn:E; [exact ND|]. apply Permutation_NoDup with (u :: l); [rewrite (Permutation_app_comm l [u]); reflexivity|]. constructor; [|exact ND]. intros H. apply mem_in in H. congruence.
Qed.
Lemma nx_nodes_gen : forall (l : list (nat * nat * attrs RN)) acc, NoDup acc ->
  NoDup (fold_left (fun ns x => let '(u, v, _) := x in touch (touch ns u) v) l acc) /\ forall k, In k (fold_left (fun ns x => let '(u, v, _) := x in touch (touch ns u) v) l acc) <-> In k acc \/ exists u v a, In (u, v, a) l /\ (k = u \/ k = v).
Proof.
  induction l as [|[[u v] a] l IH]; intros acc ND; cbn [fold_left].
  - split; [exact ND|]. intros k. split; [auto|]. intros [H|(u & v & a & [] & _)]. exact H.
  - destruct (IH (touch (touch acc u) v)) as [H1 H2]; [now apply touch_nodup, touch_nodup|]. split; [exact H1|]. intros k. rewrite H2, !touch_in. split.
    + intros [[[H|H]|H]|(x & y & b & H & H')]; [now left|right; exists u, v, a; split; [now left|auto]|right; exists u, v, a; split; [now left|auto]|]. right. exists x, y, b. split; [now right|exact H'].
    + intros [H|(x & y & b & [H|H] & H')]; [auto|injection H as <- <- <-; destruct H' as [->| ->]; auto|]. right. eauto 6.
Qed.
Lemma nx_edges_from : forall links order seen u v a, In (u, v, a) (nx_edges (N := RN) seen order links) -> In (u, v, a) links \/ In (v, u, a) links.
Proof.
  intros links. induction order as [|n order IH]; intros seen u v a H; cbn [nx_edges] in H; [destruct H|]. apply in_app_or in H as [H|H]; [|now apply IH in H]. apply in_flat_map in H as ([[x y] b] & Hx & H). destruct (Nat.eqb_spec x n) as [->|N].
  - destruct (mem y seen); [destruct H|]. destruct H as [H|[]]. injection H as <- <- <-. now left.
  - destruct (Nat.eqb_spec y n) as [->|N']; [|destruct H]. destruct (mem x seen); [destruct H|]. destruct H as [H|[]]. injection H as <- <- <-. now right.
Qed.
Lemma nx_edges_to : forall links u v a, In (u, v, a) links -> forall order seen, In u order -> In v order -> ~ In u seen -> ~ In v seen -> In (u, v, a) (nx_edges (N := RN) seen order links) \/ In (v, u, a) (nx_edges seen order links).
Proof.
  intros links u v a HL. induction order as [|n order IH]; intros seen Hu Hv Su Sv; [destruct Hu|]. cbn [nx_edges].
  assert (MF : forall x, ~ In x seen -> mem x seen = false). { intros x Hx. destruct (mem x seen) eqn:E; [apply mem_in in E; contradiction|reflexivity]. }
  destruct (Nat.eq_dec n u) as [->|N1]; [|destruct (Nat.eq_dec n v) as [->|N2]].
  - left. apply in_or_app. left. apply in_flat_map. exists (u, v, a). split; [exact HL|]. rewrite Nat.eqb_refl, (MF v Sv). now left.
  - right. apply in_or_app. left. apply in_flat_map. exists (u, v, a). split; [exact HL|]. destruct (Nat.eqb_spec u v) as [->|_]; [congruence|]. rewrite Nat.eqb_refl, (MF u Su). now left.
  - destruct Hu as [Hu|Hu]; [congruence|]. destruct Hv as [Hv|Hv]; [congruence|]. destruct (IH (n :: seen) Hu Hv) as [H|H]; [intros [H|H]; congruence|intros [H|H]; congruence| |]; [left|right]; apply in_or_app; now right.
Qed.
Lemma touched : forall u, In u (nx_nodes es) <-> exists e v, In e (edges g) /\ at_ends m e u v.
Proof.
  intros u. unfold nx_nodes. rewrite (proj2 (nx_nodes_gen es [] (NoDup_nil _)) u). cbn [In]. split.
  - intros [[]|(x & y & a & H & E)]. apply es_in in H as (e & He & -> & -> & _). destruct E as [->| ->]; [exists e, (other_end m e)|exists e, (node1 e)]; (split; [exact He|]); [left|right]; auto.
  - intros (e & v & He & A). right. exists (node1 e), (other_end m e), (edge_attrs e). split; [apply es_in; eauto|]. destruct A as [[A _]|[_ A]]; auto.
Qed.
Lemma has_edge_touched : forall u, has_edge_at g u -> exists e v, In e (edges g) /\ at_ends m e u v.
Proof.
  intros u (v & a & D). apply get_edge_data_spec in D; [|exact HI]. destruct D as (e & He & J & _). destruct J as [[J1 J2]|[J1 J2]]; [exists e, (other_end m e); split; [exact He|]; left; auto|]. exists e, (node1 e). split; [exact He|]. right. split; [reflexivity|]. unfold other_end. now rewrite J2.
Qed.
Lemma networkx_back : writable g -> (forall v, In v (bnodes g) -> has_edge_at g v) -> (uses_virtual_boundary g \/ m = 0 \/ has_edge_at g (m - 1)) ->
  exists g', read_graph (N := RN) 1%R (to_networkx g) (Some (nobs g)) = Ok g' /\ same_graph g g' /\ answers_for g g'.
Proof.
  intros HW HB HL. pose proof (virtual_iff g HI) as V. apply read_back; try assumption; unfold to_networkx; fold m; fold es; cbn [py_nodes py_edges]; rewrite ?links_all.
  assert (Q1 : forall e, In e (edges g) -> exists x, In x (map listed (nx_edges [] (nx_nodes es) es)) /\ snd x = edge_attrs e /\ (ends x = (Z.of_nat (node1 e), Z.of_nat (other_end m e)) \/ ends x = (Z.of_nat (other_end m e), Z.of_nat (node1 e)))).
  { intros e He. assert (HE : In (node1 e, other_end m e, edge_attrs e) es) by (apply es_in; eauto).
    destruct (nx_edges_to es _ _ _ HE (nx_nodes es) []) as [H|H]; [apply touched; exists e, (other_end m e); split; [exact He|left; auto]|apply touched; exists e, (node1 e); split; [exact He|right; auto]|tauto|tauto| |];
      eexists; (split; [apply in_map; exact H|]); (split; [reflexivity|]); [left|right]; reflexivity. }
  - exact Q1.
  - intros x Hx. apply in_map_iff in Hx as ([[u v] a] & <- & Hx). apply nx_edges_from in Hx as [Hx|Hx]; apply es_in in Hx as (e & He & -> & -> & ->); exists e; (split; [exact He|]); (split; [reflexivity|]); [left|right]; reflexivity.
  - intros v. rewrite node_flag. split; [intros [_ H]; exact H|]. intros H. split; [|exact H]. apply touched. destruct H as [H|[H ->]]; [now apply has_edge_touched, HB|]. apply (virtual_edge g HI) in H as (e & He & E). exists e, (node1 e). split; [exact He|]. right. split; [reflexivity|]. unfold other_end. now rewrite E.
  - apply node_sign.
  - intros n H1 H2. rewrite map_length. assert (L : length (nx_nodes es) <= length (seq 0 n)).
    { apply NoDup_incl_length; [apply nx_nodes_gen; constructor|]. intros u Hu. apply touched in Hu as (e & v & He & A). apply in_seq. destruct (end_below e u v He A) as [L|[L ->]]; [lia|]. specialize (H2 L). lia. }
    now rewrite seq_length in L.
  - intros n H1 H2 H3. destruct HL as [HL|[HL|HL]]; [|lia|].
    + assert (m < n); [|lia]. apply H2. apply node_flag. split; [|right; auto]. apply touched. apply (virtual_edge g HI) in HL as (e & He & E). exists e, (node1 e). split; [exact He|]. right. split; [reflexivity|]. unfold other_end. now rewrite E.
    + apply has_edge_touched in HL as (e & v & He & A). assert (m - 1 < n); [|lia].
      assert (HE : In (node1 e, other_end m e, edge_attrs e) es) by (apply es_in; eauto).
      assert (X : exists x, In x (map listed (nx_edges [] (nx_nodes es) es)) /\ snd x = edge_attrs e /\ (ends x = (Z.of_nat (node1 e), Z.of_nat (other_end m e)) \/ ends x = (Z.of_nat (other_end m e), Z.of_nat (node1 e)))).
      { destruct (nx_edges_to es _ _ _ HE (nx_nodes es) []) as [H|H]; [apply touched; exists e, (other_end m e); split; [exact He|left; auto]|apply touched; exists e, (node1 e); split; [exact He|right; auto]|tauto|tauto| |];
          eexists; (split; [apply in_map; exact H|]); (split; [reflexivity|]); [left|right]; reflexivity. }
      destruct X as (x & Hx & Ea & Ex). apply (H3 x (m - 1) v Hx).
      * unfold kept, meant_weight. rewrite Ea. cbn. now apply HW.
      * unfold between. unfold at_ends in A. destruct A as [[A1 A2]|[A1 A2]]; rewrite A1, A2 in Ex; tauto.
Qed.
End Lists.

(** ** Graphs that are made *)
Lemma read_made : forall G k g, read_graph (N := RN) 1%R G k = Ok g -> Inv g /\ flags_ok RN g.
Proof.
  intros G k g E. destruct (classic (readable G)) as [H|H]; [|rewrite (read_graph_refused G k H) in E; discriminate]. destruct (reading G k H) as (g' & E' & I' & F' & _). rewrite E in E'. injection E' as ->. auto.
Qed.
Lemma made_ok : forall g, made g -> Inv g /\ flags_ok RN g.
Proof.
  intros g H. induction H as [n k|nd no dem|rows cols faults fr ws ps s virtual reps tws mes g LD|G k g E|g x H [I F]].
  - split; [apply new_inv|apply flags_new].
  - assert (E : load_dem RD nd no dem = do_calls (new_graph RN nd no) (map (P_Dem.mcall RD) (mechanisms RD dem))) by exact (load_dem_calls RD dem (new_graph RN nd no)). rewrite E. split; [apply calls_effect, new_inv|apply calls_flags, flags_new].
  - destruct (load_check_matrix_calls (N := RN) rows cols faults fr ws ps s virtual reps tws mes g LD) as (_ & _ & _ & _ & _ & t0 & m0 & _ & Eg). cbv zeta in Eg. rewrite Eg. clear Eg LD.
    match goal with |- context [do_calls (new_graph RN ?a ?b) ?cs] => pose proof (proj1 (calls_effect cs (new_graph RN a b) (new_inv _ _))) as I; pose proof (calls_flags cs (new_graph RN a b) (flags_new RN _ _)) as F end. cbv zeta. destruct (_ && _); [split; [now apply set_boundary_inv|now apply flags_boundary]|now split].
  - exact (read_made G k g E).
  - split; [now apply apply_op_inv|]. exact (flags_run RN [x] g F).
Qed.
Lemma made_rustworkx : forall g, made g -> writable g -> exists g', read_graph (N := RN) 1%R (to_rustworkx g) (Some (nobs g)) = Ok g' /\ same_graph g g' /\ answers_for g g'.
Proof. intros g M. destruct (made_ok g M) as [I F]. exact (rustworkx_back g I F). Qed.
Lemma made_networkx : forall g, made g -> writable g -> (forall v, In v (bnodes g) -> has_edge_at g v) -> (uses_virtual_boundary g \/ num_nodes g = 0 \/ has_edge_at g (num_nodes g - 1)) ->
  exists g', read_graph (N := RN) 1%R (to_networkx g) (Some (nobs g)) = Ok g' /\ same_graph g g' /\ answers_for g g'.
Proof. intros g M. destruct (made_ok g M) as [I F]. exact (networkx_back g I F). Qed.
