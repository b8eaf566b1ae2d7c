(** Decoding a user graph made by calls. *)
From Coq Require Import Reals ZArith NArith List Bool Arith Lia Lra Permutation.
From Verif Require Import M_Base M_Core S_Core S_Session M_Build S_Build P_Tree P_Build P_Convert P_Convert2 P_UserCorr
  M_Flip M_Search M_ToEdges M_Double P_Double M_Discretise P_Discretise M_Merge P_Merge M_Pipeline M_UserGraph S_UserGraph P_UserGraph S_Pipeline.
Import ListNotations.
Local Open Scope nat_scope.

(** ** The declared boundary nodes are those marked *)
Section Flags.
Variable N : numops.
Definition flags_ok (g : ugraph N) : Prop :=
  (forall v, is_bd (node_at (nodes g) v) = memb v (bnodes g)) /\ forall v, In v (bnodes g) -> v < length (nodes g).
Lemma bd_upd : forall ns u f v, (forall x, is_bd (f x) = is_bd x) -> is_bd (node_at (upd_nth ns u f) v) = is_bd (node_at ns v).
Proof.
  intros ns u f v Hf. destruct (Nat.lt_ge_cases u (length ns)) as [L|L].
  - unfold node_at. rewrite upd_nth_nth by exact L. destruct (Nat.eqb_spec v u) as [->|]; [apply Hf|reflexivity].
  - assert (upd_nth ns u f = ns) as ->; [|reflexivity]. revert u L. induction ns as [|a ns IH]; intros [|u] L; simpl in *; try reflexivity; try lia. f_equal. apply IH. lia.
Qed.
Lemma bd_flag : forall b ns u v, u < length ns -> is_bd (node_at (set_flag b ns u) v) = if v =? u then b else is_bd (node_at ns v).
Proof. intros b ns u v L. unfold set_flag, node_at. rewrite upd_nth_nth by exact L. destruct (Nat.eqb_spec v u) as [->|]; reflexivity. Qed.
Lemma bd_clear : forall bs ns v, (forall u, In u bs -> u < length ns) -> is_bd (node_at (fold_left (set_flag false) bs ns) v) = if memb v bs then false else is_bd (node_at ns v).
Proof.
  induction bs as [|b bs IH]; intros ns v H; [reflexivity|]. cbn [fold_left]. rewrite IH.
  - rewrite bd_flag by (apply H; now left). simpl. destruct (v =? b); simpl; [now destruct (memb v bs)|reflexivity].
  - intros u Hu. rewrite (proj1 (set_flag_props false ns b)). apply H. now right.
Qed.
Lemma bd_mark : forall ns u v, is_bd (node_at (mark ns u) v) = if v =? u then true else is_bd (node_at ns v).
Proof.
  intros ns u v. unfold mark. destruct (Nat.leb_spec (length ns) u) as [L|L]; [|now apply bd_flag]. rewrite bd_flag by (rewrite resize_length; lia). now rewrite resize_node.
Qed.
Lemma bd_marks : forall bs ns v, is_bd (node_at (fold_left mark bs ns) v) = if memb v bs then true else is_bd (node_at ns v).
Proof.
  induction bs as [|b bs IH]; intros ns v; [reflexivity|]. cbn [fold_left]. rewrite IH, bd_mark. simpl. destruct (v =? b); simpl; [now destruct (memb v bs)|reflexivity].
Qed.
Lemma flags_boundary : forall (g : ugraph N) b, flags_ok g -> flags_ok (set_boundary g b).
Proof.
  intros g b [H1 H2]. destruct (set_boundary_props g b) as (_ & _ & _ & L & _). split.
  - intros v. change (nodes (set_boundary g b)) with (fold_left mark b (fold_left (set_flag false) (bnodes g) (nodes g))). change (bnodes (set_boundary g b)) with b.
    rewrite bd_marks, bd_clear, H1 by exact H2. destruct (memb v b); [reflexivity|]. now destruct (memb v (bnodes g)).
  - change (bnodes (set_boundary g b)) with b. intros v Hv. rewrite L. cbn [nodes_needed]. apply Nat.lt_le_trans with (fold_right (fun u k => Nat.max (S u) k) 0 b); [|lia].
    clear - Hv. induction b as [|a b IH]; [destruct Hv|]. cbn [fold_right]. destruct Hv as [->|Hv]; [apply Nat.le_max_l|]. specialize (IH Hv). unfold lt in *. etransitivity; [exact IH|apply Nat.le_max_r].
Qed.
Lemma flags_merge : forall (g : ugraph N) i o w p s, flags_ok g -> flags_ok (fst (merge_edge g i o w p s)).
Proof. intros g i o w p s [H1 H2]. destruct (merge_shape g i o w p s) as (E1 & E2 & _). split; intros v; rewrite E1, E2; auto. Qed.
Lemma flags_resize : forall (g : ugraph N) k es o a nd, flags_ok g -> flags_ok (mkG (resize (nodes g) k) es (bnodes g) o a nd).
Proof.
  intros g k es o a nd [H1 H2]. split; intros v; cbn [nodes bnodes]; [rewrite resize_node; apply H1|]. intros Hv. rewrite resize_length. apply H2 in Hv. lia.
Qed.
Lemma flags_add : forall (g : ugraph N) u v o w p s, flags_ok g -> flags_ok (fst (add_or_merge g u v o w p s)).
Proof.
  intros g u v o w p s HF. unfold add_or_merge. set (ns := resize (nodes g) _).
  destruct (index_of_neighbor (edges g) (nbrs (node_at ns u)) v).
  - apply flags_merge. apply flags_resize. exact HF.
  - cbn [fst]. pose proof (flags_resize g (match v with Some v => Nat.max u v | None => u end + 1) (edges g) 0 true true HF) as [H1 H2]. cbn [nodes bnodes] in *. fold ns in H1, H2. split; cbn [nodes bnodes].
    + intros x. destruct v as [v|]; [destruct (u =? v)|]; rewrite ?bd_upd by reflexivity; apply H1.
    + intros x Hx. destruct v as [v|]; [destruct (u =? v)|]; rewrite ?upd_nth_length; now apply H2.
Qed.
Lemma flags_run : forall ops (g : ugraph N), flags_ok g -> flags_ok (run g ops).
Proof.
  induction ops as [|x ops IH]; intros g H; [exact H|]. apply (IH (apply_op g x)). destruct x as [u v o w p s|b|k]; cbn [apply_op].
  - unfold py_add. destruct (w_exceeds N w); [exact H|]. now apply flags_add.
  - now apply flags_boundary.
  - exact H.
Qed.
Lemma flags_new : forall n k, flags_ok (new_graph N n k).
Proof.
  intros n k. split; [|intros v []]. intros v. cbn. unfold node_at. destruct (Nat.lt_ge_cases v n) as [L|L]; [now rewrite nth_repeat|]. rewrite nth_overflow; [reflexivity|]. rewrite repeat_length. exact L.
Qed.
End Flags.

(** ** Rounding *)
Local Open Scope R_scope.
Lemma Int_part_mono : forall x y, x <= y -> (Int_part x <= Int_part y)%Z.
Proof. intros x y H. destruct (base_Int_part x), (base_Int_part y). assert (Int_part x < Int_part y + 1)%Z; [|lia]. apply lt_IZR. rewrite plus_IZR. lra. Qed.
Lemma round_sum : forall x y, 0 <= x + y -> (0 <= round x + round y)%Z.
Proof.
  assert (P : forall x, 0 <= x -> (0 <= Int_part (x + / 2))%Z).
  { intros x H. destruct (base_Int_part (x + / 2)). assert (-1 < Int_part (x + / 2))%Z; [|lia]. apply lt_IZR. lra. }
  intros x y H. unfold round. destruct (Rle_dec 0 x) as [Hx|Hx], (Rle_dec 0 y) as [Hy|Hy].
  - pose proof (P x Hx). pose proof (P y Hy). lia.
  - pose proof (Int_part_mono (- y + / 2) (x + / 2)). assert (- y + / 2 <= x + / 2) by lra. intuition lia.
  - pose proof (Int_part_mono (- x + / 2) (y + / 2)). assert (- x + / 2 <= y + / 2) by lra. intuition lia.
  - lra.
Qed.
Lemma discretise_sum : forall c x y, 0 <= c -> 0 <= x + y -> (0 <= discretise c x + discretise c y)%Z.
Proof.
  intros c x y Hc H. unfold discretise. assert (0 <= round (fl (x * c)) + round (fl (y * c)))%Z; [|lia]. apply round_sum.
  assert (L : - (y * c) <= x * c) by (assert (0 <= (x + y) * c) by (now apply Rmult_le_pos); lra). apply fl_le in L. rewrite fl_opp in L. lra.
Qed.
Lemma discretise_pos : forall c x, 0 <= c -> 0 <= x -> (0 <= discretise c x)%Z.
Proof. intros c x Hc H. pose proof (discretise_sum c x x Hc ltac:(lra)). lia. Qed.
(** The constant, or integral weights. *)
Definition raw_step (M : R) : R := M / 33554430 * (1 + / 16777216).
Lemma constant_cases : forall ws c M, normalising_constant ws = Ok c -> (forall w, In w ws -> Rabs w <= M) ->
  0 < c /\ 2 * c <= IZR (2 ^ 1024) /\ ((c = 1 /\ forall w, In w ws -> exists k, w = IZR k) \/ ((/ 2 + / IZR (2 ^ 29)) * / c <= raw_step M)).
Proof.
  intros ws c M Hc HM. destruct (constant_value ws c Hc) as [[-> HI]|((P & L) & LC & E)].
  - split; [lra|]. split; [rewrite Rmult_1_r; apply IZR_le; discriminate|]. left. split; [reflexivity|]. intros w Hw. now apply HI.
  - destruct (max_abs_fold ws 0) as (_ & _ & M3). fold (max_abs ws) in *. destruct M3 as [Z|(w & Hw & Ew)]; [lra|]. specialize (HM w Hw). rewrite <- Ew in HM.
    set (m := max_abs ws) in *. clearbody m. set (q := 16777215 / m) in *. assert (Q : 0 < q) by (apply Rdiv_lt_0_compat; lra). apply Rabs_le_inv in E.
    assert (C : 0 < q * (1 - / 9007199254740992) <= c) by lra. split; [lra|]. split; [now left|]. right.
    apply Rle_trans with ((/ 2 + / IZR (2 ^ 29)) * / (q * (1 - / 9007199254740992))).
    + apply Rmult_le_compat_l; [change (IZR (2 ^ 29)) with 536870912; lra|]. apply Rinv_le_contravar; lra.
    + replace (/ (q * (1 - / 9007199254740992))) with (m * (9007199254740992 / (16777215 * 9007199254740991))) by (unfold q; field; lra).
      unfold raw_step. change (IZR (2 ^ 29)) with 536870912. lra.
Qed.
(** ** Sums of weights *)
Lemma step_le : forall M, 0 <= M -> 0 <= raw_step M <= half_step M.
Proof. intros M H. unfold raw_step, half_step. change (IZR (2 * (2 ^ 24 - 1))) with 33554430. change (IZR (2 ^ 20)) with 1048576. lra. Qed.
Lemma half_step_pos : forall M, 0 <= M -> 0 <= half_step M.
Proof. intros M H. pose proof (step_le M H). lra. Qed.
Lemma scalable_some : forall (g : ugraph RN) e, In e (edges g) -> 1 <= Rabs (weight e) -> scalable g.
Proof. intros g e He H. right. exists e. split; [exact He|]. eapply Rle_trans; [|exact H]. rewrite <- Rinv_1. apply Rinv_le_contravar; [lra|]. apply (IZR_le 1). discriminate. Qed.
Lemma largest_pos : forall (F : list R) M, (forall w, In w F -> Rabs w <= M) -> F = [] \/ 0 <= M.
Proof. intros [|w F] M H; [now left|]. right. apply Rle_trans with (Rabs w); [apply Rabs_pos|]. apply H. now left. Qed.
Lemma rsum_bound : forall F M, (forall w, In w F -> Rabs w <= M) -> Rabs (rsum F) <= INR (length F) * M.
Proof.
  induction F as [|w F IH]; intros M H; [simpl; rewrite Rabs_R0; lra|]. cbn [rsum length]. rewrite S_INR. pose proof (Rabs_triang w (rsum F)).
  specialize (IH M (fun x Hx => H x (or_intror Hx))). specialize (H w (or_introl eq_refl)). lra.
Qed.
Lemma zsum_integral : forall ws c, normalising_constant ws = Ok c -> (forall w, In w ws -> exists k, w = IZR k) -> forall F, (forall w, In w F -> In w ws) ->
  exists k, zsum_of c F = (2 * k)%Z /\ rsum F = IZR k.
Proof.
  intros ws c HC HI. induction F as [|w F IH]; intros H; [exists 0%Z; split; reflexivity|]. destruct (IH (fun x Hx => H x (or_intror Hx))) as (k & E1 & E2).
  destruct (HI w (H w (or_introl eq_refl))) as [k1 Ek]. exists (k1 + k)%Z. cbn [zsum_of rsum]. rewrite (discretise_integral ws c HC HI w k1 (H w (or_introl eq_refl)) Ek), E1, E2, Ek, plus_IZR. split; [lia|reflexivity].
Qed.
Lemma sum_raw : forall ws c M, normalising_constant ws = Ok c -> (forall w, In w ws -> Rabs w <= M) -> forall F, (forall w, In w F -> In w ws) ->
  Rabs (IZR (zsum_of c F) / (2 * c) - rsum F) <= INR (length F) * raw_step M.
Proof.
  intros ws c M HC HW F HF. destruct (constant_cases ws c M HC HW) as (Hc & _ & [[E1 HI]|Hs]).
  - destruct (zsum_integral ws c HC HI F HF) as (k & X1 & X2). rewrite X1, X2, E1, mult_IZR. replace (2 * IZR k / (2 * 1) - IZR k) with 0 by field. rewrite Rabs_R0.
    destruct (largest_pos F M) as [-> |P]; [intros w Hw; apply HW; now apply HF|simpl; lra|]. apply Rmult_le_pos; [apply pos_INR|]. now apply step_le.
  - pose proof (error_bound ws c HC F HF) as X.
    replace (IZR (zsum_of c F) / (2 * c) - rsum F) with ((IZR (zsum_of c F) / 2 - c * rsum F) * / c) by (field; lra).
    rewrite Rabs_mult, (Rabs_pos_eq (/ c)) by (left; now apply Rinv_0_lt_compat).
    apply Rle_trans with (INR (length F) * (/ 2 + / IZR (2 ^ 29)) * / c); [apply Rmult_le_compat_r; [left; now apply Rinv_0_lt_compat|exact X]|].
    rewrite Rmult_assoc. apply Rmult_le_compat_l; [apply pos_INR|exact Hs].
Qed.
Lemma sum_error : forall ws c M, normalising_constant ws = Ok c -> (forall w, In w ws -> Rabs w <= M) -> forall F, (forall w, In w F -> In w ws) ->
  Rabs (IZR (zsum_of c F) / (2 * c) - rsum F) <= INR (length F) * half_step M.
Proof.
  intros ws c M HC HW F HF. eapply Rle_trans; [exact (sum_raw ws c M HC HW F HF)|]. destruct (largest_pos F M) as [-> |P]; [intros w Hw; apply HW; now apply HF|simpl; lra|].
  apply Rmult_le_compat_l; [apply pos_INR|now apply step_le].
Qed.
Lemma sum_reported : forall ws c M, normalising_constant ws = Ok c -> (forall w, In w ws -> Rabs w <= M) -> forall F, (forall w, In w F -> In w ws) ->
  Rabs (reported (2 * c) (zsum_of c F) - rsum F) <= INR (length F) * half_step M.
Proof.
  intros ws c M HC HW F HF. pose proof (sum_raw ws c M HC HW F HF) as E1. destruct (constant_cases ws c M HC HW) as (Hc & HL & _).
  assert (HB : forall w, In w F -> Rabs w <= M) by (intros w Hw; apply HW; now apply HF).
  assert (P2 : 0 < 2 * c) by lra. pose proof (fl_quotient (zsum_of c F) (2 * c) P2 HL) as E2. fold (reported (2 * c) (zsum_of c F)) in E2.
  set (x := IZR (zsum_of c F) / (2 * c)) in *. pose proof (triangle _ _ _ _ _ E2 E1) as E3. pose proof (rsum_bound F M HB) as B.
  assert (AX : Rabs x <= INR (length F) * raw_step M + INR (length F) * M) by (replace x with ((x - rsum F) + rsum F) by ring; eapply Rle_trans; [apply Rabs_triang|lra]).
  eapply Rle_trans; [exact E3|]. destruct (largest_pos F M HB) as [-> |P]; [simpl in *; lra|]. pose proof (pos_INR (length F)) as N. set (n := INR (length F)) in *. clearbody n.
  unfold raw_step, half_step in *. change (IZR (2 * (2 ^ 24 - 1))) with 33554430. change (IZR (2 ^ 20)) with 1048576.
  assert (NM : 0 <= n * M) by now apply Rmult_le_pos. lra.
Qed.
Lemma sum_reported_exact : forall ws c, normalising_constant ws = Ok c -> (forall w, In w ws -> exists k, w = IZR k) -> forall F, (forall w, In w F -> In w ws) ->
  Rabs (rsum F) <= IZR (2 ^ 52) -> reported (2 * c) (zsum_of c F) = rsum F.
Proof.
  intros ws c HC HI F HF HB. destruct (zsum_integral ws c HC HI F HF) as (k & X1 & X2). rewrite X1, X2, (normalising_integral ws c HC HI), Rmult_1_r in *. apply fl_half.
  apply le_IZR. now rewrite abs_IZR.
Qed.

(** ** A graph made by calls and its discretised edges *)
Section Graph.
Variable g : ugraph RN.
Hypothesis INV : Inv g.
Hypothesis FL : flags_ok RN g.
Hypothesis WR : forall e, In e (edges g) -> w_exceeds RN (weight e) = false.
Let ws := map weight (edges g) : list R.
Let n := num_nodes g.
Let B := fun v => is_boundary_node g (Some v).

Lemma bd_bnodes : forall v, B v = true <-> In v (bnodes g).
Proof. intros v. unfold B, is_boundary_node. rewrite (proj1 FL). apply memb_In. Qed.
Lemma bd_false : forall v, B v = false <-> ~ In v (bnodes g).
Proof. intros v. rewrite <- bd_bnodes. destruct (B v); split; intros; congruence. Qed.
Lemma constant_exists : scalable g -> exists c, normalising_constant ws = Ok c.
Proof.
  intros SC.
  pose proof (normalising_throws ws) as T. assert (NT : normalising_constant ws <> Throw).
  { rewrite T. intros (w & Hw & L). apply in_map_iff in Hw as (e & <- & He). specialize (WR e He). cbn in WR. unfold Rltb in WR. destruct (Rlt_dec _ _) as [|H]; [discriminate|].
    unfold max_user_weight in H. change (2 ^ 24 - 1)%Z with 16777215%Z in L. lra. }
  assert (NU : normalising_constant ws <> UB).
  { apply normalising_defined. destruct SC as [H|(e & He & H)]; [left|right].
    - intros w Hw. apply in_map_iff in Hw as (e & <- & He). now apply H.
    - exists (weight e). split; [now apply in_map|exact H]. }
  unfold normalising_constant in *. destruct (Rlt_dec _ _); [congruence|]. destruct (forallb is_integral ws); [eauto|]. destruct (Rle_dec _ _); [congruence|eauto].
Qed.
Lemma edges_ordered : ForallOrdPairs (fun e f : uedge RN => ~ joins e (node1 f) (node2 f)) (edges g).
Proof.
  destruct INV as (_ & _ & S). unfold simple in S. revert S. clear. generalize (edges g). clear g. intros l. induction l as [|e l IH]; intros S; constructor.
  - apply Forall_forall. intros f Hf J. apply In_nth_error in Hf as [i Hi]. discriminate (S 0%nat (Datatypes.S i) e f eq_refl Hi J).
  - apply IH. intros i j a b Ha Hb J. pose proof (S (Datatypes.S i) (Datatypes.S j) a b Ha Hb J). lia.
Qed.
Lemma edges_NoDup : NoDup (edges g).
Proof.
  pose proof edges_ordered as H. revert H. clear. generalize (edges g). intros l0 H. induction H as [|e l He H IH]; constructor; [|exact IH]. intros Hi. apply (proj1 (Forall_forall _ _) He e Hi). now left.
Qed.
Lemma joined_same : forall e f, In e (edges g) -> In f (edges g) -> joins e (node1 f) (node2 f) -> e = f.
Proof.
  intros e f He Hf J. apply In_nth_error in He as [i Hi]. apply In_nth_error in Hf as [j Hj]. destruct INV as (_ & _ & S). pose proof (S i j e f Hi Hj J). congruence.
Qed.

Section Constant.
Variable c : R.
Hypothesis HC : normalising_constant ws = Ok c.
Let E := map (discretised_edge c) (edges g).

Lemma c_pos : 0 < c.
Proof. destruct (constant_cases ws c (max_abs ws) HC) as [H _]; [|exact H]. intros w Hw. destruct (max_abs_fold ws 0) as (_ & H & _). now apply H. Qed.
Lemma E_below : nodes_below n E.
Proof.
  intros u x w o H. apply in_map_iff in H as (e & Ee & He). injection Ee as <- <- _ _. destruct INV as (_ & HN & _). destruct (HN e He) as [H1 H2]. split; [exact H1|].
  destruct (node2 e) as [v|] eqn:Ev; [|exact Logic.I]. now apply H2.
Qed.
Lemma E_fop : ForallOrdPairs (fun e f => ~ parallel e f) E.
Proof.
  unfold E. pose proof edges_ordered as H. revert H. clear. generalize (edges g). intros l0 H. induction H as [|e l He H IH]; simpl; constructor; [|exact IH]. apply Forall_forall. intros y Hy. apply in_map_iff in Hy as (f & <- & Hf).
  pose proof (proj1 (Forall_forall _ _) He f Hf) as J. intros P. apply J. destruct e as [a x o1 w1 p1], f as [b y o2 w2 p2]. unfold joins. cbn in P |- *. destruct P as [[-> ->]|[-> ->]]; auto.
Qed.
Lemma E_spec : forall y, In y E -> Z.even (s_weight y) = true /\ (Z.abs (s_weight y) <= max_weight)%Z.
Proof.
  intros y Hy. apply in_map_iff in Hy as (e & <- & He). destruct (discretise_spec ws c HC (weight e) (in_map weight _ _ He)) as (H1 & H2 & _). split; [exact H1|exact H2].
Qed.
Lemma d_inj : forall e f, In e (edges g) -> In f (edges g) -> discretised_edge c e = discretised_edge c f -> e = f.
Proof. intros e f He Hf H. injection H as H1 H2 _ _. apply joined_same; auto. left. auto. Qed.
Lemma d_NoDup : forall F, incl F (edges g) -> NoDup F -> NoDup (map (discretised_edge c) F).
Proof.
  intros F HI HN. induction HN as [|e F He HN IH]; simpl; constructor.
  - intros H. apply in_map_iff in H as (f & Ef & Hf). apply He. rewrite (d_inj e f); auto; apply HI; [now left|now right].
  - apply IH. intros x Hx. apply HI. now right.
Qed.
Lemma d_degree : forall v F, s_degree v (map (discretised_edge c) F) = total_degree v F.
Proof. intros v F. induction F as [|e F IH]; [reflexivity|]. cbn [map]. rewrite s_degree_cons, IH. reflexivity. Qed.
Lemma d_flips : forall k F, s_flips k (map (discretised_edge c) F) = flips_observable k F.
Proof. intros k F. induction F as [|e F IH]; [reflexivity|]. unfold s_flips, flips_observable in *. cbn [map fold_right]. rewrite IH. reflexivity. Qed.
Lemma d_total : forall F, s_total (map (discretised_edge c) F) = zsum_of c (map weight F).
Proof. intros F. induction F as [|e F IH]; [reflexivity|]. unfold s_total in *. cbn [map fold_right zsum_of]. rewrite IH. reflexivity. Qed.
Lemma w_total : forall F, total_weight F = rsum (map weight F).
Proof. intros F. induction F as [|e F IH]; [reflexivity|]. unfold total_weight in *. cbn [map fold_right rsum]. rewrite IH. reflexivity. Qed.
Lemma corr_up : forall F evs, corrects g F evs -> NoDup (map (discretised_edge c) F) /\ u_explains E B (map (discretised_edge c) F) evs.
Proof.
  intros F evs (H1 & H2 & H3). split; [now apply d_NoDup|]. split.
  - intros y Hy. apply in_map_iff in Hy as (e & <- & He). apply in_map. now apply H2.
  - intros v Hv. rewrite d_degree. apply H3. now apply bd_false.
Qed.
Lemma pull : forall L, incl L E -> exists F, incl F (edges g) /\ L = map (discretised_edge c) F.
Proof.
  induction L as [|y L IH]; intros H; [exists []; split; [intros x []|reflexivity]|]. destruct IH as (F & H1 & ->); [intros x Hx; apply H; now right|].
  assert (Hy : In y E) by (apply H; now left). apply in_map_iff in Hy as (e & <- & He). exists (e :: F). split; [|reflexivity]. intros x [<-|Hx]; auto.
Qed.
Lemma corr_down : forall L evs, NoDup L -> u_explains E B L evs -> exists F, corrects g F evs /\ L = map (discretised_edge c) F.
Proof.
  intros L evs HN [HI HE]. destruct (pull L HI) as (F & H1 & ->). exists F. split; [|reflexivity]. split; [exact (NoDup_map_inv _ _ HN)|]. split; [exact H1|].
  intros v Hv. rewrite <- d_degree. apply HE. now apply bd_false.
Qed.

(** Weights. *)
Lemma sub_weights : forall F w, incl F (edges g) -> In w (map weight F) -> In w ws.
Proof. intros F w HF Hw. apply in_map_iff in Hw as (e & <- & He). apply in_map. now apply HF. Qed.
Lemma all_weights : forall P : R -> Prop, (forall e, In e (edges g) -> P (weight e)) -> forall w, In w ws -> P w.
Proof. intros P H w Hw. apply in_map_iff in Hw as (e & <- & He). now apply H. Qed.
Lemma weight_error : forall F M, incl F (edges g) -> (forall e, In e (edges g) -> Rabs (weight e) <= M) ->
  Rabs (IZR (s_total (map (discretised_edge c) F)) / (2 * c) - total_weight F) <= INR (length F) * half_step M.
Proof.
  intros F M HF HM. rewrite d_total, w_total, <- (map_length (fun e : uedge RN => weight e) F). apply (sum_error ws); [exact HC|now apply (all_weights (fun w => Rabs w <= M))|]. intros w. now apply sub_weights.
Qed.
Lemma weight_exact : forall F, incl F (edges g) -> (forall e, In e (edges g) -> exists k, weight e = IZR k) -> IZR (s_total (map (discretised_edge c) F)) / (2 * c) = total_weight F.
Proof.
  intros F HF HI. pose proof (all_weights (fun w => exists k, w = IZR k) HI) as HW. rewrite d_total, w_total.
  destruct (zsum_integral ws c HC HW (map weight F) (fun w => sub_weights F w HF)) as (k & -> & ->). rewrite (normalising_integral ws c HC HW), mult_IZR. field.
Qed.
Lemma weight_told : forall F, incl F (edges g) -> weight_reported g (reported (2 * c) (s_total (map (discretised_edge c) F))) F.
Proof.
  intros F HF. split; rewrite d_total, w_total.
  - intros M HM. rewrite <- (map_length (fun e : uedge RN => weight e) F). apply (sum_reported ws); [exact HC|now apply (all_weights (fun w => Rabs w <= M))|]. intros w. now apply sub_weights.
  - intros HI. apply (sum_reported_exact ws); [exact HC|exact (all_weights (fun w => exists k, w = IZR k) HI)|]. intros w. now apply sub_weights.
Qed.

(** The conditions under which the conversion is harmless. *)
Hypothesis HARM : conversion_harmless g.
Lemma bkey_boundary : forall e k, bkey B (discretised_edge c e) = Some k -> boundary_edge_of g k e.
Proof.
  intros e k H. unfold bkey, discretised_edge, convert_edge in H. unfold boundary_edge_of. destruct (node2 e) as [v|] eqn:Ev; cbn [is_bnd_node at_boundary] in *.
  - destruct (B v) eqn:Bv, (B (node1 e)) eqn:Bu; cbn [andb negb] in H; try discriminate; injection H as <-.
    + split; [now apply bd_false|]. left. split; [reflexivity|now apply bd_bnodes].
    + split; [now apply bd_false|]. right. split; [reflexivity|now apply bd_bnodes].
  - destruct (B (node1 e)) eqn:Bu; cbn [andb negb] in H; try discriminate. injection H as <-. split; [now apply bd_false|]. left. auto.
Qed.
Lemma E_dropped : forall y, In y E -> convert_edge B y = Dropped -> (0 <= s_weight y)%Z.
Proof.
  intros y Hy H. apply in_map_iff in Hy as (e & <- & He). apply discretise_pos; [left; apply c_pos|]. apply (proj1 HARM e He); unfold discretised_edge, convert_edge in H.
  - destruct (node2 e) as [v|]; cbn [is_bnd_node] in H; destruct (B (node1 e)) eqn:Bu; try destruct (B v); cbn [andb negb] in H; try discriminate; now apply bd_bnodes.
  - destruct (node2 e) as [v|] eqn:Ev; cbn [is_bnd_node at_boundary] in *; [|exact Logic.I]. apply bd_bnodes. destruct (B (node1 e)) eqn:Bu, (B v); cbn [andb negb] in H; congruence.
Qed.
Lemma E_pairs : forall y z k, In y E -> In z E -> y <> z -> bkey B y = Some k -> bkey B z = Some k -> (0 <= s_weight y + s_weight z)%Z.
Proof.
  intros y z k Hy Hz Hn Ky Kz. apply in_map_iff in Hy as (e & <- & He). apply in_map_iff in Hz as (f & <- & Hf). apply discretise_sum; [left; apply c_pos|].
  apply (proj2 HARM e f k He Hf); [intros ->; congruence|now apply bkey_boundary|now apply bkey_boundary].
Qed.
End Constant.
End Graph.
