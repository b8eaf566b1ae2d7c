(** The list of edges: an optimal selection. *)
From Coq Require Import ZArith NArith List Bool Arith Lia Permutation.
From Verif Require Import M_Base M_Core M_Session S_Core S_Session M_Build S_Build S_Decode M_Flip S_Reweight S_Flip M_Search S_Search M_ToEdges S_ToEdges
  P_Build P_Convert P_Convert2 P_Reweight P_Flip P_CorePath P_CoreDecode P_Decode P_Signed P_Search P_Search2 P_Search3 P_ToEdges.
Import ListNotations.
Local Open Scope nat_scope.

Lemma pair_parallel : forall e f, same_edge (s_pair e) (s_pair f) = true -> parallel e f.
Proof.
  intros [[[u x] w] o] [[[u' x'] w'] o'] H. apply same_edge_spec in H. cbn in *. destruct H as [H|[-> ->]]; [injection H as -> ->; left; auto|right; auto].
Qed.
Lemma occ_cons' : forall e a l, occurrences e (a :: l) = (if same_edge e a then 1 else 0) + occurrences e l.
Proof. exact occ_cons. Qed.
(** Counting suffices for [lists_edges]. *)
Lemma lists_of_counts : forall out F, NoDup F -> (forall e f, In e F -> In f F -> parallel e f -> e = f) ->
  (forall p, In p out -> exists e, In e F /\ same_edge (s_pair e) p = true) -> (forall e, In e F -> occurrences (s_pair e) out = 1) -> lists_edges out F.
Proof.
  induction out as [|p out IH]; intros F ND UQ H1 H2.
  - destruct F as [|e F]; [exists []; split; constructor|]. specialize (H2 e (or_introl eq_refl)). discriminate.
  - destruct (H1 p (or_introl eq_refl)) as (e & He & Hp). destruct (in_split _ _ He) as (F1 & F2 & ->).
    assert (Pm : Permutation (F1 ++ e :: F2) (e :: F1 ++ F2)) by (symmetry; apply Permutation_middle).
    pose proof (Permutation_NoDup Pm ND) as ND'. inversion ND' as [|? ? Hn ND2]; subst.
    assert (Occ : forall e', In e' (F1 ++ F2) -> same_edge (s_pair e') p = false).
    { intros e' He'. destruct (same_edge (s_pair e') p) eqn:Es; [|reflexivity]. exfalso. assert (e' = e); [|subst e'; contradiction]. apply UQ; [eapply Permutation_in; [symmetry; exact Pm|]; now right|exact He|].
      apply pair_parallel. eapply same_edge_trans; [exact Es|]. now rewrite same_edge_sym. }
    destruct (IH (F1 ++ F2) ND2) as (L & L1 & L2).
    + intros a b Ha Hb. apply UQ; eapply Permutation_in; try (symmetry; exact Pm); now right.
    + intros p' Hp'. destruct (H1 p' (or_intror Hp')) as (e' & He' & Hs). apply (Permutation_in _ Pm) in He' as [->|He']; [|exists e'; auto].
      exfalso. pose proof (H2 e' He) as Oe. rewrite occ_cons, Hp in Oe. assert (0 < occurrences (s_pair e') out) by (apply occ_pos; exists p'; auto). lia.
    + intros e' He'. pose proof (H2 e') as Oe. rewrite occ_cons, (Occ e' He') in Oe. apply Oe. eapply Permutation_in; [symmetry; exact Pm|]. now right.
    + exists (e :: L). split; [etransitivity; [apply perm_skip; exact L1|]; now symmetry|]. constructor; [|exact L2]. now rewrite same_edge_sym.
Qed.

Lemma toggle_In : forall e F f, NoDup F -> In f (toggle e F) <-> (f = e /\ ~ In e F) \/ (f <> e /\ In f F).
Proof.
  intros e F f ND. unfold toggle. destruct (in_dec edge_dec e F) as [H|H].
  - split; [intros Hf; apply in_remove in Hf as [H1 H2]; auto|]. intros [[-> H1]|[H1 H2]]; [contradiction|]. now apply in_in_remove.
  - cbn [In]. split; [intros [<-|Hf]; [auto|right; split; [congruence|exact Hf]]|]. intros [[-> _]|[_ H1]]; auto.
Qed.
Lemma cancel_In : forall G F f, wf_graph G -> Forall (is_edge G) F -> In f (cancel F) <-> Nat.odd (count_occ edge_dec F f) = true.
Proof.
  intros G F f WG HF. induction F as [|e F IH]; [cbn; split; [intros []|discriminate]|]. inversion HF as [|? ? H1 H2]; subst. cbn [cancel fold_right]. fold (cancel F).
  destruct (P_CorePath.cancel_spec G WG F H2) as (ND & _). rewrite (toggle_In e _ f ND). cbn [count_occ]. specialize (IH H2). destruct (edge_dec e f) as [->|Hne].
  - rewrite Nat.odd_succ, <- Nat.negb_odd. destruct (Nat.odd (count_occ edge_dec F f)); cbn; intuition congruence.
  - intuition congruence.
Qed.

Definition entry_at (G : graph) (c : nat * nat) : nat * option nat :=
  (fst c, match nth_error (nbrs G (fst c)) (snd c) with Some (x, _, _) => x | None => None end).
Lemma entries_cells : forall G cells, Forall (is_cell G) cells -> Forall2 (cell_entry G) cells (map (entry_at G) cells).
Proof.
  intros G cells H. induction H as [|[u i] l Hc H IH]; cbn [map]; constructor; [|exact IH]. split; [reflexivity|]. unfold entry_at, is_cell in *. cbn [fst snd] in *.
  destruct (nth_error (nbrs G u) i) as [[[x w] o]|] eqn:E; [|congruence]. exists w, o. exact E.
Qed.

Section Main.
Variables (nobs n : nat) (E : list sedge) (g : mgraph) (sg : sgraph) (bnd : list bool).
Hypothesis HBu : build nobs n E = Ok g.
Hypothesis HSu : sbuild n E = Ok sg.
Hypothesis NP : ForallOrdPairs (fun e f => ~ parallel e f) E.
Hypothesis EV : forall e, In e E -> Z.even (s_weight e) = true.
Hypothesis BN : boundary_bare bnd E.
Let G := adj g.
Let SG := sadj sg.
Let I := neg_info_of nobs g bnd.

Lemma sg_facts : exists g0, build 0 n E = Ok g0 /\ SG = adj g0 /\ shape G SG /\ sneg sg = neg_pairs E /\ unmarked SG (marks_of sg) /\ wf_graph SG.
Proof.
  destruct (sbuild_alike nobs n E g HBu) as (g0 & sg' & H1 & H2 & HA). rewrite HSu in H2. injection H2 as <-. exists g0. pose proof (alike_unmarked _ _ _ _ HA) as HU. destruct HA as [A1 A2 A3 A4].
  split; [exact H1|]. split; [exact A1|]. unfold G, SG. rewrite A1. split; [exact A2|]. split; [exact A3|]. rewrite A1 in HU. split; [exact HU|]. exact (built_wf 0 n E g0 (build_built _ _ _ _ H1) NP EV).
Qed.

(** A cell's edge is an edge given by the caller. *)
Lemma cell_edge : forall c e, is_cell SG c -> In e E -> loop e = false -> edge_at SG c = canon 0 e <-> same_edge (s_pair e) (entry_at SG c) = true.
Proof.
  destruct sg_facts as (g0 & H0 & HS & _ & _ & _ & WS). pose proof (build_built _ _ _ _ H0) as HB0.
  assert (Fwd : forall c e, is_cell SG c -> In e E -> loop e = false -> edge_at SG c = canon 0 e -> same_edge (s_pair e) (entry_at SG c) = true).
  { intros [u i] [[[a x] w] o] Hc He Hl H. unfold is_cell in Hc. unfold entry_at. cbn [fst snd edge_at] in *. cbn [loop] in Hl. apply same_edge_spec. cbn [s_pair fst snd].
    destruct (nth_error (nbrs SG u) i) as [[[[v|] w'] o']|] eqn:En; [| |congruence]; cbn [canon] in H; destruct x as [b|].
    - apply Nat.eqb_neq in Hl. destruct (Nat.ltb_spec u v), (Nat.ltb_spec a b); injection H as -> -> _ _; auto.
    - destruct (u <? v); discriminate.
    - destruct (a <? b); discriminate.
    - injection H as -> _ _. auto. }
  intros c e Hc He Hl. split; [now apply Fwd|]. intros H.
  pose proof (edge_at_is_edge SG WS c Hc) as Hi. rewrite HS in Hi at 1. destruct (proj1 (is_edge_canon 0 n E g0 HB0 _) Hi) as (e0 & He0 & Hl0 & Ec). pose proof (Fwd c e0 Hc He0 Hl0 Ec) as H'.
  rewrite Ec. f_equal. apply (fop_unique E NP); auto. apply pair_parallel. eapply same_edge_trans; [exact H'|]. now rewrite same_edge_sym.
Qed.
Lemma cell_count : forall cells e, Forall (is_cell SG) cells -> In e E -> loop e = false ->
  count_occ edge_dec (edges_at SG cells) (canon 0 e) = occurrences (s_pair e) (map (entry_at SG) cells).
Proof.
  intros cells e H He Hl. induction H as [|c l Hc H IH]; [reflexivity|]. cbn [edges_at map count_occ]. rewrite occ_cons, <- IH. fold (edges_at SG l).
  destruct (edge_dec (edge_at SG c) (canon 0 e)) as [Y|Y]; destruct (same_edge (s_pair e) (entry_at SG c)) eqn:Es; auto.
  - apply (cell_edge c e Hc He Hl) in Y. congruence.
  - apply (cell_edge c e Hc He Hl) in Es. contradiction.
Qed.
Lemma neg_count : forall e, In e E -> loop e = false -> occurrences (s_pair e) (neg_pairs E) = if (s_weight e <? 0)%Z then 1 else 0.
Proof.
  intros e He Hl. unfold neg_pairs.
  assert (X : forall l, NoDup l -> (forall f, In f l -> In f E) -> occurrences (s_pair e) (map s_pair (filter (fun f => (s_weight f <? 0)%Z && negb (loop f)) l)) =
     if in_dec (fun a b : sedge => ltac:(repeat decide equality) : {a = b} + {a <> b}) e l then (if (s_weight e <? 0)%Z then 1 else 0) else 0).
  { intros l Hnd. induction Hnd as [|f l Hf Hnd IH]; intros Hs; [reflexivity|]. specialize (IH (fun x Hx => Hs x (or_intror Hx))). cbn [filter].
    match goal with |- context [in_dec ?d e (f :: l)] => destruct (in_dec d e (f :: l)) as [Y|Y]; destruct (in_dec d e l) as [Z|Z] in IH end.
    - assert (f <> e) by congruence. destruct ((s_weight f <? 0)%Z && negb (loop f)); [|exact IH]. cbn [map]. rewrite occ_cons, IH.
      destruct (same_edge (s_pair e) (s_pair f)) eqn:Es; [|reflexivity]. apply pair_parallel in Es. elim H. symmetry. apply (fop_unique E NP); auto. apply Hs. now left.
    - destruct Y as [->|Y]; [|contradiction]. rewrite Hl. cbn [negb]. rewrite andb_true_r. destruct (s_weight e <? 0)%Z; [|exact IH]. cbn [map]. rewrite occ_cons, IH.
      assert (Es : same_edge (s_pair e) (s_pair e) = true) by (apply same_edge_spec; auto). now rewrite Es.
    - elim Y. now right.
    - assert (f <> e) by (intros ->; apply Y; now left). destruct ((s_weight f <? 0)%Z && negb (loop f)); [|exact IH]. cbn [map]. rewrite occ_cons, IH.
      destruct (same_edge (s_pair e) (s_pair f)) eqn:Es; [|reflexivity]. apply pair_parallel in Es. elim H. symmetry. apply (fop_unique E NP); auto. apply Hs. now left. }
  rewrite X; [|apply fop_nodup, NP|auto]. match goal with |- context [in_dec ?d e E] => destruct (in_dec d e E); [reflexivity|contradiction] end.
Qed.

Lemma invert_filter : forall (f : sedge -> bool) l, invert_negative l (map f l) = map (fun e => xorb (f e) (s_weight e <? 0)%Z) l.
Proof. intros f l. induction l as [|e l IH]; [reflexivity|]. cbn [map invert_negative]. now rewrite IH. Qed.

(** What the paths of the matching give. *)
Section Run.
Variables (fuel : nat) (orc orc2 : nat -> nat) (s : state) (q : search) (evs : list nat) (s' : state) (o : N) (w : Z) (l : list cedge).
Hypothesis HI : idle G s.
Hypothesis HQ : search_idle q.
Hypothesis V : valid_events G evs.
Context {NI : ints} {AB : able NI G I evs}.
Hypothesis D : decode G fuel orc NI I s evs = Ok (s', (o, w, l)).

Lemma wfine_shape : forall A G1 G2, shape G1 G2 -> P_CoreGeo.wfine A G1 -> P_CoreGeo.wfine A G2.
Proof.
  intros A G1 G2 H W u x w0 o0 m t Hin Ht. apply (in_map fst) in Hin. rewrite <- (shape_nbrs _ _ H) in Hin. apply in_map_iff in Hin as ([[x' w'] o'] & E1 & E2). injection E1 as -> ->. exact (W u x w0 o' m t E2 Ht).
Qed.
Lemma paths_found : exists k q' cells, (forall fuel2, k <= fuel2 -> run_paths SG orc2 fuel2 NI l q = Ok (q', cells)) /\ search_idle q' /\ Forall (is_cell SG) cells /\
  let X := map (fun e => xorb (chosen 0 (cancel (edges_at SG cells)) e) (s_weight e <? 0)%Z) E in
  solves E (wanted bnd evs) X /\ s_total (select E X) = w /\ (forall Y, solves E (wanted bnd evs) Y -> (w <= s_total (select E Y))%Z) /\
  (weight_of (edges_at SG cells) + neg_total g)%Z = w /\
  forall k, N.testbit (N.lxor (obs_of (edges_at SG cells)) (mask_of 0 (neg_obss g))) (N.of_nat k) = s_flips k (select E X).
Proof.
  destruct sg_facts as (g0 & H0 & HS & SH & _ & _ & WS). pose proof (build_built _ _ _ _ H0) as HB0. pose proof (build_built _ _ _ _ HBu) as HB.
  pose proof (signed_wf nobs n E g HBu NP EV) as WF. pose proof (neg_valid nobs n E g bnd HBu) as VN.
  destruct (decode_pairs G fuel orc I s evs WF HI V VN s' o w l D) as (PN & PE & _).
  destruct (decode_shortest G fuel orc I s evs WF HI V VN s' o w l D) as (ws & S1 & S2 & _).
  assert (Rng : forall v, In v (flat_map pair_ends l) -> v < length SG).
  { intros v Hv. rewrite <- (shape_length _ _ SH). apply PE in Hv. destruct Hv as [(Hv & _)|[Hv _]]; [now apply V|now apply VN]. }
  pose proof (wfine_shape NI _ _ SH (able_w (able := AB))) as WNI.
  destruct (run_paths_spec SG orc2 WS G SH l ws S1 PN Rng q HQ) as (k & q' & cells & R1 & R2 & R3 & R4 & R5).
  exists k, q', cells. split; [exact R1|]. split; [exact R2|]. split; [exact R3|]. cbv zeta.
  set (F := edges_at SG cells) in *.
  assert (FE : Forall (is_edge SG) F) by (apply Forall_forall; intros f Hf; apply in_map_iff in Hf as (c & <- & Hc); rewrite Forall_forall in R3; apply (edge_at_is_edge SG WS); auto).
  destruct (P_CorePath.cancel_spec SG WS F FE) as (C1 & C2 & C3 & C4 & C5).
  rewrite HS in C2. pose proof (chosen_spec 0 n E g0 HB0 NP (cancel F) C1 C2) as CP.
  rewrite <- (invert_filter (chosen 0 (cancel F)) E). set (X' := map (chosen 0 (cancel F)) E) in *.
  assert (SX : select E X' = filter (chosen 0 (cancel F)) E) by apply select_filter.
  assert (L : length X' = length E) by apply map_length. assert (L' : length (invert_negative E X') = length E) by now apply invert_length.
  destruct (reduction nobs n E g _ HBu L') as (Q1 & Q2 & Q3). rewrite invert_invol in Q1, Q2, Q3 by exact L.
  destruct (signed_answer nobs n E g bnd HBu NP EV BN fuel orc s evs s' o w l HI V D) as (_ & _ & _ & _ & Min).
  assert (Sol : solves E (wanted bnd evs) (invert_negative E X')).
  { split; [exact L'|]. intros v. specialize (Q1 v). rewrite SX, <- (canon_degree 0), (degree_perm v _ _ CP), C5 in Q1. rewrite R5 in Q1.
    pose proof (PE v) as P0. unfold I in P0. rewrite (effective_signed nobs n E g bnd HBu BN evs v) in P0. rewrite <- (count_odd_In _ v PN) in P0.
    destruct (Nat.odd (count_occ Nat.eq_dec (flat_map pair_ends l) v)), (Nat.odd (s_degree v (select E (invert_negative E X')))), (wanted bnd evs v), (memb v (neg_dets g)); cbn [xorb] in *; try discriminate; try reflexivity; intuition discriminate. }
  assert (WC : (weight_of F + neg_total g)%Z = w) by (rewrite R4; exact S2).
  assert (WX : s_abs (select E X') = weight_of (cancel F)) by (rewrite SX, <- (canon_weight 0); now apply weight_perm).
  split; [exact Sol|]. split; [|split; [exact Min|split; [exact WC|]]].
  - specialize (Min _ Sol). lia.
  - intros k0. rewrite N.lxor_spec, <- C4, <- (obs_perm _ _ CP), canon_obs, <- SX, u_mask_bit by lia. rewrite mask_bit by lia. rewrite Q3.
    destruct HB as ((_ & _ & I3 & _) & _). assert (C : Nat.odd (count_occ Nat.eq_dec (neg_obss g) k0) = memb k0 (neg_obss g)).
    { apply eq_iff_eq_true. rewrite count_odd_In by now apply incr_NoDup. symmetry. apply memb_In. }
    rewrite C. destruct (s_flips k0 (select E (invert_negative E X'))), (memb k0 (neg_obss g)); reflexivity.
Qed.

Theorem to_edges_spec2 : forall M, (forall e, In e E -> ~ negative_loop e) -> unmarked SG M ->
  exists k q' M' out X, (forall fuel2, k <= fuel2 -> decode_to_edges G SG fuel fuel2 orc orc2 NI I (sneg sg) s q M evs = Ok (s', q', M', out)) /\
    search_idle q' /\ (forall u i, M' u i = M u i) /\
    solves E (wanted bnd evs) X /\ s_total (select E X) = w /\ (forall Y, solves E (wanted bnd evs) Y -> (w <= s_total (select E Y))%Z) /\ lists_edges out (select E X) /\
    (forall e, In e (select E X) -> loop e = false).
Proof.
  intros M NL UM. destruct paths_found as (k & q' & cells & R1 & R2 & R3 & P1 & P2 & P3 & _). destruct sg_facts as (g0 & H0 & HS & SH & SN & _ & WS). pose proof (build_built _ _ _ _ H0) as HB0.
  set (X := map (fun e => xorb (chosen 0 (cancel (edges_at SG cells)) e) (s_weight e <? 0)%Z) E) in *.
  assert (NF : Forall (fun p => exists w o, In (snd p, w, o) (nbrs SG (fst p))) (neg_pairs E)).
  { apply Forall_forall. intros p Hp. unfold neg_pairs in Hp. apply in_map_iff in Hp as ([[[u x] w0] obs] & <- & He). apply filter_In in He as [He Hc]. apply andb_true_iff in Hc as [_ Hc].
    cbn [s_pair fst snd]. rewrite HS. destruct x as [v|].
    - exists (Z.abs w0), (mask_of 0 obs). apply (adj_edge 0 n E g0 HB0). cbn [loop] in Hc. destruct (Nat.eqb_spec u v); [discriminate|]. split; [assumption|]. exists w0, obs. auto.
    - exists (Z.abs w0), (mask_of 0 obs). apply (adj_boundary 0 n E g0 HB0). exists w0, obs. auto. }
  destruct (collect_negative_run SG WS (neg_pairs E) M [] NF) as (nc & F1 & EC).
  pose proof (entries_cells SG cells R3) as F2. pose proof (Forall2_app F1 F2) as F12.
  destruct (cancel_wf SG (nc ++ cells) (neg_pairs E ++ map (entry_at SG) cells) M WS F12 UM) as (M' & out & E1 & E2 & E3 & E4).
  exists k, q', M', out, X. split; [|split; [exact R2|split; [exact E2|split; [exact P1|split; [exact P2|split; [exact P3|]]]]]].
  - intros fuel2 Hf. unfold decode_to_edges. rewrite (shape_length _ _ SH), Nat.eqb_refl. cbn [negb]. rewrite D. cbn [bindO]. rewrite SN, EC.
    unfold edges_of_paths in E1.
    assert (CA : forall p1 p2 M edges, collect SG M (p1 ++ p2) edges = bindO (collect SG M p1 edges) (fun st => collect SG (fst st) p2 (snd st))).
    { induction p1 as [|[u i] p1 IH]; intros p2 M0 edges; [reflexivity|]. cbn [collect app]. destruct (flip_edge SG M0 u i) as [M1| | |]; cbn [bindO]; auto. destruct (nth_error (nbrs SG u) i) as [[[x w1] o1]|]; auto. }
    rewrite CA in E1. destruct (collect SG M nc []) as [[M1 ed1]| | |]; cbn [bindO fst snd] in *; try discriminate.
    rewrite (collect_paths_run SG orc2 fuel2 NI l q q' cells (R1 fuel2 Hf) M1 ed1 R3). destruct (collect SG M1 cells ed1) as [[M2 ed2]| | |]; cbn [bindO fst snd] in *; try discriminate.
    rewrite E1. reflexivity.
  - assert (SelX : select E X = filter (fun e => xorb (chosen 0 (cancel (edges_at SG cells)) e) (s_weight e <? 0)%Z) E) by apply select_filter.
    assert (FE : Forall (is_edge SG) (edges_at SG cells)) by (apply Forall_forall; intros f Hf; apply in_map_iff in Hf as (c & <- & Hc); rewrite Forall_forall in R3; apply (edge_at_is_edge SG WS); auto).
    assert (Par : forall e, In e E -> loop e = false -> Nat.odd (occurrences (s_pair e) (neg_pairs E ++ map (entry_at SG) cells)) = xorb (chosen 0 (cancel (edges_at SG cells)) e) (s_weight e <? 0)%Z).
    { intros e He Hl. rewrite occ_app, Nat.odd_add, (neg_count e He Hl), <- (cell_count cells e R3 He Hl), xorb_comm. f_equal.
      - unfold chosen. rewrite Hl. cbn [negb andb]. destruct (in_dec edge_dec (canon 0 e) (cancel (edges_at SG cells))) as [Y|Y]; rewrite (cancel_In SG _ _ WS FE) in Y; [exact Y|now apply not_true_is_false].
      - now destruct (s_weight e <? 0)%Z. }
    assert (NLp : forall e, In e E -> loop e = true -> xorb (chosen 0 (cancel (edges_at SG cells)) e) (s_weight e <? 0)%Z = false).
    { intros e He Hl. unfold chosen. rewrite Hl. cbn [negb andb xorb]. specialize (NL e He). destruct e as [[[u x] w0] obs]. cbn [loop] in Hl. destruct x as [v|]; [|discriminate]. apply Nat.eqb_eq in Hl. subst v. cbn [s_weight].
      destruct (Z.ltb_spec w0 0); [|reflexivity]. elim NL. split; auto. }
    split; [|intros e He; rewrite SelX in He; apply filter_In in He as [He Hx]; destruct (loop e) eqn:Hl; [rewrite (NLp e He Hl) in Hx; discriminate|reflexivity]].
    apply lists_of_counts.
    + rewrite SelX. apply NoDup_filter, fop_nodup, NP.
    + intros e f He Hf. apply (fop_unique E NP); eapply select_In; eauto.
    + intros p Hp. assert (Hp' := E3 p Hp).
      assert (Ex : exists e, In e E /\ loop e = false /\ same_edge (s_pair e) p = true).
      { apply in_app_or in Hp' as [Hp'|Hp'].
        - unfold neg_pairs in Hp'. apply in_map_iff in Hp' as (e & <- & He). apply filter_In in He as [He Hc]. apply andb_true_iff in Hc as [_ Hc]. exists e. split; [exact He|]. split; [now destruct (loop e)|]. apply same_edge_spec. auto.
        - apply in_map_iff in Hp' as (c & <- & Hc). rewrite Forall_forall in R3. pose proof (edge_at_is_edge SG WS c (R3 c Hc)) as Hi. rewrite HS in Hi at 1.
          destruct (proj1 (is_edge_canon 0 n E g0 HB0 _) Hi) as (e & He & Hl & Ec). exists e. split; [exact He|]. split; [exact Hl|]. apply (cell_edge c e (R3 c Hc) He Hl). exact Ec. }
      destruct Ex as (e & He & Hl & Hs). exists e. split; [|exact Hs]. rewrite SelX. apply filter_In. split; [exact He|]. rewrite <- (Par e He Hl).
      assert (Oc : 0 < occurrences (s_pair e) out) by (apply occ_pos; exists p; auto). rewrite E4 in Oc. destruct (Nat.odd (occurrences (s_pair e) (neg_pairs E ++ map (entry_at SG) cells))); [reflexivity|lia].
    + intros e He. rewrite SelX in He. apply filter_In in He as [He Hx]. rewrite E4. destruct (loop e) eqn:Hl; [rewrite (NLp e He Hl) in Hx; discriminate|]. now rewrite (Par e He Hl), Hx.
Qed.
Theorem to_edges_spec : forall M, (forall e, In e E -> ~ negative_loop e) -> unmarked SG M ->
  exists k q' M' out X, (forall fuel2, k <= fuel2 -> decode_to_edges G SG fuel fuel2 orc orc2 NI I (sneg sg) s q M evs = Ok (s', q', M', out)) /\
    search_idle q' /\ (forall u i, M' u i = M u i) /\
    solves E (wanted bnd evs) X /\ s_total (select E X) = w /\ (forall Y, solves E (wanted bnd evs) Y -> (w <= s_total (select E Y))%Z) /\ lists_edges out (select E X).
Proof. intros M NL UM. destruct (to_edges_spec2 M NL UM) as (k & q' & M' & out & X & H). exists k, q', M', out, X. tauto. Qed.
Theorem many_spec : exists k q' o' X, (forall fuel2, k <= fuel2 -> decode_many_observables G SG fuel fuel2 orc orc2 NI I (neg_obss g) s q evs = Ok (s', q', (o', w))) /\
    search_idle q' /\ solves E (wanted bnd evs) X /\ s_total (select E X) = w /\ (forall Y, solves E (wanted bnd evs) Y -> (w <= s_total (select E Y))%Z) /\
    forall k, N.testbit o' (N.of_nat k) = s_flips k (select E X).
Proof.
  destruct paths_found as (k & q' & cells & R1 & R2 & R3 & P1 & P2 & P3 & P4 & P5). exists k, q'. eexists. eexists. split; [|split; [exact R2|split; [exact P1|split; [exact P2|split; [exact P3|exact P5]]]]].
  intros fuel2 Hf. unfold decode_many_observables. rewrite D. cbn [bindO]. rewrite (extract_paths_run SG orc2 fuel2 NI l q q' cells (R1 fuel2 Hf) R3). cbn [bindO fst snd].
  rewrite N.lxor_0_l. do 3 f_equal. cbn [neg_sum I neg_info_of]. lia.
Qed.
End Run.
End Main.

Lemma fresh_unmarked : forall nobs n E g sg, build nobs n E = Ok g -> sbuild n E = Ok sg -> unmarked (sadj sg) (marks_of sg).
Proof.
  intros nobs n E g sg HB HS. destruct (sbuild_alike nobs n E g HB) as (g0 & sg' & H1 & H2 & HA). rewrite HS in H2. injection H2 as <-. exact (alike_unmarked _ _ _ _ HA).
Qed.
Lemma to_edges_throws : forall {NI : ints} nobs n E g sg bnd, build nobs n E = Ok g -> sbuild n E = Ok sg ->
  ForallOrdPairs (fun e f => ~ parallel e f) E -> (forall e, In e E -> Z.even (s_weight e) = true) -> boundary_bare bnd E ->
  forall fuel orc orc2 s q M evs {AB : able NI (adj g) (neg_info_of nobs g bnd) evs}, idle (adj g) s -> valid_events (adj g) evs ->
  decode (adj g) fuel orc NI (neg_info_of nobs g bnd) s evs = Throw ->
  (forall fuel2, decode_to_edges (adj g) (sadj sg) fuel fuel2 orc orc2 NI (neg_info_of nobs g bnd) (sneg sg) s q M evs = Throw) /\
  forall Y, ~ solves E (wanted bnd evs) Y.
Proof.
  intros NI nobs n E g sg bnd HB HS NP EV BN fuel orc orc2 s q M evs AB HI V D. split; [|exact (signed_throws nobs n E g bnd HB NP EV BN fuel orc s evs HI V D)].
  intros fuel2. destruct (sg_facts nobs n E g sg HB HS NP EV) as (g0 & _ & _ & SH & _). unfold decode_to_edges. rewrite (shape_length _ _ SH), Nat.eqb_refl. cbn [negb]. now rewrite D.
Qed.
