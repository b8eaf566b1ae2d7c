(** Matched pairs of detection events, and sets of edges that join them. *)
From Coq Require Import Reals ZArith NArith List Bool Arith Lia Lra Permutation.
From Verif Require Import M_Base M_Core M_CoreHeap M_Session S_Core S_Session S_CoreHeap S_Decode M_Build S_Build P_Tree P_Build P_Convert P_Convert2 P_UserCorr
  M_Flip S_Flip P_Flip M_Search S_Search M_ToEdges S_ToEdges P_ToEdges P_ToEdges2 M_SearchHeap S_SearchHeap P_CoreGeo P_CorePath P_CoreDecode P_Signed P_Decode P_Halt P_Halt2 P_Machine
  P_CoreSim P_CoreHeap P_CoreHeap2 P_Arena
  M_Discretise P_Discretise M_Merge P_Merge M_Pipeline M_PipelineHeap M_Bits S_Bits M_UserGraph S_UserGraph P_UserGraph S_Pipeline S_PipelineHeap P_Pipeline P_Pipeline2 P_Pipeline3 P_PipelineHeap M_Matching S_Matching.
Import ListNotations.
Local Open Scope nat_scope.

(** ** From a path to a set of edges *)
Definition inner (e : edge) : Prop := snd (fst (fst e)) <> None.
Lemma walk_inner : forall G, wf_graph G -> forall a b l o, walk G a b l o -> exists F, Forall (is_edge G) F /\ Forall inner F /\ weight_of F = l /\
  forall z, Nat.odd (degree z F) = xorb (a =? z)%nat (b =? z)%nat.
Proof.
  intros G WF a b l o H. induction H as [|v l o x w ob H IH Hin].
  - exists []. repeat split; [constructor|constructor|]. intros z. simpl. now rewrite xorb_nilpotent.
  - destruct IH as (F & F1 & F0 & F2 & F4).
    assert (X : exists e, is_edge G e /\ inner e /\ weight_of [e] = w /\ forall z, ends_at z e = ((if v =? z then 1 else 0) + (if x =? z then 1 else 0))%nat).
    { assert (Hne : v <> x) by (intros ->; exact (wf_noloop G WF _ _ _ Hin)). destruct (Nat.lt_ge_cases v x) as [L|L].
      - exists (v, Some x, w, ob). split; [split; assumption|]. split; [discriminate|]. cbn [weight_of]. rewrite Z.add_0_r. split; reflexivity.
      - exists (x, Some v, w, ob). split; [split; [apply (wf_sym G WF); assumption|lia]|]. split; [discriminate|]. cbn [weight_of]. rewrite Z.add_0_r. split; [reflexivity|]. intros z. cbn [ends_at]. lia. }
    destruct X as (e & E1 & E0 & E2 & E4). exists (F ++ [e]).
    split; [apply Forall_app; auto|]. split; [apply Forall_app; auto|]. rewrite weight_app, F2, E2. split; [reflexivity|]. intros z. rewrite degree_app, Nat.odd_add, F4. cbn [degree]. rewrite E4, Nat.add_0_r, Nat.odd_add.
    destruct (v =? z)%nat, (x =? z)%nat, (a =? z)%nat; reflexivity.
Qed.
Lemma cancel_incl : forall F, incl (cancel F) F.
Proof.
  induction F as [|e F IH]; intros x Hx; [destruct Hx|]. cbn [cancel fold_right] in Hx. fold (cancel F) in Hx. unfold toggle in Hx. destruct (in_dec edge_dec e (cancel F)).
  - apply in_remove in Hx as [Hx _]. right. now apply IH.
  - destruct Hx as [<-|Hx]; [now left|right; now apply IH].
Qed.
Definition pair_list (a : nat) (x : option nat) : list nat := match x with Some b => [a; b] | None => [a] end.

Section Built.
Variables (nb n : nat) (C : list sedge) (mg : mgraph) (bnd : list bool).
Hypothesis HB : build nb n C = Ok mg.
Hypothesis NP : ForallOrdPairs (fun e f => ~ parallel e f) C.
Hypothesis EV : forall e, In e C -> Z.even (s_weight e) = true.
Lemma path_solves : forall a x w o, path (adj mg) a x w o -> NoDup (pair_list a x) -> (forall v, In v (pair_list a x) -> nth v bnd false = false) ->
  exists X, solves C (wanted bnd (pair_list a x)) X /\ (s_total (select C X) <= w)%Z /\ (x <> None -> forall e, In e (select C X) -> snd (fst (fst e)) <> None).
Proof.
  intros a x w o HP ND HBd. pose proof (signed_wf nb n C mg HB NP EV) as WF.
  assert (X : exists F, Forall (is_edge (adj mg)) F /\ (x <> None -> Forall inner F) /\ weight_of F = w /\
                forall z, Nat.odd (degree z F) = xorb (a =? z) (match x with Some b => b =? z | None => false end)).
  { destruct x as [b|].
    - destruct (walk_inner _ WF a b w o HP) as (F & F1 & F2 & F3 & F4). exists F. auto.
    - destruct (path_edges _ WF a None w o HP) as (F & F1 & F2 & _ & F4). exists F. split; [assumption|]. split; [congruence|]. split; assumption. }
  destruct X as (F & F1 & F2 & F3 & F4). destruct (cancel_spec _ WF F F1) as (C1 & C2 & C3 & _ & C5).
  pose proof (chosen_spec nb n C mg (build_built _ _ _ _ HB) NP (cancel F) C1 C2) as P.
  exists (map (chosen nb (cancel F)) C). rewrite select_filter. split; [split; [now rewrite map_length|]|split].
  - intros v. rewrite select_filter, <- (canon_degree nb), (degree_perm v _ _ P), C5, F4. unfold wanted.
    assert (M : S_Build.memb v (pair_list a x) = xorb (a =? v) (match x with Some b => b =? v | None => false end)).
    { destruct x as [b|]; cbn [pair_list S_Build.memb existsb]; rewrite ?orb_false_r, ?xorb_false_r, !(Nat.eqb_sym v).
      - destruct (Nat.eqb_spec a v), (Nat.eqb_spec b v); try reflexivity. subst. inversion ND as [|? ? N1 _]. elim N1. now left.
      - reflexivity. }
    destruct (S_Build.memb v (pair_list a x)) eqn:Em; [|now rewrite <- M]. rewrite (HBd v (proj1 (memb_In _ _) Em)). now rewrite <- M.
  - rewrite <- F3. etransitivity; [|exact C3]. rewrite <- (weight_perm _ _ P), canon_weight. clear. induction (filter (chosen nb (cancel F)) C) as [|e l IH]; [reflexivity|].
    rewrite s_abs_cons. unfold s_total in *. cbn [fold_right]. lia.
  - intros Hx e He Hn. apply filter_In in He as [He Hc]. unfold chosen in Hc. apply andb_prop in Hc as [_ Hc]. destruct (in_dec edge_dec (canon nb e) (cancel F)) as [Hi|]; [|discriminate].
    apply cancel_incl in Hi. specialize (F2 Hx). rewrite Forall_forall in F2. apply (F2 _ Hi). destruct e as [[[u y] w0] ob]. cbn [fst snd] in Hn. subst y. reflexivity.
Qed.
End Built.

(** ** The pairs a decoder gives *)
Lemma pairs_of_map : forall l, Forall (fun e => efrom e <> None) l -> exists out, pairs_of l = Ok out /\ Forall2 (fun e p => efrom e = Some (fst p) /\ eto e = snd p) l out.
Proof.
  intros l H. induction H as [|e l He H IH]; [exists []; split; [reflexivity|constructor]|]. destruct IH as (out & E & F). cbn [pairs_of]. destruct (efrom e) as [a|] eqn:Ea; [|congruence].
  rewrite E. cbn [bindO]. eexists. split; [reflexivity|]. constructor; [cbn; auto|exact F].
Qed.
Section Graph.
Variable g : ugraph RN.
Hypothesis INV : Inv g.
Hypothesis FL : flags_ok RN g.
Variables (d : decoder) (c : R) (sg : sgraph).
Hypothesis DO : decoder_of g d c sg.
Hypothesis HARM : conversion_harmless g.
Hypothesis POS : forall e, In e (edges g) -> (0 <= discretise c (weight e))%Z.
Let n := num_nodes g.
Let B := fun v => is_boundary_node g (Some v).
Let E := map (discretised_edge c) (edges g).
Let C := convert_all n B E.
Let bnd := boundary_flags g.

Lemma near_any : forall F evs, incl F (edges g) -> (forall F', corrects g F' evs -> (s_total (map (discretised_edge c) F) <= s_total (map (discretised_edge c) F'))%Z) -> near_best g F evs.
Proof.
  intros F evs HF H F' HF'. specialize (H F' HF'). destruct HF' as (_ & HF' & _). pose proof (c_pos g c (do_c _ _ _ _ DO)) as Hc.
  assert (L : (IZR (s_total (map (discretised_edge c) F)) / (2 * c) <= IZR (s_total (map (discretised_edge c) F')) / (2 * c))%R).
  { unfold Rdiv. apply Rmult_le_compat_r; [left; apply Rinv_0_lt_compat; lra|]. now apply IZR_le. }
  split.
  - intros M HM. pose proof (weight_error g c (do_c _ _ _ _ DO) F M HF HM) as E1. pose proof (weight_error g c (do_c _ _ _ _ DO) F' M HF' HM) as E2.
    apply Rabs_le_inv in E1. apply Rabs_le_inv in E2. rewrite plus_INR. lra.
  - intros HI. rewrite <- (weight_exact g c (do_c _ _ _ _ DO) F HF HI), <- (weight_exact g c (do_c _ _ _ _ DO) F' HF' HI). exact L.
Qed.
Lemma no_negative : neg_events (d_neg d) = [] /\ neg_sum (d_neg d) = 0%Z.
Proof.
  destruct (user_nonneg (nobs g) n B E (d_graph d) (E_below g INV c)) as (H1 & _ & H3).
  - intros e He. apply in_map_iff in He as (e0 & <- & He). cbn [discretised_edge s_weight]. now apply POS.
  - exact (do_mg _ _ _ _ DO).
  - unfold d_neg, neg_info_of. cbn [neg_events neg_sum]. auto.
Qed.
Lemma s_total_app : forall L L', s_total (L ++ L') = (s_total L + s_total L')%Z.
Proof. induction L; intros; cbn; [reflexivity|]. unfold s_total in *. cbn. rewrite IHL. lia. Qed.

Variables (r : running) (evs : list nat).
Hypothesis RD : ready d r.
Hypothesis ND : NoDup evs.
Hypothesis IR : forall v, In v evs -> v < num_nodes g.
Variable F0 : list (uedge RN).
Hypothesis HF : corrects g F0 evs.
Hypothesis HS : manageable g F0.

Lemma pair_edges : forall a x w o, path (adj (d_graph d)) a x w o -> NoDup (pair_list a x) -> (forall v, In v (pair_list a x) -> nth v bnd false = false) ->
  exists Q, joins_pair g (a, x) Q /\ (s_total (map (discretised_edge c) Q) <= w)%Z.
Proof.
  intros a x w o HP HN Hb.
  destruct (path_solves (nobs g) n C (d_graph d) bnd (do_mg _ _ _ _ DO) (convert_all_fop n B E (E_fop g INV c)) (fun e He => proj1 (C_even g INV d c sg DO e He)) a x w o HP HN Hb) as (X & X1 & X2 & X3).
  destruct (solves_corr g INV FL c (pair_list a x) X X1) as (Q & Q1 & Q2 & _ & Q4). exists Q. split; [|etransitivity; [|exact X2]; rewrite Q2; reflexivity].
  unfold joins_pair. cbn [fst snd]. destruct x as [b|]; [|exact Q1]. split; [exact Q1|]. specialize (X3 ltac:(discriminate)).
  assert (Y : forall y, In y (select C X) -> In y C) by (intros y; apply select_incl). fold n B E C in Q4.
  clear - Q4 X3 Y FL INV. revert Q Q4. induction (select C X) as [|y L IH]; intros Q Q4 e He; inversion Q4 as [|? ? ? L2 H1 H2 E1 E2]; subst; destruct Q as [|e' Q]; try discriminate; [destruct He|].
  cbn [map] in E2. injection E2 as -> ->. destruct He as [<-|He]; [|apply (IH (fun e He => X3 e (or_intror He)) (fun y Hy => Y y (or_intror Hy)) Q H2 e He)].
  specialize (X3 y (or_introl eq_refl)). specialize (Y y (or_introl eq_refl)). destruct H1 as (_ & _ & _ & _ & H1). destruct H1 as [H1|[_ H1]]; [|congruence].
  destruct y as [[[u x] w0] ob]. cbn [fst snd] in X3. destruct x as [v|]; [|congruence]. apply (conv_plain n B E (E_below g INV c)) in Y as (_ & Bu & Bv). unfold discretised_edge in H1. injection H1 as <- H2' _ _.
  apply (bd_false g FL) in Bu. apply (bd_false g FL) in Bv. rewrite H2'. cbn [at_boundary]. split; assumption.
Qed.

Lemma graph_pairs_h : exists K r' l out, (forall fuel, K <= fuel -> match_edges_h fuel cyclic_ints d r evs = Ok (Some (r', l))) /\ pairs_of l = Ok out /\ ready d r' /\ right_pairs g (fun v => In v evs) out.
Proof.
  destruct no_negative as [Z1 Z2].
  destruct (pipeline_light g INV FL d c sg DO HARM evs F0 HF HS) as (LW & L2 & L3). pose proof (spy_able (adj (d_graph d)) LW (d_neg d) evs L2 L3) as AB.
  pose proof (C_valid g d c sg DO evs ND IR) as V. assert (VN : valid_events (adj (d_graph d)) (neg_events (d_neg d))) by (rewrite (neg_eta g d c sg DO); exact (neg_valid (nobs g) n C (d_graph d) bnd (do_mg _ _ _ _ DO))).
  destruct (decode_h_spec (adj (d_graph d)) LW (d_neg d) _ _ evs (AB := AB) (rd_idle _ _ RD) (rd_drained _ _ RD) V VN) as (K & orc & x & Hx & D1 & D2).
  destruct (corr_solves g INV FL d c sg DO HARM evs F0 HF) as (Y & HY & _). fold n B E C bnd in HY.
  assert (NP := convert_all_fop n B E (E_fop g INV c)). assert (EV := fun e He => proj1 (C_even g INV d c sg DO e He)). assert (BN := C_bare g INV FL c). fold n B E C bnd in NP, EV, BN.
  assert (AB3 : able spy_ints (adj (d_graph d)) (neg_info_of (nobs g) (d_graph d) bnd) evs) by (unfold bnd; rewrite <- (neg_eta g d c sg DO); exact AB).
  pose proof (D1 K (le_n K)) as D0. 
  destruct x as [[s' [[o w] l]]| | |]; [| | |congruence].
  2: { exfalso. rewrite (neg_eta g d c sg DO) in D0. exact (signed_throws (nobs g) n C (d_graph d) bnd (do_mg _ _ _ _ DO) NP EV BN K orc (r_state r) evs (AB := AB3) (rd_idle _ _ RD) V D0 Y HY). }
  2: { exfalso. exact (decode_defined (adj (d_graph d)) K orc (d_neg d) (r_state r) evs (AB := AB) LW (rd_idle _ _ RD) V VN D0). }
  destruct D2 as (h' & D2 & D3).
  destruct (decode_pairs (adj (d_graph d)) K orc (d_neg d) (r_state r) evs (AB := AB) LW (rd_idle _ _ RD) V VN s' o w l D0) as (P1 & P2 & P3).
  destruct (decode_shortest (adj (d_graph d)) K orc (d_neg d) (r_state r) evs (AB := AB) LW (rd_idle _ _ RD) V VN s' o w l D0) as (ws & S1 & S2 & _).
  assert (Id : idle (adj (d_graph d)) s') by exact (decode_idle (adj (d_graph d)) K orc (d_neg d) (r_state r) evs (AB := AB) LW (rd_idle _ _ RD) V VN s' _ D0).
  destruct (pairs_of_map l P3) as (out & O1 & O2).
  exists K, (mkRun s' h' (r_search r) (r_sheap r) (r_marks r)), l, out. split; [|split; [exact O1|split]].
  - intros f Hf. unfold match_edges_h. rewrite Z2. cbn [Z.eqb negb]. rewrite D2 by exact Hf. reflexivity.
  - destruct RD. split; cbn [r_state r_heap r_search r_sheap r_marks]; auto.
  - assert (EQ : flat_map ends_of out = flat_map pair_ends l).
    { clear - O2. induction O2 as [|e p l out [H1 H2] O2 IH]; [reflexivity|]. cbn [flat_map]. rewrite IH. f_equal. unfold ends_of, pair_ends. rewrite H1, H2. now destruct (snd p). }
    assert (EF : forall v, effective (d_neg d) evs v <-> In v evs /\ nth v bnd false = false).
    { intros v. unfold effective. rewrite Z1, (neg_eta g d c sg DO). cbn [is_bnd neg_info_of]. fold bnd. cbn [In]. tauto. }
    assert (BE : forall v, nth v bnd false = false <-> ~ In v (bnodes g)) by (intros v; unfold bnd; rewrite (flags_nth g FL); apply (bd_false g FL)).
    assert (EB : forall v, In v (flat_map pair_ends l) -> nth v bnd false = false) by (intros v Hv; apply P2, EF in Hv; tauto).
    unfold right_pairs. rewrite EQ. split; [exact P1|]. split; [intros v; rewrite P2, EF, BE; reflexivity|].
    assert (QS : exists Qs, Forall2 (joins_pair g) out Qs /\ (s_total (map (discretised_edge c) (concat Qs)) <= fold_right Z.add 0 ws)%Z).
    { clear Hx D0 D1 D2 O1 EQ P2 P3 S2. revert out O2. induction S1 as [|e w1 l ws (a & Ea & Hp & _) S1 IH]; intros out O2; inversion O2 as [|? p ? out' [H1 H2] O3]; subst.
      - exists []. split; [constructor|reflexivity].
      - cbn [flat_map] in P1, EB. assert (PE : pair_ends e = pair_list a (eto e)) by (unfold pair_ends; rewrite Ea; now destruct (eto e)).
        assert (N1 : NoDup (pair_list a (eto e)) /\ NoDup (flat_map pair_ends l)).
        { rewrite <- PE. destruct (P_Arena.NoDup_app_parts _ _ P1) as (Y1 & Y2 & _). auto. }
        destruct (IH (proj2 N1) (fun v Hv => EB v (in_or_app _ _ _ (or_intror Hv))) out' O3) as (Qs & Q1 & Q2).
        destruct (pair_edges a (eto e) w1 (eobs e) Hp (proj1 N1)) as (Q & Q3 & Q4).
        { intros v Hv. apply EB, in_or_app. left. now rewrite PE. }
        exists (Q :: Qs). split; [constructor; [|exact Q1]|].
        + destruct p as [p1 p2]. cbn [fst snd] in *. subst p2. rewrite Ea in H1. injection H1 as <-. exact Q3.
        + cbn [concat fold_right]. rewrite map_app, s_total_app. lia. }
    destruct QS as (Qs & Q1 & Q2). exists evs, Qs. split; [reflexivity|]. split; [exact Q1|]. apply near_any.
    + intros e He. apply in_concat in He as (Q & HQ & He). clear - Q1 HQ He. induction Q1 as [|p Q' out Qs H Q1 IH]; [destruct HQ|]. destruct HQ as [->|HQ]; [|now apply IH].
      unfold joins_pair in H. destruct (snd p); [destruct H as [H _]|]; destruct H as (_ & H & _); now apply H.
    + intros F' HF'. destruct (corr_solves g INV FL d c sg DO HARM evs F' HF') as (Y' & HY' & L). fold n B E C bnd in HY', L.
      rewrite (neg_eta g d c sg DO) in D0. destruct (signed_answer (nobs g) n C (d_graph d) bnd (do_mg _ _ _ _ DO) NP EV BN K orc (r_state r) evs (AB := AB3) s' o w l (rd_idle _ _ RD) V D0) as (_ & _ & _ & _ & M).
      specialize (M Y' HY'). lia.
Qed.
End Graph.

(** Weights that are not negative stay so. *)
Lemma pos_kept : forall (g : ugraph RN) c, normalising_constant (map weight (edges g)) = Ok c -> (forall e, In e (edges g) -> (0 <= weight e)%R) -> forall e, In e (edges g) -> (0 <= discretise c (weight e))%Z.
Proof. intros g c HC POS e He. apply discretise_pos; [left; exact (c_pos g c HC)|now apply POS]. Qed.
Lemma calls_pairs_h : forall n k (ops : list (op RN)) ens d r evs F, let g := run (new_graph RN n k) ops in
  fault_ids_in_range g -> build_decoder g ens = Ok d -> conversion_harmless g -> (forall e, In e (edges g) -> (0 <= weight e)%R) ->
  ready d r -> NoDup evs -> (forall v, In v evs -> v < num_nodes g) -> corrects g F evs -> manageable g F ->
  exists K r' l out, (forall fuel, K <= fuel -> match_edges_h fuel cyclic_ints d r evs = Ok (Some (r', l))) /\ pairs_of l = Ok out /\ ready d r' /\ right_pairs g (fun v => In v evs) out.
Proof.
  intros n k ops ens d r evs F g IDS HD HARM POS RD ND IR HF HS. destruct (calls_of n k ops IDS ens d HD) as (c & sg & DO & _).
  exact (graph_pairs_h g (calls_inv n k ops) (calls_flags n k ops) d c sg DO HARM (pos_kept g c (do_c _ _ _ _ DO) POS) r evs RD ND IR F HF HS).
Qed.
