(** Decoding a user graph made by calls: the answer. *)
From Coq Require Import Reals ZArith NArith List Bool Arith Lia Lra Permutation.
From Verif Require Import M_Base M_Core M_Session S_Core S_Session S_Decode M_Build S_Build P_Tree P_Build P_Convert P_Convert2 P_UserCorr
  M_Flip S_Flip P_Flip M_Search S_Search M_ToEdges S_ToEdges P_ToEdges P_ToEdges2 P_CoreGeo P_CoreDecode P_Signed P_Decode P_Halt P_Halt2 P_Machine
  M_Discretise P_Discretise M_Merge P_Merge M_Pipeline M_UserGraph S_UserGraph P_UserGraph S_Pipeline P_Pipeline.
Import ListNotations.
Local Open Scope nat_scope.

(** ** From a list of edges without parallel ones *)
Section Run.
Variables (nb n : nat) (C : list sedge) (mg : mgraph) (sg : sgraph) (bnd : list bool) (so : option sgraph) (nc : R).
Hypothesis HB : build nb n C = Ok mg.
Hypothesis HS : sbuild n C = Ok sg.
Hypothesis NP : ForallOrdPairs (fun e f => ~ parallel e f) C.
Hypothesis EV : forall e, In e C -> Z.even (s_weight e) = true.
Hypothesis BN : boundary_bare bnd C.
Hypothesis SO : so = Some sg \/ (nb <= 64 /\ so = None).
Let d := mkDec nb mg so bnd nc.
Let I := neg_info_of nb mg bnd.
Variables (NI : ints) (orc orc2 : nat -> nat) (s : state) (q : search) (evs : list nat).
Context {AB : able NI (adj mg) I evs}.
Hypothesis HI : idle (adj mg) s.
Hypothesis HQ : search_idle q.
Hypothesis V : valid_events (adj mg) evs.

Lemma bits_eq : forall k o L, (forall i, N.testbit o (N.of_nat i) = s_flips i L) -> bits k o = map (fun i => s_flips i L) (seq 0 k).
Proof. intros k o L H. unfold bits. apply map_ext. exact H. Qed.
Lemma run_events : (exists Y, solves C (wanted bnd evs) Y) ->
  exists K s' q' w X, (forall fuel, K <= fuel -> decode_events d fuel fuel orc orc2 NI s q evs = Ok (s', q', (map (fun i => s_flips i (select C X)) (seq 0 nb), w))) /\
    idle (adj mg) s' /\ search_idle q' /\ solves C (wanted bnd evs) X /\ s_total (select C X) = w /\ forall Y, solves C (wanted bnd evs) Y -> (w <= s_total (select C Y))%Z.
Proof.
  intros [Y HY]. destruct (signed_two nb n C mg bnd HB NP EV orc s evs HI V) as [(K & s' & o & w & l & H)|[K H]];
    [|exfalso; exact (signed_throws nb n C mg bnd HB NP EV BN K orc s evs HI V (H K (le_n K)) Y HY)].
  assert (Id : idle (adj mg) s') by exact (decode_idle (adj mg) K orc I s evs (signed_wf nb n C mg HB NP EV) HI V (neg_valid nb n C mg bnd HB) s' _ (H K (le_n K))).
  unfold decode_events, d_neg. cbn [d_nobs d d_search d_graph d_flags]. fold I. destruct (Nat.ltb_spec 64 nb) as [L|L].
  - destruct SO as [->|[L2 _]]; [|lia]. destruct (many_spec nb n C mg sg bnd HB HS NP EV BN K orc orc2 s q evs s' o w l HI HQ V (H K (le_n K))) as (k & q' & o' & X & a & b & c & e & f & h).
    exists (Nat.max K k), s', q', w, X. split; [|tauto]. intros fuel Hf. rewrite <- (bits_eq nb o' _ h).
    assert (Q : decode_many_observables (adj mg) (sadj sg) fuel fuel orc orc2 NI I (neg_obss mg) s q evs = Ok (s', q', (o', w))).
    { rewrite <- (a fuel) by lia. unfold decode_many_observables. unfold I. rewrite (H fuel), (H K) by lia. reflexivity. }
    rewrite Q. reflexivity.
  - destruct (signed_answer nb n C mg bnd HB NP EV BN K orc s evs s' o w l HI V (H K (le_n K))) as (X & H1 & H2 & H3 & H4). exists K, s', q, w, X. split; [|tauto].
    intros fuel Hf. pose proof (H fuel Hf) as Q. fold I in Q. rewrite Q. cbn [bindO]. rewrite (bits_eq nb o (select C X)); [reflexivity|]. now apply H3.
Qed.
Lemma run_events_throw : (forall Y, ~ solves C (wanted bnd evs) Y) -> exists K, forall fuel, K <= fuel -> decode_events d fuel fuel orc orc2 NI s q evs = Throw.
Proof.
  intros HN. destruct (signed_raises nb n C mg bnd HB NP EV BN orc s evs HI V HN) as [K H]. exists K. intros fuel Hf. pose proof (H fuel Hf) as Q. fold I in Q. unfold decode_events, d_neg. cbn [d_nobs d d_search d_graph d_flags]. fold I.
  destruct (Nat.ltb_spec 64 nb) as [L|L]; [|now rewrite Q]. destruct SO as [->|[L2 _]]; [|lia]. unfold decode_many_observables. now rewrite Q.
Qed.
Variable M : marks.
Hypothesis UM : unmarked (sadj sg) M.
Hypothesis NL : forall e, In e C -> ~ negative_loop e.
Hypothesis SS : so = Some sg.
Lemma run_edges2 : (exists Y, solves C (wanted bnd evs) Y) ->
  exists K s' q' M' out X, (forall fuel, K <= fuel -> py_decode_to_edges d fuel fuel orc orc2 NI s q M evs = Ok (s', q', M', out)) /\
    idle (adj mg) s' /\ search_idle q' /\ (forall u i, M' u i = M u i) /\ lists_edges out (select C X) /\ solves C (wanted bnd evs) X /\
    forall Y, solves C (wanted bnd evs) Y -> (s_total (select C X) <= s_total (select C Y))%Z.
Proof.
  intros [Y HY]. destruct (signed_two nb n C mg bnd HB NP EV orc s evs HI V) as [(K & s' & o & w & l & H)|[K H]];
    [|exfalso; exact (signed_throws nb n C mg bnd HB NP EV BN K orc s evs HI V (H K (le_n K)) Y HY)].
  assert (Id : idle (adj mg) s') by exact (decode_idle (adj mg) K orc I s evs (signed_wf nb n C mg HB NP EV) HI V (neg_valid nb n C mg bnd HB) s' _ (H K (le_n K))).
  destruct (to_edges_spec2 nb n C mg sg bnd HB HS NP EV BN K orc orc2 s q evs s' o w l HI HQ V (H K (le_n K)) M NL UM) as (k & q' & M' & out & X & a & b & c & e & f & h & i).
  exists (Nat.max K k), s', q', M', out, X. subst w. split; [|tauto]. intros fuel Hf. unfold py_decode_to_edges. cbn [d d_search d_graph]. rewrite SS. unfold d_neg. cbn [d d_nobs d_graph d_flags]. fold I.
  rewrite <- (a fuel) by lia. unfold decode_to_edges. unfold I. rewrite (H fuel), (H K) by lia. reflexivity.
Qed.
Lemma run_edges_throw : (forall Y, ~ solves C (wanted bnd evs) Y) -> exists K, forall fuel, K <= fuel -> py_decode_to_edges d fuel fuel orc orc2 NI s q M evs = Throw.
Proof.
  intros HN. destruct (signed_raises nb n C mg bnd HB NP EV BN orc s evs HI V HN) as [K H]. exists K. intros fuel Hf. pose proof (H fuel Hf) as Q. fold I in Q.
  unfold py_decode_to_edges. cbn [d d_search d_graph]. rewrite SS. unfold d_neg. cbn [d d_nobs d_graph d_flags]. fold I. exact (proj1 (to_edges_throws nb n C mg sg bnd HB HS NP EV BN fuel orc orc2 s q M evs HI V Q) fuel).
Qed.
End Run.

Lemma nth_map_seq : forall (f : nat -> bool) k v, v < k -> nth v (map f (seq 0 k)) false = f v.
Proof. intros f k v L. rewrite (nth_indep _ false (f 0)) by (rewrite map_length, seq_length; exact L). rewrite map_nth, seq_nth by exact L. reflexivity. Qed.
(** ** The decoder of a graph *)
Section Graph.
Variable g : ugraph RN.
Hypothesis INV : Inv g.
Hypothesis FL : flags_ok RN g.
Hypothesis WR : forall e, In e (edges g) -> w_exceeds RN (weight e) = false.
Let n := num_nodes g.
Let B := fun v => is_boundary_node g (Some v).
Let bnd := boundary_flags g.

Lemma flags_nth : forall v, nth v bnd false = B v.
Proof.
  intros v. unfold bnd, boundary_flags, B, is_boundary_node. rewrite (proj1 FL). pose proof (proj2 FL) as R. destruct (bnodes g) as [|b l]; [destruct v; reflexivity|].
  destruct (Nat.lt_ge_cases v (num_nodes g)) as [L|L].
  - exact (nth_map_seq _ _ v L).
  - rewrite nth_overflow by (rewrite map_length, seq_length; exact L). symmetry. apply not_true_is_false. intros H. apply memb_In in H. apply R in H. unfold num_nodes in L. lia.
Qed.

Record decoder_of (d : decoder) (c : R) (sg : sgraph) : Prop := mkOf {
  do_c : normalising_constant (map weight (edges g)) = Ok c;
  do_mg : build (nobs g) n (convert_all n B (map (discretised_edge c) (edges g))) = Ok (d_graph d);
  do_sg : sbuild n (convert_all n B (map (discretised_edge c) (edges g))) = Ok sg;
  do_so : d_search d = Some sg \/ (nobs g <= 64 /\ d_search d = None);
  do_nobs : d_nobs d = nobs g; do_flags : d_flags d = bnd; do_norm : d_norm d = (2 * c)%R }.
Lemma ids_ok : fault_ids_in_range g -> ids_below (nobs g) (edges g) = true.
Proof. intros H. apply forallb_forall. intros e He. apply forallb_forall. intros o Ho. apply Nat.ltb_lt. exact (H e o He Ho). Qed.
Hypothesis IDS : fault_ids_in_range g.
Lemma decoder_shape : forall ens c, normalising_constant (map weight (edges g)) = Ok c -> exists d sg, build_decoder g ens = Ok d /\ decoder_of d c sg /\ (ens = true -> d_search d = Some sg).
Proof.
  intros ens c HC. set (E := map (discretised_edge c) (edges g)).
  pose proof (E_below g INV c) as RB. pose proof (E_fop g INV c) as NP. fold E in RB, NP.
  pose proof (proj1 (range_below _ E) RB) as RG.
  destruct (build_total (nobs g) n (convert_all n B E) (convert_all_range n B E RG) (convert_all_fop n B E NP)) as [mg HB].
  destruct (sbuild_alike _ _ _ _ HB) as (_ & sg & _ & HS & _).
  unfold build_decoder. rewrite (ids_ok IDS). cbn [negb]. rewrite HC. cbn [bindO]. unfold to_matching_graph, to_search_graph. fold n B. fold E. rewrite HB. cbn [bindO].
  destruct ((64 <? nobs g) || ens) eqn:Eb.
  - rewrite HS. cbn [bindO]. exists (mkDec (nobs g) mg (Some sg) bnd (2 * c)), sg. split; [reflexivity|]. split; [|auto]. constructor; auto.
  - exists (mkDec (nobs g) mg None bnd (2 * c)), sg. apply orb_false_iff in Eb as [E1 E2]. split; [reflexivity|]. split; [|congruence].
    constructor; auto. right. split; [|reflexivity]. apply Nat.ltb_ge in E1. exact E1.
Qed.
Lemma decoder_built : scalable g -> forall ens, exists d c sg, build_decoder g ens = Ok d /\ decoder_of d c sg /\ (ens = true -> d_search d = Some sg).
Proof. intros SC ens. destruct (constant_exists g WR SC) as [c HC]. destruct (decoder_shape ens c HC) as (d & sg & H). exists d, c, sg. exact H. Qed.
Lemma decoder_from : forall ens d, build_decoder g ens = Ok d -> exists c sg, decoder_of d c sg /\ (ens = true -> d_search d = Some sg).
Proof.
  intros ens d HD. assert (X : exists c, normalising_constant (map weight (edges g)) = Ok c).
  { unfold build_decoder in HD. destruct (negb _); [discriminate|]. destruct (normalising_constant _) as [c| | |]; try discriminate. now exists c. }
  destruct X as [c HC]. destruct (decoder_shape ens c HC) as (d' & sg & H1 & H2). rewrite HD in H1. injection H1 as <-. exists c, sg. exact H2.
Qed.

Section Decoder.
Variables (d : decoder) (c : R) (sg : sgraph).
Hypothesis DO : decoder_of d c sg.
Let E := map (discretised_edge c) (edges g).
Let C := convert_all n B E.
Lemma C_even : forall e, In e C -> Z.even (s_weight e) = true /\ (Z.abs (s_weight e) <= max_weight)%Z.
Proof.
  intros e He. destruct (convert_all_weights n B E e (proj1 (range_below _ E) (E_below g INV c)) He) as (e0 & H0 & <-). exact (E_spec g c (do_c _ _ _ DO) e0 H0).
Qed.
Lemma C_bare : boundary_bare bnd C.
Proof. exact (conv_bare n B E (E_below g INV c) bnd flags_nth). Qed.
Lemma C_valid : forall evs, NoDup evs -> (forall v, In v evs -> v < n) -> valid_events (adj (d_graph d)) evs.
Proof. intros evs H1 H2. split; [exact H1|]. destruct (build_built _ _ _ _ (do_mg _ _ _ DO)) as (_ & L & _). intros v Hv. rewrite L. now apply H2. Qed.
Hypothesis HARM : conversion_harmless g.

Lemma solves_corr : forall evs X, solves C (wanted bnd evs) X -> exists F, corrects g F evs /\ s_total (map (discretised_edge c) F) = s_total (select C X) /\
  (forall k, flips_observable k F = s_flips k (select C X)) /\ Forall2 (same_effect B E) (select C X) (map (discretised_edge c) F).
Proof.
  intros evs X H. destruct (corr_of_solves n B E (E_below g INV c) (E_fop g INV c) bnd evs flags_nth X H) as (L & H1 & H2 & H3 & H4 & H5).
  destruct (corr_down g FL c L evs H1 H2) as (F & HF & ->). exists F. split; [exact HF|]. split; [exact H3|]. split; [|exact H5]. intros k. rewrite <- (d_flips c). apply H4.
Qed.
Lemma corr_solves : forall evs F, corrects g F evs -> exists Y, solves C (wanted bnd evs) Y /\ (s_total (select C Y) <= s_total (map (discretised_edge c) F))%Z.
Proof.
  intros evs F HF. destruct (corr_up g INV FL c F evs HF) as [H1 H2].
  exact (solves_of_corr n B E (E_below g INV c) (E_fop g INV c) (E_dropped g FL c (do_c _ _ _ DO) HARM) (E_pairs g FL c (do_c _ _ _ DO) HARM) bnd evs flags_nth _ H1 H2).
Qed.

Lemma near : forall F evs, corrects g F evs -> (forall F', corrects g F' evs -> (s_total (map (discretised_edge c) F) <= s_total (map (discretised_edge c) F'))%Z) -> near_best g F evs.
Proof.
  intros F evs (_ & HF & _) H F' HF'. specialize (H F' HF'). destruct HF' as (_ & HF' & _). pose proof (c_pos g c (do_c _ _ _ DO)) as Hc.
  assert (L : (IZR (s_total (map (discretised_edge c) F)) / (2 * c) <= IZR (s_total (map (discretised_edge c) F')) / (2 * c))%R).
  { unfold Rdiv. apply Rmult_le_compat_r; [left; apply Rinv_0_lt_compat; lra|]. now apply IZR_le. }
  split.
  - intros M HM. pose proof (weight_error g c (do_c _ _ _ DO) F M HF HM) as E1. pose proof (weight_error g c (do_c _ _ _ DO) F' M HF' HM) as E2.
    apply Rabs_le_inv in E1. apply Rabs_le_inv in E2. rewrite plus_INR. lra.
  - intros HI. rewrite <- (weight_exact g c (do_c _ _ _ DO) F HF HI), <- (weight_exact g c (do_c _ _ _ DO) F' HF' HI). exact L.
Qed.

Lemma shows_pair : forall p y e, In e (edges g) -> In y C -> same_edge p (s_pair y) = true -> same_effect B E y (discretised_edge c e) -> shows g p e.
Proof.
  intros p y e He Hy HP (_ & _ & _ & _ & HE). apply same_edge_spec in HP. destruct y as [[[u x] w] o]. cbn [s_pair fst snd] in *. destruct x as [v|].
  - apply (conv_plain n B E (E_below g INV c)) in Hy as (_ & Bu & Bv). destruct HE as [HE|[_ HE]]; [|discriminate]. injection HE as E1 E2 _ _. unfold shows.
    apply (bd_false g FL) in Bu. apply (bd_false g FL) in Bv. destruct p as [a b]. destruct HP as [HP|[H1 H2]]; [injection HP as -> ->|cbn [fst snd] in H1, H2; injection H2 as ->; subst b]; cbn [fst snd]; tauto.
  - assert (p = (u, None)) as -> by (destruct HP as [->|[_ HP]]; [reflexivity|discriminate]). cbn [shows fst snd].
    destruct HE as [HE|[HE _]]; [|now apply (bkey_boundary g FL c)]. apply (bkey_boundary g FL c). rewrite HE. apply (conv_bnd n B E (E_below g INV c)) in Hy as [_ HT].
    destruct (table_orig B E u w o HT) as (e0 & _ & Ec). pose proof (convert_edge_spec B e0) as X. rewrite Ec in X. destruct X as (Bu & _). change (bkey B (u, None, w, o) = Some u). unfold bkey, convert_edge. rewrite Bu. reflexivity.
Qed.
Lemma d_eta : d = mkDec (nobs g) (d_graph d) (d_search d) bnd (2 * c).
Proof. destruct DO as [_ _ _ _ H1 H2 H3]. destruct d. cbn in *. congruence. Qed.
Lemma neg_eta : d_neg d = neg_info_of (nobs g) (d_graph d) bnd.
Proof. unfold d_neg. now rewrite (do_nobs _ _ _ DO), (do_flags _ _ _ DO). Qed.

Variables (NI : ints) (orc orc2 : nat -> nat) (s : state) (q : search) (evs : list nat).
Context {AB : able NI (adj (d_graph d)) (d_neg d) evs}.
Hypothesis HI : idle (adj (d_graph d)) s.
Hypothesis HQ : search_idle q.
Hypothesis ND : NoDup evs.
Hypothesis IR : forall v, In v evs -> v < n.
Lemma pipeline_decode : (exists F, corrects g F evs) ->
  exists K s' q' w F, (forall fuel, K <= fuel -> py_decode d fuel fuel orc orc2 NI s q evs = Ok (s', q', (map (fun k => flips_observable k F) (seq 0 (nobs g)), w))) /\
    idle (adj (d_graph d)) s' /\ search_idle q' /\ corrects g F evs /\ near_best g F evs /\
    weight_reported g w F.
Proof.
  intros [F0 HF0]. destruct (corr_solves evs F0 HF0) as (Y & HY & _). pose proof AB as AB2. rewrite neg_eta in AB2.
  destruct (run_events (nobs g) n C (d_graph d) sg bnd (d_search d) (2 * c) (do_mg _ _ _ DO) (do_sg _ _ _ DO) (convert_all_fop n B E (E_fop g INV c)) (fun e He => proj1 (C_even e He)) C_bare (do_so _ _ _ DO)
              NI orc orc2 s q evs HI HQ (C_valid evs ND IR) (ex_intro _ Y HY)) as (K & s' & q' & w & X & H1 & H2 & H3 & H4 & H5 & H6).
  destruct (solves_corr evs X H4) as (F & G1 & G2 & G3 & _). exists K, s', q', (reported (2 * c) w), F.
  split; [|split; [exact H2|split; [exact H3|split; [exact G1|split]]]].
  - intros fuel Hf. specialize (H1 fuel Hf). rewrite <- d_eta in H1. unfold py_decode. rewrite H1. cbn [bindO]. rewrite (do_norm _ _ _ DO). rewrite (map_ext _ _ G3). reflexivity.
  - apply near; [exact G1|]. intros F' HF'. destruct (corr_solves evs F' HF') as (Y' & HY' & L). specialize (H6 Y' HY'). lia.
  - assert (w = s_total (map (discretised_edge c) F)) as -> by congruence. destruct G1 as (_ & G1 & _). exact (weight_told g c (do_c _ _ _ DO) F G1).
Qed.
Lemma no_solves : (forall F, ~ corrects g F evs) -> forall Y, ~ solves C (wanted bnd evs) Y.
Proof. intros HN Y HY. destruct (solves_corr evs Y HY) as (F & HF & _). exact (HN F HF). Qed.
Lemma pipeline_throw : (forall F, ~ corrects g F evs) -> exists K, forall fuel, K <= fuel -> py_decode d fuel fuel orc orc2 NI s q evs = Throw.
Proof.
  intros HN. pose proof AB as AB2. rewrite neg_eta in AB2.
  destruct (run_events_throw (nobs g) n C (d_graph d) sg bnd (d_search d) (2 * c) (do_mg _ _ _ DO) (convert_all_fop n B E (E_fop g INV c)) (fun e He => proj1 (C_even e He)) C_bare (do_so _ _ _ DO)
              NI orc orc2 s q evs HI (C_valid evs ND IR) (no_solves HN)) as [K H].
  exists K. intros fuel Hf. specialize (H fuel Hf). rewrite <- d_eta in H. unfold py_decode. now rewrite H.
Qed.

(** Solution edges. *)
Variable M : marks.
Hypothesis UM : unmarked (sadj sg) M.
Hypothesis NL : forall e, In e (edges g) -> node2 e = Some (node1 e) -> (0 <= weight e)%R.
Hypothesis SS : d_search d = Some sg.
Lemma C_loops : forall e, In e C -> ~ negative_loop e.
Proof.
  intros [[[u x] w] o] He [-> Hw]. apply (conv_plain n B E (E_below g INV c)) in He as (He & _). apply in_map_iff in He as (e & Ee & He). injection Ee as E1 E2 E3 _.
  assert (0 <= w)%Z; [|lia]. rewrite <- E3. apply discretise_pos; [left; exact (c_pos g c (do_c _ _ _ DO))|]. apply NL; [exact He|congruence].
Qed.
Lemma pipeline_edges : (exists F, corrects g F evs) ->
  exists K s' q' M' out F, (forall fuel, K <= fuel -> py_decode_to_edges d fuel fuel orc orc2 NI s q M evs = Ok (s', q', M', out)) /\
    idle (adj (d_graph d)) s' /\ search_idle q' /\ (forall u i, M' u i = M u i) /\ shows_edges g out F /\ corrects g F evs /\ near_best g F evs.
Proof.
  intros [F0 HF0]. destruct (corr_solves evs F0 HF0) as (Y & HY & _). pose proof AB as AB2. rewrite neg_eta in AB2.
  destruct (run_edges2 (nobs g) n C (d_graph d) sg bnd (d_search d) (2 * c) (do_mg _ _ _ DO) (do_sg _ _ _ DO) (convert_all_fop n B E (E_fop g INV c)) (fun e He => proj1 (C_even e He)) C_bare (do_so _ _ _ DO)
              NI orc orc2 s q evs HI HQ (C_valid evs ND IR) M UM C_loops SS (ex_intro _ Y HY)) as (K & s' & q' & M' & out & X & H1 & H2 & H3 & H4 & H5 & H6 & H7).
  destruct (solves_corr evs X H6) as (F & G1 & G2 & G3 & G4). exists K, s', q', M', out, F. rewrite <- d_eta in H1.
  split; [exact H1|]. split; [exact H2|]. split; [exact H3|]. split; [exact H4|]. split; [|split; [exact G1|]].
  - destruct H5 as (L & PL & HL). symmetry in PL. destruct (Permutation_Forall2 PL G4) as (L' & PL' & HL'). symmetry in PL'.
    destruct (Permutation_map_inv _ _ PL') as (F2 & -> & PF). exists F2. split; [now symmetry|].
    assert (IL : forall y, In y L -> In y C) by (intros y Hy; apply (select_incl C X); now rewrite PL).
    assert (IF : forall e, In e F2 -> In e (edges g)) by (intros e He; destruct G1 as (_ & G1 & _); apply G1; now rewrite PF).
    clear - HL HL' IL IF FL INV. revert F2 HL' IF. induction HL as [|p y out L HP HL IH]; intros F2 HL' IF; inversion HL' as [|? ? ? L2 HE HL2 Eq1 Eq2]; subst; destruct F2 as [|e F2]; try discriminate; constructor.
    + cbn [map] in Eq2. injection Eq2 as -> ->. apply (shows_pair p y e); auto; [apply IF; now left|apply IL; now left].
    + cbn [map] in Eq2. injection Eq2 as -> ->. apply IH; auto; [intros z Hz; apply IL; now right|intros z Hz; apply IF; now right].
  - apply near; [exact G1|]. intros F' HF'. destruct (corr_solves evs F' HF') as (Y' & HY' & L). specialize (H7 Y' HY'). lia.
Qed.
Lemma pipeline_edges_throw : (forall F, ~ corrects g F evs) -> exists K, forall fuel, K <= fuel -> py_decode_to_edges d fuel fuel orc orc2 NI s q M evs = Throw.
Proof.
  intros HN. pose proof AB as AB2. rewrite neg_eta in AB2.
  destruct (run_edges_throw (nobs g) n C (d_graph d) sg bnd (d_search d) (2 * c) (do_mg _ _ _ DO) (do_sg _ _ _ DO) (convert_all_fop n B E (E_fop g INV c)) (fun e He => proj1 (C_even e He)) C_bare
              NI orc orc2 s q evs HI (C_valid evs ND IR) M SS (no_solves HN)) as [K H].
  exists K. intros fuel Hf. specialize (H fuel Hf). rewrite <- d_eta in H. exact H.
Qed.
End Decoder.
End Graph.
