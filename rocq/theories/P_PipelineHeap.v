(** Decoding a user graph on the two radix heaps. *)
From Coq Require Import Reals ZArith NArith List Bool Arith Lia Lra Permutation.
From Verif Require Import M_Base M_Core M_CoreHeap M_Session S_Core S_Session S_CoreHeap S_Decode M_Build S_Build P_Tree P_Build P_Convert P_Convert2 P_UserCorr
  M_Flip S_Flip P_Flip M_Search S_Search M_ToEdges S_ToEdges P_ToEdges P_ToEdges2 M_SearchHeap S_SearchHeap P_CoreGeo P_CoreDecode P_Signed P_Decode P_Halt P_Halt2 P_Machine
  P_CoreSim P_CoreHeap P_CoreHeap2 M_Failing P_Failing P_SearchHeap P_SearchHeap2
  M_Discretise P_Discretise M_Merge P_Merge M_Pipeline M_PipelineHeap M_UserGraph S_UserGraph P_UserGraph S_Pipeline S_PipelineHeap P_Pipeline P_Pipeline2 P_Pipeline3.
Import ListNotations.
Local Open Scope nat_scope.

(** The pairs a matching gives can be searched for. *)
Lemma shortest_answerable : forall G SG, shape G SG -> forall l ws, Forall2 (stands_for_shortest G) l ws -> NoDup (flat_map pair_ends l) -> (forall v, In v (flat_map pair_ends l) -> v < length SG) ->
  Forall (answerable SG) l.
Proof.
  intros G SG SH l ws H. induction H as [|e w l ws He H IH]; intros ND RG; [constructor|].
  cbn [flat_map] in ND, RG. destruct He as (a & Ea & Hp & Hm).
  assert (ND' : NoDup (flat_map pair_ends l)) by (clear -ND; induction (pair_ends e) as [|x p IHp]; [exact ND|inversion ND; auto]).
  assert (PE : pair_ends e = match eto e with Some d => [a; d] | None => [a] end) by (unfold pair_ends; rewrite Ea; now destruct (eto e)).
  constructor; [|apply IH; [exact ND'|intros v Hv; apply RG, in_or_app; now right]].
  exists a. split; [exact Ea|]. split.
  - rewrite PE in ND, RG. split; [apply RG, in_or_app; left; destruct (eto e); now left|]. destruct (eto e) as [d|]; [|exact Logic.I]. split; [apply RG; cbn; auto|]. intros ->. inversion ND as [|? ? N1 _]. apply N1. now left.
  - destruct (path_shape _ _ _ _ _ _ SH Hp) as [o' Hp']. exists w, o'. exact Hp'.
Qed.

Section Run.
Variables (nb n : nat) (C : list sedge) (mg : mgraph) (sg : sgraph) (bnd : list bool) (so : option sgraph) (nc : R).
Hypothesis HB : build nb n C = Ok mg.
Hypothesis HS : sbuild n C = Ok sg.
Hypothesis NP : ForallOrdPairs (fun e f => ~ parallel e f) C.
Hypothesis EV : forall e, In e C -> Z.even (s_weight e) = true.
Hypothesis BN : boundary_bare bnd C.
Hypothesis SO : so = Some sg \/ (nb <= 64 /\ so = None).
Let d := mkDec nb mg so bnd nc.
Let I := neg_info_of nb mg bnd.
Variables (r : running) (evs : list nat).
Context {AB : able spy_ints (adj mg) I evs}.
Hypothesis RD : ready d r.
Hypothesis V : valid_events (adj mg) evs.

Lemma matching_answerable : forall fuel orc s' o w l, decode (adj mg) fuel orc spy_ints I (r_state r) evs = Ok (s', (o, w, l)) -> Forall (answerable (sadj sg)) l.
Proof.
  intros fuel orc s' o w l D. destruct (sg_facts nb n C mg sg HB HS NP EV) as (g0 & H0 & HSG & SH & _ & _ & WS).
  pose proof (signed_wf nb n C mg HB NP EV) as WF. pose proof (neg_valid nb n C mg bnd HB) as VN.
  destruct (decode_pairs (NI := spy_ints) (AB := AB) (adj mg) fuel orc I _ evs WF (rd_idle _ _ RD) V VN s' o w l D) as (PN & PE & _).
  destruct (decode_shortest (NI := spy_ints) (AB := AB) (adj mg) fuel orc I _ evs WF (rd_idle _ _ RD) V VN s' o w l D) as (ws & S1 & S2 & _).
  apply (shortest_answerable _ _ SH l ws S1 PN). intros v Hv. rewrite <- (shape_length _ _ SH). apply PE in Hv. destruct Hv as [(Hv & _)|[Hv _]]; [now apply V|now apply VN].
Qed.

Definition lift {T} (r : running) (M : marks) (h hq : heap) (x : outcome (state * search * T)) : outcome (running * T) :=
  bindO x (fun y => let '(s', q', a) := y in Ok (mkRun s' h q' hq M, a)).
(** With the decisions the two heaps make, the abstract decoder is the one on the heaps. *)
Lemma events_same : exists K orc orc2 h hq, rested hq /\ forall f, K <= f ->
    (decode_events d f f orc orc2 spy_ints (r_state r) (r_search r) evs = UB \/
     decode_events_h d f cyclic_ints r evs = lift r (r_marks r) h hq (decode_events d f f orc orc2 spy_ints (r_state r) (r_search r) evs)) /\
    forall s' q' a, decode_events d f f orc orc2 spy_ints (r_state r) (r_search r) evs = Ok (s', q', a) -> drained s' h.
Proof.
  destruct (sg_facts nb n C mg sg HB HS NP EV) as (g0 & H0 & HSG & SH & _ & _ & WS). pose proof (wfine_shape spy_ints _ _ SH (able_w (able := AB))) as WNI.
  pose proof (signed_wf nb n C mg HB NP EV) as WF. pose proof (neg_valid nb n C mg bnd HB) as VN.
  destruct (decode_h_spec (adj mg) WF I _ _ evs (AB := AB) (rd_idle _ _ RD) (rd_drained _ _ RD) V VN) as (K1 & orc & x & Hx & D1 & D2).
  unfold decode_events, decode_events_h, d_neg. cbn [d_nobs d d_search d_graph d_flags]. fold I. 
  destruct x as [[s' [[o w] l]]| | |]; [| | |congruence].
  - destruct D2 as (h' & D2 & D3). destruct (Nat.ltb_spec 64 nb) as [L|L].
    + destruct SO as [Eso|[L2 _]]; [|lia]; rewrite Eso.
      destruct (extract_h (sadj sg) WS WNI l (matching_answerable K1 orc s' o w l (D1 K1 (le_n K1))) _ _ (rd_search _ _ RD) (rd_rested _ _ RD)) as (K2 & q' & hq & cs & Q1 & Q2 & Q3).
      destruct (follows_some (stick (r_search r)) cs) as (orc2 & F0). exists (Nat.max K1 K2), orc, orc2, h', hq. split; [assumption|]. intros f Hf.
      destruct (Q3 orc2 F0 f ltac:(lia) (0%N, 0%Z)) as [Q4 Q5]. unfold decode_many_observables, decode_many_observables_h. rewrite D1, D2 by lia. cbn [bindO]. rewrite Q4.
      destruct (extract_paths (sadj sg) f orc2 spy_ints l (r_search r) (0%N, 0%Z)) as [[q2 [o2 w2]]| | |]; cbn [bindO fst snd lift]; auto.
      * rewrite (Q5 q2 (o2, w2) eq_refl). split; [right; reflexivity|]. intros ? ? ? E. injection E as <- _ _. assumption.
      * split; [right; reflexivity|discriminate].
      * split; [left; reflexivity|discriminate].
      * split; [right; reflexivity|discriminate].
    + exists K1, orc, orc, h', (r_sheap r). split; [exact (rd_rested _ _ RD)|]. intros f Hf. rewrite D1, D2 by lia. cbn [bindO lift]. split; [right; reflexivity|]. intros ? ? ? E. injection E as <- _ _. assumption.
  - destruct D2 as [D2 _]. exists K1, orc, orc, (r_heap r), (r_sheap r). split; [exact (rd_rested _ _ RD)|]. intros f Hf. destruct (Nat.ltb_spec 64 nb) as [L|L].
    + destruct SO as [Eso|[L2 _]]; [|lia]; rewrite Eso. unfold decode_many_observables, decode_many_observables_h. rewrite D1, D2 by lia. split; [right; reflexivity|discriminate].
    + rewrite D1, D2 by lia. split; [right; reflexivity|discriminate].
  - exists K1, orc, orc, (r_heap r), (r_sheap r). split; [exact (rd_rested _ _ RD)|]. intros f Hf. destruct (Nat.ltb_spec 64 nb) as [L|L].
    + destruct SO as [Eso|[L2 _]]; [|lia]; rewrite Eso. unfold decode_many_observables. rewrite D1 by lia. split; [left; reflexivity|discriminate].
    + rewrite D1 by lia. split; [left; reflexivity|discriminate].
Qed.
Lemma edges_same : exists K orc orc2 h hq, rested hq /\ forall f, K <= f ->
    (py_decode_to_edges d f f orc orc2 spy_ints (r_state r) (r_search r) (r_marks r) evs = UB \/
     py_decode_to_edges_h d f cyclic_ints r evs = bindO (py_decode_to_edges d f f orc orc2 spy_ints (r_state r) (r_search r) (r_marks r) evs) (fun y => let '(s', q', M', a) := y in Ok (mkRun s' h q' hq M', a))) /\
    forall s' q' M' a, py_decode_to_edges d f f orc orc2 spy_ints (r_state r) (r_search r) (r_marks r) evs = Ok (s', q', M', a) -> drained s' h.
Proof.
  destruct (sg_facts nb n C mg sg HB HS NP EV) as (g0 & H0 & HSG & SH & _ & _ & WS). pose proof (wfine_shape spy_ints _ _ SH (able_w (able := AB))) as WNI.
  pose proof (signed_wf nb n C mg HB NP EV) as WF. pose proof (neg_valid nb n C mg bnd HB) as VN.
  destruct (decode_h_spec (adj mg) WF I _ _ evs (AB := AB) (rd_idle _ _ RD) (rd_drained _ _ RD) V VN) as (K1 & orc & x & Hx & D1 & D2).
  unfold py_decode_to_edges, py_decode_to_edges_h, d_neg. cbn [d_nobs d d_search d_graph d_flags]. fold I. 
  destruct SO as [Eso|[_ Eso]]; rewrite Eso; [|exists 0, orc, orc, (r_heap r), (r_sheap r); split; [exact (rd_rested _ _ RD)|]; intros f _; split; [right; reflexivity|discriminate]].
  unfold decode_to_edges, decode_to_edges_h. rewrite (shape_length _ _ SH), Nat.eqb_refl. cbn [negb].
  destruct x as [[s' [[o w] l]]| | |]; [| | |congruence].
  - destruct D2 as (h' & D2 & D3).
    destruct (collect_h (sadj sg) WS WNI l (matching_answerable K1 orc s' o w l (D1 K1 (le_n K1))) _ _ (rd_search _ _ RD) (rd_rested _ _ RD)) as (K2 & q' & hq & cs & Q1 & Q2 & Q3).
    destruct (follows_some (stick (r_search r)) cs) as (orc2 & F0). exists (Nat.max K1 K2), orc, orc2, h', hq. split; [assumption|]. intros f Hf.
    rewrite D1, D2 by lia. cbn [bindO]. destruct (collect_negative (sadj sg) (r_marks r) (sneg sg) []) as [st| | |]; cbn [bindO]; try (split; [auto|discriminate]).
    destruct (Q3 orc2 F0 f ltac:(lia) (fst st) (snd st)) as [Q4 Q5]. rewrite Q4.
    destruct (collect_paths (sadj sg) f orc2 spy_ints l (r_search r) (fst st) (snd st)) as [[[q2 M2] e2]| | |]; cbn [bindO fst snd]; try (split; [auto|discriminate]).
    rewrite (Q5 q2 M2 e2 eq_refl). destruct (M_Flip.cancel (S (length e2)) (sadj sg) M2 [] e2) as [y| | |]; cbn [bindO]; try (split; [auto|discriminate]).
    split; [right; reflexivity|]. intros ? ? ? ? E. injection E as <- _ _ _. assumption.
  - destruct D2 as [D2 _]. exists K1, orc, orc, (r_heap r), (r_sheap r). split; [exact (rd_rested _ _ RD)|]. intros f Hf. rewrite D1, D2 by lia. split; [right; reflexivity|discriminate].
  - exists K1, orc, orc, (r_heap r), (r_sheap r). split; [exact (rd_rested _ _ RD)|]. intros f Hf. rewrite D1 by lia. split; [left; reflexivity|discriminate].
Qed.
End Run.

(** ** The decoder of a graph *)
Section Graph.
Variable g : ugraph RN.
Hypothesis INV : Inv g.
Hypothesis FL : flags_ok RN g.
Section Decoder.
Variables (d : decoder) (c : R) (sg : sgraph).
Hypothesis DO : decoder_of g d c sg.
Lemma graph_ready : ready d (run_init d).
Proof.
  split; cbn [run_init r_state r_heap r_search r_sheap r_marks].
  - apply P_Session.init_idle.
  - split; reflexivity.
  - split; cbn; auto.
  - split; [reflexivity|]. split; reflexivity.
  - intros sg' HS. rewrite HS. pose proof (do_so _ _ _ _ DO) as [SO|[_ SO]]; [|congruence]. rewrite HS in SO. injection SO as ->.
    exact (fresh_unmarked _ _ _ _ _ (do_mg _ _ _ _ DO) (do_sg _ _ _ _ DO)).
Qed.
(** No correction: an exception, and a flooder that is idle again. *)
Lemma graph_fails : forall r evs, ready d r -> NoDup evs -> (forall v, In v evs -> v < num_nodes g) -> compact g -> (forall F, ~ corrects g F evs) ->
  exists K s' h', (forall fuel, K <= fuel -> decode_h (adj (d_graph d)) fuel cyclic_ints (d_neg d) (r_state r) (r_heap r) evs = Throw) /\
    (forall fuel, K <= fuel -> left_h (adj (d_graph d)) fuel cyclic_ints (d_neg d) (r_state r) (r_heap r) evs = Ok (s', h', true)) /\ idle (adj (d_graph d)) s' /\ drained s' h'.
Proof.
  intros r evs RD ND IR HC HF. pose proof (pipeline_compact g INV FL d c sg DO HC evs) as L. pose proof (C_valid g d c sg DO evs ND IR) as V.
  assert (VN : valid_events (adj (d_graph d)) (neg_events (d_neg d))) by (rewrite (neg_eta g d c sg DO); exact (neg_valid (nobs g) (num_nodes g) _ (d_graph d) (boundary_flags g) (do_mg _ _ _ _ DO))).
  destruct (heap_two _ _ _ _ evs L (rd_idle _ _ RD) (rd_drained _ _ RD) V VN) as (AB & K & orc & s' & h' & I1 & D1 & [([[o w] l] & X1 & X2)|(X1 & X2 & X3)]).
  - exfalso. pose proof AB as AB2. rewrite (neg_eta g d c sg DO) in AB2, X2.
    destruct (signed_answer (nobs g) (num_nodes g) _ (d_graph d) (boundary_flags g) (do_mg _ _ _ _ DO) (convert_all_fop _ _ _ (E_fop g INV c)) (fun e He => proj1 (C_even g INV d c sg DO e He)) (C_bare g INV FL c)
      K orc (r_state r) evs (AB := AB2) s' o w l (rd_idle _ _ RD) V X2) as (X & HX & _).
    exact (no_solves g INV FL c evs HF X HX).
  - exists K, s', h'. auto.
Qed.
Hypothesis HARM : conversion_harmless g.
Section One.
Variables (r : running) (evs : list nat).
Hypothesis RD : ready d r.
Hypothesis ND : NoDup evs.
Hypothesis IR : forall v, In v evs -> v < num_nodes g.
Variable F0 : list (uedge RN).
Hypothesis HF : corrects g F0 evs.
Hypothesis HS : manageable g F0.

Lemma graph_decode_h : exists K r' o w, (forall fuel, K <= fuel -> py_decode_h d fuel cyclic_ints r evs = Ok (r', (o, w))) /\ ready d r' /\
  exists F, o = map (fun i => flips_observable i F) (seq 0 (nobs g)) /\ corrects g F evs /\ near_best g F evs /\ weight_reported g w F.
Proof.
  destruct (pipeline_light g INV FL d c sg DO HARM evs F0 HF HS) as (LW & L2 & L3). pose proof (spy_able (adj (d_graph d)) LW (d_neg d) evs L2 L3) as AB. pose proof AB as AB2. rewrite (neg_eta g d c sg DO) in AB2.
  pose proof (d_eta g d c sg DO) as Ed. 
  destruct (events_same (nobs g) (num_nodes g) _ (d_graph d) sg (boundary_flags g) (d_search d) (2 * c) (do_mg _ _ _ _ DO) (do_sg _ _ _ _ DO) (convert_all_fop _ _ _ (E_fop g INV c))
      (fun e He => proj1 (C_even g INV d c sg DO e He)) (do_so _ _ _ _ DO) r evs (AB := AB2) ltac:(rewrite <- Ed; exact RD) (C_valid g d c sg DO evs ND IR)) as (K1 & orc & orc2 & h & hq & Q1 & Q2).
  rewrite <- Ed in Q2.
  destruct (pipeline_decode g INV FL d c sg DO HARM spy_ints orc orc2 (r_state r) (r_search r) evs (AB := AB) (rd_idle _ _ RD) (rd_search _ _ RD) ND IR (ex_intro _ F0 HF)) as (K2 & s' & q' & w & F & P1 & P2 & P3 & P4 & P5 & P6).
  exists (Nat.max K1 K2), (mkRun s' h q' hq (r_marks r)), (map (fun i => flips_observable i F) (seq 0 (nobs g))), w.
  assert (X : forall fuel, Nat.max K1 K2 <= fuel -> py_decode_h d fuel cyclic_ints r evs = Ok (mkRun s' h q' hq (r_marks r), (map (fun i => flips_observable i F) (seq 0 (nobs g)), w)) /\ drained s' h).
  { intros f Hf. specialize (P1 f ltac:(lia)). destruct (Q2 f ltac:(lia)) as [Q3 Q4]. unfold py_decode in P1. unfold py_decode_h.
    destruct (decode_events d f f orc orc2 spy_ints (r_state r) (r_search r) evs) as [[[s2 q2] [o2 w2]]| | |]; cbn [bindO] in P1; try discriminate.
    injection P1 as -> -> -> <-. destruct Q3 as [Q3|Q3]; [discriminate|]. rewrite Q3. split; [reflexivity|]. exact (Q4 _ _ _ eq_refl). }
  split; [intros f Hf; exact (proj1 (X f Hf))|]. split; [|exists F; repeat (split; [assumption || reflexivity|]); exact P6].
  destruct RD. split; cbn [r_state r_heap r_search r_sheap r_marks]; auto. exact (proj2 (X _ (le_n _))).
Qed.
Hypothesis NL : forall e, In e (edges g) -> node2 e = Some (node1 e) -> (0 <= weight e)%R.
Hypothesis SS : d_search d = Some sg.
Lemma graph_edges_h : exists K r' out, (forall fuel, K <= fuel -> py_decode_to_edges_h d fuel cyclic_ints r evs = Ok (r', out)) /\ ready d r' /\
  exists F, shows_edges g out F /\ corrects g F evs /\ near_best g F evs.
Proof.
  destruct (pipeline_light g INV FL d c sg DO HARM evs F0 HF HS) as (LW & L2 & L3). pose proof (spy_able (adj (d_graph d)) LW (d_neg d) evs L2 L3) as AB. pose proof AB as AB2. rewrite (neg_eta g d c sg DO) in AB2.
  pose proof (d_eta g d c sg DO) as Ed. 
  destruct (edges_same (nobs g) (num_nodes g) _ (d_graph d) sg (boundary_flags g) (d_search d) (2 * c) (do_mg _ _ _ _ DO) (do_sg _ _ _ _ DO) (convert_all_fop _ _ _ (E_fop g INV c))
      (fun e He => proj1 (C_even g INV d c sg DO e He)) (do_so _ _ _ _ DO) r evs (AB := AB2) ltac:(rewrite <- Ed; exact RD) (C_valid g d c sg DO evs ND IR)) as (K1 & orc & orc2 & h & hq & Q1 & Q2).
  rewrite <- Ed in Q2. pose proof (rd_marks _ _ RD sg SS) as UM.
  destruct (pipeline_edges g INV FL d c sg DO HARM spy_ints orc orc2 (r_state r) (r_search r) evs (AB := AB) (rd_idle _ _ RD) (rd_search _ _ RD) ND IR (r_marks r) UM NL SS (ex_intro _ F0 HF)) as (K2 & s' & q' & M' & out & F & P1 & P2 & P3 & P4 & P5 & P6).
  exists (Nat.max K1 K2), (mkRun s' h q' hq M'), out.
  assert (X : forall fuel, Nat.max K1 K2 <= fuel -> py_decode_to_edges_h d fuel cyclic_ints r evs = Ok (mkRun s' h q' hq M', out) /\ drained s' h).
  { intros f Hf. specialize (P1 f ltac:(lia)). destruct (Q2 f ltac:(lia)) as [Q3 Q4]. rewrite P1 in *. destruct Q3 as [Q3|Q3]; [discriminate|]. rewrite Q3. split; [reflexivity|]. exact (Q4 _ _ _ _ eq_refl). }
  split; [intros f Hf; exact (proj1 (X f Hf))|]. split; [|exists F; split; assumption].
  destruct RD as [R1 R2 R3 R4 R5]. split; cbn [r_state r_heap r_search r_sheap r_marks]; auto; [exact (proj2 (X _ (le_n _)))|].
  intros sg' Hs. specialize (R5 sg' Hs). unfold unmarked in *. intros. rewrite P4. apply R5; assumption.
Qed.
End One.
End Decoder.
End Graph.

(** ** Graphs made by calls *)
Section Calls.
Variables (n k : nat) (ops : list (op RN)).
Let g := run (new_graph RN n k) ops.
Hypothesis IDS : fault_ids_in_range g.
Variables (ens : bool) (d : decoder).
Hypothesis HD : build_decoder g ens = Ok d.
Lemma new_ready : ready d (run_init d).
Proof. destruct (calls_of n k ops IDS ens d HD) as (c & sg & DO & _). exact (graph_ready g d c sg DO). Qed.
Hypothesis HARM : conversion_harmless g.
Section One.
Variables (r : running) (evs : list nat).
Hypothesis RD : ready d r.
Hypothesis ND : NoDup evs.
Hypothesis IR : forall v, In v evs -> v < num_nodes g.
Variable F0 : list (uedge RN).
Hypothesis HF : corrects g F0 evs.
Hypothesis HS : manageable g F0.
Lemma heap_calls_decode : exists K r' o w, (forall fuel, K <= fuel -> py_decode_h d fuel cyclic_ints r evs = Ok (r', (o, w))) /\ ready d r' /\
  exists F, o = map (fun i => flips_observable i F) (seq 0 (nobs g)) /\ corrects g F evs /\ near_best g F evs /\ weight_reported g w F.
Proof.
  destruct (calls_of n k ops IDS ens d HD) as (c & sg & DO & _).
  exact (graph_decode_h g (calls_inv n k ops) (calls_flags n k ops) d c sg DO HARM r evs RD ND IR F0 HF HS).
Qed.
Hypothesis NL : forall e, In e (edges g) -> node2 e = Some (node1 e) -> (0 <= weight e)%R.
Hypothesis EN : ens = true.
Lemma heap_calls_edges : exists K r' out, (forall fuel, K <= fuel -> py_decode_to_edges_h d fuel cyclic_ints r evs = Ok (r', out)) /\ ready d r' /\
  exists F, shows_edges g out F /\ corrects g F evs /\ near_best g F evs.
Proof.
  destruct (calls_of n k ops IDS ens d HD) as (c & sg & DO & _ & SS).
  exact (graph_edges_h g (calls_inv n k ops) (calls_flags n k ops) d c sg DO HARM r evs RD ND IR F0 HF HS NL (SS EN)).
Qed.
End One.
Hypothesis NL : forall e, In e (edges g) -> node2 e = Some (node1 e) -> (0 <= weight e)%R.
Hypothesis EN : ens = true.
Lemma heap_calls_session : forall cs r, ready d r -> Forall (answerable_call g) cs ->
  exists K r' rs, (forall fuel, K <= fuel -> calls_h d fuel cyclic_ints r cs = Ok (r', rs)) /\ ready d r' /\ Forall2 (right_reply g) cs rs.
Proof.
  intros cs. induction cs as [|c cs IH]; intros r RD H.
  - exists 0, r, []. split; [reflexivity|]. split; [assumption|constructor].
  - destruct (Forall_inv H) as (H1 & H2 & F & H3 & H4). pose proof (Forall_inv_tail H) as H5. destruct c as [evs|evs]; cbn [events] in *.
    + destruct (heap_calls_decode r evs RD H1 H2 F H3 H4) as (K1 & r1 & o & w & A1 & A2 & A3). destruct (IH r1 A2 H5) as (K2 & r2 & rs & B1 & B2 & B3).
      exists (Nat.max K1 K2), r2, (Answer o w :: rs). split; [|split; [assumption|constructor; assumption]]. intros f Hf. cbn [calls_h]. rewrite A1 by lia. cbn [bindO fst snd]. rewrite B1 by lia. reflexivity.
    + destruct (heap_calls_edges r evs RD H1 H2 F H3 H4 NL EN) as (K1 & r1 & out & A1 & A2 & A3). destruct (IH r1 A2 H5) as (K2 & r2 & rs & B1 & B2 & B3).
      exists (Nat.max K1 K2), r2, (Edges out :: rs). split; [|split; [assumption|constructor; assumption]]. intros f Hf. cbn [calls_h]. rewrite A1 by lia. cbn [bindO fst snd]. rewrite B1 by lia. reflexivity.
Qed.
End Calls.
