(** A set padding bit in a packed shot makes the Matching object refuse everything that follows. *)
From Coq Require Import Reals ZArith NArith List Bool Arith Lia Lra Sorted.
From Verif Require Import M_Base M_Cyclic M_RadixHeap S_RadixHeap M_Varying M_Tracker M_Core M_Session M_CoreHeap M_Failing S_Core S_Session S_CoreHeap P_CoreGeo P_CoreSched P_CoreStart P_CoreAdd P_CoreSim P_CoreHeap P_CoreHeap2 P_Reject P_SearchHeap2 P_CoreShat P_RadixHeap.
Import ListNotations.
Local Open Scope Z_scope.

(** ** The decoder *)
Lemma foldS_throw : forall (f : state -> nat -> outcome state) l1 bad l2 s s1, foldS f l1 s = Ok s1 -> f s1 bad = Throw -> foldS f (l1 ++ bad :: l2) s = Throw.
Proof.
  intros f l1. induction l1 as [|x l1 IH]; intros bad l2 s s1 H H0; cbn [app]; rewrite foldS_cons; [cbn in H; injection H as ->; now rewrite H0|].
  rewrite foldS_cons in H. destruct (f s x) as [s2| | |]; try discriminate. exact (IH bad l2 s2 s1 H H0).
Qed.
Lemma heap_stuck : forall G I s h pre bad rest, wf_graph G -> (forall u x w o, In (x, w, o) (nbrs G u) -> w <= max_weight) -> neg_events I = [] -> idle G s -> drained s h -> NoDup pre ->
  (forall v, In v pre -> (v < length G)%nat) -> (length G <= bad)%nat -> (exists v, In v pre /\ nth v (is_bnd I) false = false /\ nbrs G v <> []) ->
  exists s' h', (forall f, decode_h G f cyclic_ints I s h (pre ++ bad :: rest) = Throw) /\ (forall f, left_h G f cyclic_ints I s h (pre ++ bad :: rest) = Ok (s', h', false)) /\ q_empty item h' = false.
Proof.
  intros G I s h pre bad rest WF HW N HI HD ND HP HB (v & Hv & Bv & Hn). pose proof (spy_wfine G HW) as WN. pose proof (idle_queue _ _ HI) as Q0. pose proof (idle_start G WF s HI) as H0. set (s0 := set_sc s _) in *.
  destruct (plain_spec G (NI := spy_ints) WF I pre s0 [] [] [] H0 ND) as (s1 & ev & ls & al & E1 & E2 & E3); [intros x Hx; split; auto|].
  assert (QN : que (sc s1) <> []) by (apply (placed_queue G WF _ _ _ _ _ v E2); [apply E3; auto|exact Hn]).
  assert (HD0 : drained s0 h) by (destruct HD; split; assumption). assert (G0 : good s0) by (apply (drained_good s0 h); [reflexivity|assumption]).
  pose proof (sched_punctual G _ _ _ _ (st_sch _ _ _ _ _ _ E2)) as PU.
  pose proof (add_events_sim G I s0 pre) as AS. unfold add_events in AS. rewrite N, E1 in AS. destruct AS as [AS1 AS2]. specialize (AS2 G0 PU).
  set (h0 := M_RadixHeap.mkQ (buckets h) 0 (num_enqueued h)).
  assert (L0 : link s0 h0) by (split; [assumption|]; exists [], []; split; [reflexivity|]; exact (rep_all_empty 32 item h0 (drained_buckets _ _ HD) (drained_count _ _ HD))).
  pose proof (link_step _ _ _ L0 AS1) as L1. destruct (push_new_spec s1 h0 L1 PU) as (h1 & P1 & P2).
  assert (Qe : q_empty item h = true) by (unfold q_empty; rewrite (drained_count _ _ HD); reflexivity).
  exists s1, h1. split; [|split].
  - intros f. unfold decode_h, process_timeline_h. rewrite Qe. cbn [negb]. rewrite Q0. fold s0. unfold add_events. rewrite N, (foldS_throw _ pre bad rest s0 s1 AS2); [reflexivity|]. unfold add_plain. destruct (Nat.leb_spec (length G) bad); [reflexivity|lia].
  - intros f. unfold left_h. rewrite Qe. cbn [negb]. rewrite Q0. fold s0 h0. unfold add_events_st. rewrite N, (fold_throw_app _ pre bad rest s0 s1); [rewrite P1; reflexivity| |exact AS2]. unfold add_plain. destruct (Nat.leb_spec (length G) bad); [reflexivity|lia].
  - destruct P2 as (_ & A & _ & _ & _ & H). cbn [S_RadixHeap.pending] in H. unfold q_empty. rewrite H. destruct (que (sc s1)); [congruence|]. apply Z.eqb_neq. cbn. lia.
Qed.
Lemma locked_throws : forall G f A I s h evs, q_empty item h = false -> decode_h G f A I s h evs = Throw /\ left_h G f A I s h evs = Ok (s, h, false).
Proof. intros G f A I s h evs H. unfold decode_h, process_timeline_h, left_h. rewrite H. split; reflexivity. Qed.

From Verif Require Import M_Search M_ToEdges M_SearchHeap M_Build S_Build P_Build P_Machine P_Convert P_Convert2 M_Bits S_Bits P_Bits M_Discretise M_Merge M_Pipeline M_PipelineHeap M_UserGraph S_UserGraph P_UserGraph S_Pipeline S_PipelineHeap P_UserCorr P_Pipeline P_Pipeline2 P_Pipeline3 P_PipelineHeap P_Matched M_Matching S_Matching P_Matching S_Padding.
Local Open Scope nat_scope.

(** ** The graph of the decoder *)
Section Graph.
Variable g : ugraph RN.
Hypothesis INV : Inv g.
Hypothesis FL : flags_ok RN g.
Variables (d : decoder) (c : R) (sg : sgraph).
Hypothesis DO : decoder_of g d c sg.
Let n := num_nodes g.
Let B := fun v => is_boundary_node g (Some v).
Let E := map (discretised_edge c) (edges g).

Lemma conv_entry : forall e v, In e E -> convert_edge B e = Edge e \/ (exists w o, convert_edge B e = BoundaryEdge v w o) -> (exists u w o, e = (v, Some u, w, o) /\ u <> v \/ e = (u, Some v, w, o) /\ u <> v) \/ (exists w o, convert_edge B e = BoundaryEdge v w o) -> v < n -> M_Core.nbrs (adj (d_graph d)) v <> [].
Proof.
  intros e v He X Y Hv. pose proof (build_built _ _ _ _ (do_mg _ _ _ _ DO)) as HB. fold n B E in HB. pose proof (E_below g INV c) as RB. fold n E in RB. pose proof (proj1 (range_below n E) RB) as RG.
  assert (Z : (exists w o, convert_edge B e = BoundaryEdge v w o) -> M_Core.nbrs (adj (d_graph d)) v <> []).
  { intros (w & o & Hw). destruct (convert B E (fun _ => None)) as [l t'] eqn:Ec. destruct (convert_spec _ _ _ _ _ Ec) as (_ & _ & _ & H4). destruct (H4 e v w o He Hw) as (w' & o' & Ht & _).
    assert (Hi : In (v, None, w', o') (convert_all n B E)) by (apply (convert_all_In n B E _ RG); exists t'; rewrite Ec; split; [reflexivity|]; right; exists v, w', o'; auto).
    intros Nil. assert (Q : In (None, Z.abs w', mask_of (nobs g) o') (M_Core.nbrs (adj (d_graph d)) v)) by (apply (adj_boundary _ _ _ _ HB); eauto). rewrite Nil in Q. destruct Q. }
  destruct X as [X|X]; [|exact (Z X)]. destruct Y as [(u & w & o & Y)|Y]; [|exact (Z Y)].
  assert (Hi : In e (convert_all n B E)).
  { unfold convert_all. destruct (convert B E (fun _ => None)) as [l t'] eqn:Ec. destruct (convert_spec _ _ _ _ _ Ec) as (H1 & _). apply in_or_app. left. apply H1. now exists e. }
  intros Nil. assert (Q : In (Some u, Z.abs w, mask_of (nobs g) o) (M_Core.nbrs (adj (d_graph d)) v)).
  { apply (adj_edge _ _ _ _ HB). destruct Y as [[-> N]|[-> N]]; (split; [congruence|]); exists w, o; auto. }
  rewrite Nil in Q. destruct Q.
Qed.
Lemma neighbour_entry : forall v, v < n -> ~ In v (bnodes g) -> has_neighbour g v -> M_Core.nbrs (adj (d_graph d)) v <> [].
Proof.
  intros v Hv HB (e & He & HT). assert (Bv : B v = false) by (unfold B, is_boundary_node; rewrite (proj1 FL v); destruct (memb v (bnodes g)) eqn:Q; [exfalso; apply HB, memb_In, Q|reflexivity]).
  pose proof (in_map (discretised_edge c) _ _ He) as Hd. fold E in Hd. unfold discretised_edge in Hd. apply (conv_entry _ v Hd); [| |exact Hv].
  - destruct HT as [[N1 N2]|[N1 N2]]; cbn [convert_edge is_bnd_node].
    + rewrite N1, Bv, andb_true_r. destruct (node2 e) as [u|]; cbn [is_bnd_node]; [|right; eauto]. destruct (B u); [right; eauto|left; reflexivity].
    + rewrite N1. cbn [is_bnd_node]. rewrite Bv. cbn [andb negb]. destruct (B (node1 e)); cbn; [right; eauto|now left].
  - destruct HT as [[N1 N2]|[N1 N2]]; cbn [convert_edge is_bnd_node].
    + rewrite N1, Bv, andb_true_r. destruct (node2 e) as [u|]; cbn [is_bnd_node]; [|right; eauto]. left. exists u. do 2 eexists. left. split; [reflexivity|congruence].
    + rewrite N1. left. exists (node1 e). do 2 eexists. right. split; [reflexivity|assumption].
Qed.
End Graph.

(** ** The object *)
Lemma split_sorted : forall l k, StronglySorted lt l -> (exists b, In b l /\ k <= b) -> exists pre bad rest, l = pre ++ bad :: rest /\ k <= bad /\ forall v, In v pre -> v < k.
Proof.
  induction l as [|x l IH]; intros k HS (b & Hb & Lb); [destruct Hb|]. destruct (Nat.lt_ge_cases x k) as [L|L]; [|exists [], x, l; split; [reflexivity|split; [exact L|intros v []]]].
  apply StronglySorted_inv in HS as [HS _]. destruct (IH k HS) as (pre & bad & rest & -> & H1 & H2).
  - exists b. split; [|exact Lb]. destruct Hb as [->|Hb]; [lia|exact Hb].
  - exists (x :: pre), bad, rest. split; [reflexivity|]. split; [exact H1|]. intros v [<-|Hv]; auto.
Qed.
Lemma stuck_into : forall g d k c sg r evs, Inv g -> flags_ok RN g -> serves g d k c sg -> ready d r -> (forall e, In e (edges g) -> (0 <= weight e)%R) -> StronglySorted lt evs ->
  (exists b, In b evs /\ num_nodes g <= b) -> (exists v, In v evs /\ v < num_nodes g /\ ~ In v (bnodes g) /\ has_neighbour g v) ->
  exists r', q_empty item (r_heap r') = false /\ forall fuel, decode_h (adj (d_graph d)) fuel cyclic_ints (d_neg d) (r_state r) (r_heap r) evs = Throw /\ after_throw fuel cyclic_ints d r evs = Ok r'.
Proof.
  intros g d k c sg r evs INV FL [S1 S2 S3] RD POS HS HB (v & Hv & Lv & Bv & Nv).
  destruct (split_sorted evs (num_nodes g) HS HB) as (pre & bad & rest & -> & Lb & Lp).
  set (g1 := at_nobs g k) in *. pose proof (build_built _ _ _ _ (do_mg _ _ _ _ S3)) as BB. assert (LG : length (adj (d_graph d)) = num_nodes g) by (destruct BB as (_ & L & _); exact L).
  assert (Hp : In v pre). { apply in_app_or in Hv as [Hv|Hv]; [exact Hv|]. exfalso. assert (bad <= v); [|lia]. clear - HS Hv. induction pre as [|x pre IH]; [cbn [app] in HS; apply StronglySorted_inv in HS as [_ HF]; rewrite Forall_forall in HF; destruct Hv as [<-|Hv]; [lia|]; specialize (HF v Hv); lia|]. apply StronglySorted_inv in HS as [HS _]. exact (IH HS). }
  pose proof (no_negative g1 INV d c sg S3 (pos_kept g1 c (do_c _ _ _ _ S3) POS)) as [NE _].
  destruct (heap_stuck (adj (d_graph d)) (d_neg d) (r_state r) (r_heap r) pre bad rest) as (s' & h' & D1 & D2 & D3).
  - eapply built_wf; [exact BB|exact (convert_all_fop _ _ _ (E_fop g1 INV c))|exact (fun e He => proj1 (C_even g1 INV d c sg S3 e He))].
  - exact (built_weights _ _ _ _ _ BB (fun e He => proj2 (C_even g1 INV d c sg S3 e He))).
  - exact NE.
  - exact (rd_idle _ _ RD).
  - exact (rd_drained _ _ RD).
  - clear - HS. induction pre as [|x pre IH]; [constructor|]. apply StronglySorted_inv in HS as [HS HF]. constructor; [|exact (IH HS)]. intros Hx. rewrite Forall_forall in HF. specialize (HF x (in_or_app _ _ _ (or_introl Hx))). lia.
  - intros u Hu. rewrite LG. exact (Lp u Hu).
  - lia.
  - exists v. split; [exact Hp|]. split.
    + unfold d_neg, neg_info_of. cbn [is_bnd]. rewrite (do_flags _ _ _ _ S3). rewrite (flags_nth g1 FL). unfold is_boundary_node. change (nodes g1) with (nodes g). rewrite (proj1 FL v). destruct (memb v (bnodes g)) eqn:Q; [exfalso; apply Bv, memb_In, Q|reflexivity].
    + apply (neighbour_entry g1 INV FL d c sg S3 v Lv Bv Nv).
  - exists (mkRun s' h' (r_search r) (r_sheap r) (r_marks r)). split; [exact D3|]. intros f. split; [apply D1|]. unfold after_throw. rewrite D2. reflexivity.
Qed.

(** The object refuses. *)
Definition locked (m : matching) : Prop :=
  needs (m_graph m) = false /\ exists g d r k c sg, m_mwpm m = Some (d, r) /\ serves g d k c sg /\ q_empty item (r_heap r) = false.
Lemma keep_same : forall m d r, m_mwpm m = Some (d, r) -> keep m d r = m.
Proof. intros [g w] d r H. cbn in H. subst w. reflexivity. Qed.
Lemma locked_step : forall fuel m c, locked m -> request c -> mstep fuel cyclic_ints m c = Ok (m, Raised).
Proof.
  intros fuel m c (EN & g & d & r & k & c0 & sg & EM & SV & HQ) HR.
  assert (GD : get_decoder m = Ok (m, d, r)) by (unfold get_decoder; rewrite EN, EM; reflexivity).
  pose proof (fun evs => locked_throws (adj (d_graph d)) fuel cyclic_ints (d_neg d) (r_state r) (r_heap r) evs HQ) as LT.
  assert (AT : forall evs, after_throw fuel cyclic_ints d r evs = Ok r) by (intros evs; unfold after_throw; rewrite (proj2 (LT evs)); destruct r; reflexivity).
  assert (DI : forall evs buf, decode_into fuel cyclic_ints d r evs buf = Throw) by (intros evs buf; exact (into_throws g d k c0 sg r evs fuel buf SV (proj1 (LT evs)))).
  assert (PC : forall evs give, pairs_call fuel cyclic_ints m evs give = Ok (m, Raised)).
  { intros evs give. unfold pairs_call. rewrite GD. cbn [unless_thrown]. unfold match_edges_h. destruct (negb _); [reflexivity|]. rewrite (proj1 (LT evs)). cbn [bindO unless_thrown]. rewrite AT. cbn [bindO]. rewrite (keep_same m d r EM). reflexivity. }
  destruct c as [x|z|ps pp z|z|z|z]; cbn [request] in HR; try contradiction; cbn [mstep].
  - destruct (events_in (m_graph m) z) as [evs| | |]; try reflexivity. rewrite GD. cbn [unless_thrown]. rewrite DI. cbn [unless_thrown]. rewrite AT. cbn [bindO]. rewrite (keep_same m d r EM). reflexivity.
  - destruct z as [l|nc shots|]; try reflexivity. destruct (batch_shape_ok _ _ _); [|reflexivity]. rewrite GD. cbn [unless_thrown]. destruct shots as [|shot shots]; [contradiction|]. cbn [decode_batch batch_left].
    assert (D1 : decode_one running (decode_into fuel cyclic_ints d) (nobs (m_graph m)) ps pp r shot = Throw) by (unfold decode_one; rewrite DI; destruct pp; reflexivity).
    rewrite D1. cbn [bindO unless_thrown]. rewrite AT. cbn [bindO]. rewrite (keep_same m d r EM). reflexivity.
  - destruct (events_in (m_graph m) z) as [evs| | |]; try reflexivity. apply PC.
  - destruct (events_in (m_graph m) z) as [evs| | |]; try reflexivity. apply PC.
Qed.
Lemma locked_run : forall fuel m cs, locked m -> Forall request cs -> mrun fuel cyclic_ints m cs = Ok (m, map (fun _ => Raised) cs).
Proof. intros fuel m cs HL H. induction H as [|c cs Hc H IH]; [reflexivity|]. cbn [mrun]. rewrite (locked_step fuel m c HL Hc). cbn [bindO fst snd]. rewrite IH. reflexivity. Qed.

Lemma padding_locks : forall m g pp ncols shot shots, fits m g -> usable g -> (forall e, In e (edges g) -> (0 <= weight e)%R) -> accepted_batch g true (Syn2 ncols (shot :: shots)) ->
  (exists b, shot_event true shot b /\ num_nodes g <= b) -> (exists v, shot_event true shot v /\ v < num_nodes g /\ ~ In v (bnodes g) /\ has_neighbour g v) ->
  exists m', locked m' /\ forall fuel, mstep fuel cyclic_ints m (AskBatch true pp (Syn2 ncols (shot :: shots))) = Ok (m', Raised).
Proof.
  intros m g pp ncols shot shots FT (IDS & SC & HARM) POS HA (b & Hb & Lb) (v & Hv & Lv & Bv & Nv). destruct (f_graph _ _ FT) as [bb Eg].
  destruct (get_ok m g FT IDS SC) as (m' & d & r & k & c & sg & G1 & G2 & G3 & G4). destruct (shot_events_ok true shot) as [_ HE].
  destruct (stuck_into g d k c sg r (packed_events 0 shot) (f_inv _ _ FT) (f_flags _ _ FT) G3 G4 POS (packed_events_sorted shot 0)) as (r' & Q1 & Q2).
  - exists b. split; [now apply HE|exact Lb].
  - exists v. split; [now apply HE|auto].
  - exists (keep m' d r'). split.
    + split; [|exists g, d, r', k, c, sg; auto]. change (needs (m_graph m') = false). unfold get_decoder, make in G1. destruct (needs (m_graph m)) eqn:En, (m_mwpm m) as [[d0 r0]|] eqn:Em.
      * destruct (build_decoder (m_graph m) false); try discriminate. cbn [bindO] in G1. injection G1 as <- _ _. reflexivity.
      * destruct (build_decoder (m_graph m) false); try discriminate. cbn [bindO] in G1. injection G1 as <- _ _. reflexivity.
      * injection G1 as <- _ _. exact En.
      * destruct (build_decoder (m_graph m) false); try discriminate. cbn [bindO] in G1. injection G1 as <- _ _. reflexivity.
    + intros f. cbn [mstep]. assert (BS : batch_shape_ok (m_graph m) true ncols = true).
      { rewrite Eg. cbn [accepted_batch] in HA. unfold batch_shape_ok. change (num_detectors (set_needs g bb)) with (num_detectors g). change (num_nodes (set_needs g bb)) with (num_nodes g).
        apply andb_true_iff. split; apply Nat.leb_le; lia. }
      rewrite BS, G1. cbn [unless_thrown decode_batch batch_left]. destruct (Q2 f) as [Q3 Q4].
      assert (D1 : decode_one running (decode_into f cyclic_ints d) (nobs (m_graph m)) true pp r shot = Throw) by (unfold decode_one; rewrite (into_throws g d k c sg r _ f _ G3 Q3); destruct pp; reflexivity).
      rewrite D1. cbn [bindO unless_thrown]. rewrite Q4. reflexivity.
Qed.
Lemma run_fits : forall cs m g, fits m g -> all_fair g cs -> exists K m' rs, (forall fuel, K <= fuel -> mrun fuel cyclic_ints m cs = Ok (m', rs)) /\ all_right g cs rs /\ fits m' (fold_left after cs g).
Proof.
  induction cs as [|c cs IH]; intros m g FT HF; [exists 0, m, []; split; [reflexivity|split; [exact I|exact FT]]|]. destruct HF as [H1 H2].
  destruct (step_ok m g c FT H1) as (K1 & m1 & r & A1 & A2 & A3). destruct (IH m1 (after g c) A3 H2) as (K2 & m2 & rs & B1 & B2 & B3).
  exists (Nat.max K1 K2), m2, (r :: rs). split; [|split; [split; assumption|exact B3]]. intros f Hf. cbn [mrun]. rewrite A1 by lia. cbn [bindO fst snd]. rewrite B1 by lia. reflexivity.
Qed.
Lemma mrun_app : forall fuel A cs1 cs2 m m1 rs1, mrun fuel A m cs1 = Ok (m1, rs1) -> mrun fuel A m (cs1 ++ cs2) = bindO (mrun fuel A m1 cs2) (fun y => Ok (fst y, rs1 ++ snd y)).
Proof.
  intros fuel A. induction cs1 as [|c cs1 IH]; intros cs2 m m1 rs1 H; cbn [mrun app] in *; [injection H as <- <-; destruct (mrun fuel A m cs2) as [[? ?]| | |]; reflexivity|].
  destruct (mstep fuel A m c) as [[m2 r2]| | |]; try discriminate. cbn [bindO fst snd] in *. destruct (mrun fuel A m2 cs1) as [[m3 rs3]| | |] eqn:E; try discriminate. cbn [bindO fst snd] in H. injection H as <- <-.
  rewrite (IH cs2 m2 m3 rs3 E). destruct (mrun fuel A m3 cs2) as [[? ?]| | |]; reflexivity.
Qed.
Lemma padding_forever : forall n k before pp ncols shot shots cs, all_fair (new_graph RN n k) before -> let g := fold_left after before (new_graph RN n k) in
  usable g -> (forall e, In e (edges g) -> (0 <= weight e)%R) -> accepted_batch g true (Syn2 ncols (shot :: shots)) ->
  (exists b, shot_event true shot b /\ num_nodes g <= b) -> (exists v, shot_event true shot v /\ v < num_nodes g /\ ~ In v (bnodes g) /\ has_neighbour g v) -> Forall request cs ->
  exists K m' rs, all_right (new_graph RN n k) before rs /\ forall fuel, K <= fuel ->
    mrun fuel cyclic_ints (new_matching (new_graph RN n k)) (before ++ AskBatch true pp (Syn2 ncols (shot :: shots)) :: cs) = Ok (m', rs ++ Raised :: map (fun _ => Raised) cs).
Proof.
  intros n k before pp ncols shot shots cs HF g U POS HA HB HV HR.
  assert (FT0 : fits (new_matching (new_graph RN n k)) (new_graph RN n k)) by (apply new_fits; [apply new_inv|apply flags_new|intros e []]).
  destruct (run_fits before _ _ FT0 HF) as (K & m & rs & R1 & R2 & FT). fold g in FT.
  destruct (padding_locks m g pp ncols shot shots FT U POS HA HB HV) as (m' & L1 & L2). exists K, m', rs. split; [exact R2|]. intros f Hf. rewrite (mrun_app f cyclic_ints before _ _ m rs (R1 f Hf)).
  cbn [mrun]. rewrite L2. cbn [bindO fst snd]. rewrite (locked_run f m' cs L1 HR). reflexivity.
Qed.
