(** The search on the radix heap: shortest paths, one query after another. *)
From Coq Require Import ZArith NArith List Bool Arith Lia Permutation.
From Verif Require Import M_Base M_Cyclic M_RadixHeap S_RadixHeap P_RadixHeap M_Tracker M_Core M_CoreHeap M_Build M_Flip M_Search M_ToEdges M_SearchHeap S_Core S_Session S_Search S_SearchHeap
  P_Tree P_CoreGeo P_CoreSched P_CoreQueue P_Reweight P_Search P_Search2 P_Search3 P_CoreSim P_CoreHeap P_CoreHeap2 P_SearchHeap.
Import ListNotations.
Local Open Scope Z_scope.

Section Query.
Variable G : graph.
Hypothesis WF : wf_graph G.
Hypothesis AO : wfine spy_ints G.
Section One.
Variables (a : nat) (b : option nat).
Hypothesis VQ : valid_query G a b.
Variables (s : search) (h : heap).
Hypothesis HI : search_idle s.
Hypothesis HR : rested h.

Lemma target_link : forall t, slink (set_target s t) h.
Proof.
  intros t. destruct HI as [H1 H2 H3 H4]. destruct HR as (R1 & R2 & R3). split.
  - split; cbn [set_target strk sque snow]; rewrite ?H2.
    + intros v Hv. destruct (H1 v) as (_ & _ & _ & E). congruence.
    + intros t0 i [].
    + intros v Hv. destruct (H1 v) as (_ & _ & _ & E). congruence.
  - exists [], []. cbn [set_target sque snow]. rewrite H2, H3. split; [reflexivity|]. pose proof (rep_all_empty 32 item h R1 R2) as X. rewrite R3 in X. exact X.
Qed.
Lemma collide_h : exists k s' h' c cs, (forall f, (k <= f)%nat -> run_until_collision_h G f cyclic_ints s h a b = Ok (s', h', c)) /\ slink s' h' /\ spunctual s' /\ stick s' = (stick s + length cs)%nat /\
    forall orc, follows orc (stick s) cs -> forall f, (k <= f)%nat -> run_until_collision G f orc spy_ints s a b = Ok (s', c).
Proof.
  destruct (start_spec G WF (fun _ => 0%nat) spy_ints AO a b VQ s HI) as (s2 & E2 & I2 & _).
  assert (X : exists s1, match b with None => Ok (set_target s true) | Some d => start_at G spy_ints (set_target s false) d end = Ok s1 /\ start_at G spy_ints s1 a = Ok s2).
  { destruct (match b with None => Ok (set_target s true) | Some d => start_at G spy_ints (set_target s false) d end) as [s1| | |]; cbn [bindO] in E2; try discriminate. eauto. }
  destruct X as (s1 & E1 & E3). destruct (start_sim G _ _ _ E3) as [S1 S2]. pose proof (sinv_punctual G _ _ _ I2) as P2. pose proof (sstep_punctual _ _ S1 P2) as P1.
  assert (Y : exists t, sstep (set_target s t) s1 /\ match b with None => Ok (set_target s true) | Some d => start_at G cyclic_ints (set_target s false) d end = Ok s1).
  { destruct b as [d|].
    - exists false. destruct (start_sim G _ _ _ E1) as [T1 T2]. split; [exact T1|]. apply T2; [|exact P1]. apply (target_link false).
    - exists true. injection E1 as <-. split; [apply sstep_refl|reflexivity]. }
  destruct Y as (t & T1 & T2). pose proof (slink_step _ _ _ (target_link t) T1) as L1. pose proof (slink_step _ _ _ L1 S1) as L2.
  specialize (S2 (sl_good _ _ L1) P2).
  destruct (srun_h_spec G WF AO _ _ _ s2 h I2 L2 (Nat.le_refl _) (Nat.le_refl _)) as (k & s' & h' & c & cs & R1 & R2 & R3 & R4 & R5).
  assert (TK : stick s2 = stick s) by (rewrite (ss_tick _ _ S1), (ss_tick _ _ T1); reflexivity). rewrite TK in R4, R5.
  exists k, s', h', c, cs. split; [|split; [assumption|split; [assumption|split; [assumption|]]]].
  - intros f Hf. unfold run_until_collision_h. rewrite T2. cbn [bindO]. rewrite S2. cbn [bindO]. now apply R1.
  - intros orc HF f Hf. unfold run_until_collision. rewrite E1. cbn [bindO]. rewrite E3. cbn [bindO]. now apply R5.
Qed.
Lemma reset_h : forall s' h', slink s' h' -> spunctual s' -> exists h2, sreset_h s' h' = Ok (sreset s', h2) /\ rested h2.
Proof.
  intros s' h' HL HP. destruct (spush s' h' HL HP) as (h1 & E1 & H1). unfold sreset_h. rewrite E1. cbn [bindO].
  destruct (rep_clear 32 ltac:(lia) item h1 _ H1) as (h2 & E2 & _ & N & B). unfold M_RadixHeap.reset. rewrite E2. cbn [bindO]. eexists. split; [reflexivity|]. split; [exact B|]. split; [exact N|reflexivity].
Qed.
Lemma query_h : connected G a b -> exists k s' h' cells p cs,
  (forall f, (k <= f)%nat -> path_from_middle_h G f cyclic_ints s h a b = Ok (s', h', cells) /\ path_from_source_h G f cyclic_ints s h a b = Ok (s', h', p)) /\
  search_idle s' /\ rested h' /\ stick s' = (stick s + length cs)%nat /\
  (forall orc, follows orc (stick s) cs -> forall f, (k <= f)%nat -> path_from_middle G f orc spy_ints s a b = Ok (s', cells)) /\
  leads G a p b /\ Forall (is_cell G) cells /\ Permutation (edges_at G cells) (edges_at G p) /\ forall w o, path G a b w o -> weight_of (edges_at G cells) <= w.
Proof.
  intros Hc. destruct collide_h as (k1 & s1 & h1 & c & cs & R1 & R2 & R3 & R4 & R5). destruct (reset_h s1 h1 R2 R3) as (h2 & E2 & H2).
  destruct (follows_some (stick s) cs) as (orc0 & F0).
  destruct (query_spec G WF orc0 spy_ints AO a b VQ s HI Hc) as (k2 & s' & cells & p & Q1 & Q2 & Q3 & Q4 & Q5 & Q6).
  set (K := Nat.max k1 k2). assert (M : forall orc, follows orc (stick s) cs -> forall f, (K <= f)%nat -> path_from_middle G f orc spy_ints s a b = Ok (s', cells)).
  { intros orc HF f Hf. destruct (Q1 f ltac:(unfold K in Hf; lia)) as [X _]. unfold path_from_middle in X |- *. rewrite (R5 orc0 F0 f ltac:(unfold K in Hf; lia)) in X. rewrite (R5 orc HF f ltac:(unfold K in Hf; lia)). exact X. }
  assert (S' : s' = sreset s1).
  { pose proof (M orc0 F0 K (le_n K)) as X. unfold path_from_middle in X. rewrite (R5 orc0 F0 K ltac:(unfold K; lia)) in X. destruct (ends_ok G a b); [|discriminate]. cbn [bindO fst snd] in X.
    destruct (trace_collision G K s1 c); cbn [bindO] in X; try discriminate. congruence. }
  exists K, s', h2, cells, p, cs. split; [|split; [exact Q2|split; [exact H2|split; [rewrite S', <- R4; clear; unfold sreset; cbn [stick]|split; [exact M|auto]]]]].
  - intros f Hf. unfold K in Hf. destruct (Q1 f ltac:(lia)) as [X Y]. unfold path_from_middle_h, path_from_source_h. unfold path_from_middle in X. unfold path_from_source in Y.
    rewrite (R5 orc0 F0 f ltac:(lia)) in X, Y. rewrite R1 by lia. destruct (ends_ok G a b); [|discriminate]. cbn [bindO fst snd] in *. split.
    + destruct (trace_collision G f s1 c) as [l| | |]; cbn [bindO] in *; try discriminate. rewrite E2. cbn [bindO fst snd]. congruence.
    + destruct c as [c|]; [|discriminate]. destruct (trace G f s1 (fst c)) as [l1| | |]; cbn [bindO] in *; try discriminate. destruct (other_end G c) as [x| | |]; cbn [bindO] in *; try discriminate.
      destruct (match x with None => Ok [] | Some u => trace G f s1 u end) as [l2| | |]; cbn [bindO] in *; try discriminate. destruct (other_end G (last (c :: l2) c)) as [z| | |]; cbn [bindO] in *; try discriminate.
      destruct (if same_opt z (Some a) then _ else _) as [l| | |]; cbn [bindO] in *; try discriminate. rewrite E2. cbn [bindO fst snd]. congruence.
  - generalize (rev (sreached s1)). intros l. revert s1. induction l as [|x l IH]; intros s1; [reflexivity|]. cbn [fold_left]. now rewrite IH.
Qed.
End One.

(** One query after another. *)
Definition answerable (e : cedge) : Prop := exists a, efrom e = Some a /\ valid_query G a (eto e) /\ connected G a (eto e).
Lemma collect_h : forall l, Forall answerable l -> forall s h, search_idle s -> rested h -> exists k s' h' cs, search_idle s' /\ rested h' /\
  forall orc, follows orc (stick s) cs -> forall f, (k <= f)%nat -> forall M edges,
    collect_paths_h G f cyclic_ints l s h M edges = bindO (collect_paths G f orc spy_ints l s M edges) (fun x => Ok (s', h', snd (fst x), snd x)) /\
    forall s2 M2 e2, collect_paths G f orc spy_ints l s M edges = Ok (s2, M2, e2) -> s2 = s'.
Proof.
  intros l H. induction H as [|e l (a & Ea & V & C) H IH]; intros s h HI HR.
  - exists 0%nat, s, h, []. split; [assumption|]. split; [assumption|]. intros orc _ f _ M edges. cbn. split; [reflexivity|]. congruence.
  - destruct (query_h a (eto e) V s h HI HR C) as (k1 & s1 & h1 & cells & p & cs1 & A1 & A2 & A3 & A4 & A5 & _).
    destruct (IH s1 h1 A2 A3) as (k2 & s2 & h2 & cs2 & B1 & B2 & B3). exists (Nat.max k1 k2), s2, h2, (cs1 ++ cs2). split; [assumption|]. split; [assumption|].
    intros orc HF f Hf M edges. apply follows_app in HF as [F1 F2]. rewrite <- A4 in F2. cbn [collect_paths_h collect_paths]. rewrite Ea. cbn [deref bindO].
    rewrite (proj1 (A1 f ltac:(lia))), (A5 orc F1 f ltac:(lia)). cbn [bindO fst snd]. destruct (collect G M cells edges) as [st| | |]; cbn [bindO]; try (split; [reflexivity|discriminate]).
    apply B3; [assumption|lia].
Qed.
Lemma extract_h : forall l, Forall answerable l -> forall s h, search_idle s -> rested h -> exists k s' h' cs, search_idle s' /\ rested h' /\
  forall orc, follows orc (stick s) cs -> forall f, (k <= f)%nat -> forall acc,
    extract_paths_h G f cyclic_ints l s h acc = bindO (extract_paths G f orc spy_ints l s acc) (fun x => Ok (s', h', snd x)) /\
    forall s2 r, extract_paths G f orc spy_ints l s acc = Ok (s2, r) -> s2 = s'.
Proof.
  intros l H. induction H as [|e l (a & Ea & V & C) H IH]; intros s h HI HR.
  - exists 0%nat, s, h, []. split; [assumption|]. split; [assumption|]. intros orc _ f _ acc. cbn. split; [reflexivity|]. congruence.
  - destruct (query_h a (eto e) V s h HI HR C) as (k1 & s1 & h1 & cells & p & cs1 & A1 & A2 & A3 & A4 & A5 & _).
    destruct (IH s1 h1 A2 A3) as (k2 & s2 & h2 & cs2 & B1 & B2 & B3). exists (Nat.max k1 k2), s2, h2, (cs1 ++ cs2). split; [assumption|]. split; [assumption|].
    intros orc HF f Hf acc. apply follows_app in HF as [F1 F2]. rewrite <- A4 in F2. cbn [extract_paths_h extract_paths]. rewrite Ea. cbn [deref bindO].
    rewrite (proj1 (A1 f ltac:(lia))), (A5 orc F1 f ltac:(lia)). cbn [bindO fst snd]. destruct (fold_left _ cells (Ok acc)) as [acc'| | |]; cbn [bindO]; try (split; [reflexivity|discriminate]).
    apply B3; [assumption|lia].
Qed.
End Query.

Lemma spy_wfine : forall G, (forall u x w o, In (x, w, o) (nbrs G u) -> w <= max_weight) -> wfine spy_ints G.
Proof. intros G HW u x w o m t Hin Ht. apply spy_time. pose proof (HW u x w o Hin). unfold max_weight, window in *. lia. Qed.
Lemma heap_search : forall G s h a b, wf_graph G -> (forall u x w o, In (x, w, o) (nbrs G u) -> w <= max_weight) -> valid_query G a b -> search_idle s -> rested h -> connected G a b ->
  exists k s' h' cells p, (forall f, (k <= f)%nat -> path_from_middle_h G f cyclic_ints s h a b = Ok (s', h', cells) /\ path_from_source_h G f cyclic_ints s h a b = Ok (s', h', p)) /\
  search_idle s' /\ rested h' /\ leads G a p b /\ Forall (is_cell G) cells /\ Permutation (edges_at G cells) (edges_at G p) /\ forall w o, path G a b w o -> weight_of (edges_at G cells) <= w.
Proof.
  intros G s h a b WF HW V HI HR C. destruct (query_h G WF (spy_wfine G HW) a b V s h HI HR C) as (k & s' & h' & cells & p & cs & A1 & A2 & A3 & _ & _ & A6). exists k, s', h', cells, p. tauto.
Qed.
