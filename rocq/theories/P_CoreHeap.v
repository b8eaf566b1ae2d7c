(** The comparison of cyclic times and the reduction of times modulo 2^32 do no harm, part 2: a whole decode on the
    radix heap.  Every run on the heap is a run of M_Core.v in which the oracle picks what the heap delivers. *)
From Coq Require Import ZArith NArith List Bool Arith Lia Permutation.
From Verif Require Import M_Base M_Cyclic M_RadixHeap S_RadixHeap P_RadixHeap M_Varying M_Tracker M_Core M_CoreHeap S_Core S_Session S_Tree S_Decode
  P_Up P_Tree P_Tree2 P_CoreGeo P_CoreSched P_CoreArea P_CoreRad P_CoreQueue P_CoreFlood P_CoreStep P_CoreRoles P_CoreShat P_CoreHit P_CoreHit2 P_CoreSelf2 P_CoreBreak
  P_Ends P_CoreHalt P_CoreCount P_CoreRun P_CoreEvent P_CoreAdd P_CoreDecode P_CoreSim.
Import ListNotations.
Local Open Scope Z_scope.

Notation pqs n l := (S_RadixHeap.mkPQ n l).
Definition Holds (h : heap) (n : Z) (l : list (Z * item)) : Prop := Rep 32 item h (pqs n l).
Record link (s : state) (h : heap) : Prop := {
  lk_good : good s;
  lk_rep : exists new known, que (sc s) = new ++ known /\ Holds h (M_Core.now (sc s)) known }.

Lemma Holds_perm : forall h n l l', Permutation l l' -> Holds h n l -> Holds h n l'.
Proof.
  intros h n l l' P (H1 & A & H2 & H3 & H4 & H5). split; [exact H1|]. exists A. split; [exact H2|]. split; [exact H3|]. cbn [S_RadixHeap.pending] in *. split.
  - rewrite <- P. exact H4.
  - rewrite <- (Permutation_length P). exact H5.
Qed.
Lemma link_step : forall s s' h, link s h -> step s s' -> link s' h.
Proof.
  intros s s' h [H1 (new & known & H2 & H3)] [_ S2 [n2 S3] S4]. split; [auto|]. exists (n2 ++ new), known. split; [rewrite S3, H2; apply app_assoc|]. now rewrite S2.
Qed.
Lemma remove_first_perm : forall t i q, In (t, i) q -> Permutation q ((t, i) :: remove_first t i q).
Proof.
  induction q as [|[t' i'] q IH]; intros H; [destruct H|]. cbn [remove_first]. destruct ((t =? t') && item_eqb i i') eqn:E.
  - apply andb_true_iff in E as [E1 E2]. apply Z.eqb_eq in E1. apply item_eqb_spec in E2. subst. reflexivity.
  - destruct H as [H|H].
    + injection H as -> ->. rewrite Z.eqb_refl in E. assert (X : item_eqb i i = true) by now apply item_eqb_spec. rewrite X in E. discriminate.
    + rewrite (IH H) at 1. apply perm_swap.
Qed.

(** ** The queue *)
Lemma push_list : forall l h n known, Holds h n known -> (forall t i, In (t, i) l -> n <= t < n + window) ->
  exists h', fold_left (fun o x => bindO o (fun h => push_one h x)) (rev l) (Ok h) = Ok h' /\ Holds h' n (l ++ known).
Proof.
  induction l as [|[t i] l IH]; intros h n known H W; [exists h; now split|]. destruct (IH h n known H) as (h1 & E1 & H1); [intros; apply (W _ i0); now right|].
  cbn [rev]. rewrite fold_left_app, E1. cbn [fold_left bindO]. destruct (rep_enqueue 32 ltac:(lia) item h1 (pqs n (l ++ known)) t i H1) as (h2 & E2 & H2).
  - apply (W t i). now left.
  - exists h2. split; [exact E2|]. exact H2.
Qed.
Lemma push_new_spec : forall s h, link s h -> punctual s -> exists h', push_new h s = Ok h' /\ Holds h' (M_Core.now (sc s)) (que (sc s)).
Proof.
  intros s h [Hg (new & known & E & H)] HP. unfold push_new, push_pending. assert (En : num_enqueued h = Z.of_nat (length known)) by (destruct H as (_ & A & _ & _ & _ & H); exact H).
  rewrite En, Nat2Z.id, E, app_length. replace (length new + length known - length known)%nat with (length new) by lia. rewrite firstn_app, Nat.sub_diag, firstn_all. cbn [firstn]. rewrite app_nil_r.
  apply push_list; [exact H|]. intros t i Hi. assert (Hq : In (t, i) (que (sc s))) by (rewrite E; apply in_or_app; now left). split; [exact (HP t i Hq)|exact (gd_up _ Hg t i Hq)].
Qed.
Lemma pick : forall s t i, In (t, i) (que (sc s)) -> (forall t' i', In (t', i') (que (sc s)) -> t <= t') ->
  exists c, forall orc, orc (tick (sc s)) = c -> M_Core.dequeue orc s = Some (t, i, set_sc s (M_Core.mkQ (ntr (sc s)) (rtr (sc s)) (remove_first t i (que (sc s))) t (S (tick (sc s))))).
Proof.
  intros s t i Hi Hm. unfold M_Core.dequeue. destruct (que (sc s)) as [|[t0 i0] q'] eqn:E; [destruct Hi|]. destruct (min_time_spec q' t0) as (H1 & H2 & H3).
  assert (Em : min_time t0 q' = t).
  { assert (min_time t0 q' <= t) by (destruct Hi as [Hi|Hi]; [injection Hi as -> ->; exact H1|eauto]).
    assert (t <= min_time t0 q') by (destruct H3 as [->|[j H3]]; [apply (Hm t0 i0); now left|apply (Hm _ j); now right]). lia. }
  rewrite Em. set (cands := filter _ _). assert (Hc : In (t, i) cands) by (apply filter_In; split; [exact Hi|apply Z.eqb_refl]).
  destruct (In_nth_error _ _ Hc) as (c & Ec). exists c. intros orc ->. assert (c < length cands)%nat by (apply nth_error_Some; congruence). rewrite Nat.mod_small by lia. rewrite Ec. reflexivity.
Qed.
Lemma heap_dequeue_spec : forall s h, link s h -> punctual s ->
  (que (sc s) = [] /\ exists h', heap_dequeue s h = Ok (None, s, h') /\ link s h') \/
  exists t i h', let s1 := set_sc s (M_Core.mkQ (ntr (sc s)) (rtr (sc s)) (remove_first t i (que (sc s))) t (S (tick (sc s)))) in
    heap_dequeue s h = Ok (Some (mkEv (wrap 32 t) i), s1, h') /\ In (t, i) (que (sc s)) /\ (forall t' i', In (t', i') (que (sc s)) -> t <= t') /\
    Holds h' t (que (sc s1)).
Proof.
  intros s h HL HP. destruct (push_new_spec s h HL HP) as (h1 & E1 & H1). unfold heap_dequeue. rewrite E1. cbn [bindO].
  pose proof (rep_dequeue 32 ltac:(lia) item h1 _ H1) as D. cbn [S_RadixHeap.pending] in D. destruct (que (sc s)) as [|e q] eqn:Eq.
  - left. split; [reflexivity|]. rewrite D. cbn [bindO]. exists h1. split; [reflexivity|]. split; [apply HL|]. exists [], []. split; [exact Eq|exact H1].
  - right. destruct D as (h2 & t & i & rest & D1 & D2 & D3 & D4). rewrite D1. cbn [bindO ev_data]. assert (Et : cur_time h2 = t) by apply D4. rewrite Et.
    assert (Hi : In (t, i) (e :: q)) by (eapply Permutation_in; [symmetry; exact D2|]; now left).
    exists t, i, h2. cbv zeta. split; [reflexivity|]. split; [exact Hi|]. split; [exact D3|]. cbn [sc set_sc que].
    apply (Holds_perm h2 t rest); [|exact D4]. apply (Permutation_cons_inv (a := (t, i))). rewrite <- D2. now apply remove_first_perm.
Qed.

(** 32-bit comparisons and comparisons of the times they stand for. *)
Lemma wrap_eqb : forall n a b, n <= a < n + window -> n <= b < n + window -> (wrap 32 a =? wrap 32 b) = (a =? b).
Proof.
  intros n a b Ha Hb. unfold window, wrap in *. change (2 ^ 32) with 4294967296. destruct (Z.eqb_spec a b) as [->|Hne]; [apply Z.eqb_refl|]. apply Z.eqb_neq. intros E. apply Hne.
  assert (X : (a - b) mod 4294967296 = 0) by (rewrite Zminus_mod, E, Z.sub_diag; reflexivity). apply Z.mod_divide in X; [|lia]. destruct X as [k X]. assert (k = 0) by lia. lia.
Qed.
Lemma decision_same : forall n x t, n <= t < n + window -> (has_queued x = true -> n <= queued_time x < n + window) ->
  (has_queued x = true -> has_desired x = true -> n <= desired_time x < n + window) -> decision_h x (wrap 32 t) = dequeue_decision x t.
Proof.
  intros n x t Ht H1 H2. unfold decision_h, dequeue_decision. destruct (has_queued x) eqn:E; [|reflexivity]. cbn [negb orb]. rewrite (wrap_eqb n t _ Ht (H1 eq_refl)).
  destruct (t =? queued_time x); [|reflexivity]. cbn [negb orb]. destruct (has_desired x) eqn:E2; [|reflexivity]. cbn [negb orb]. rewrite (wrap_eqb n t _ Ht (H2 eq_refl eq_refl)). reflexivity.
Qed.
Section Deq.
Variables (s : state) (h' : heap) (t : Z) (i : item).
Hypothesis HG : good s.
Hypothesis HP : punctual s.
Hypothesis Hin : In (t, i) (que (sc s)).
Hypothesis Hmin : forall t' i', In (t', i') (que (sc s)) -> t <= t'.
Let s1 := set_sc s (M_Core.mkQ (ntr (sc s)) (rtr (sc s)) (remove_first t i (que (sc s))) t (S (tick (sc s)))).
Lemma decide_same : decide_h s1 (mkEv (wrap 32 t) i) = decide s1 t i.
Proof.
  assert (Ht : M_Core.now (sc s) <= t < M_Core.now (sc s) + window) by (split; [exact (HP t i Hin)|exact (gd_up _ HG t i Hin)]).
  destruct i as [v|r]; cbn [decide_h decide ev_data ev_time]; cbn [s1 sc set_sc ntr rtr].
  - rewrite (decision_same (M_Core.now (sc s)) (ntr (sc s) v) t Ht); [reflexivity| |].
    + intros Hq. pose proof (gd_n _ HG v Hq) as Hi. split; [exact (HP _ _ Hi)|exact (gd_up _ HG _ _ Hi)].
    + intros Hq Hd. pose proof (HP _ _ (gd_n _ HG v Hq)). pose proof (gd_dn _ HG v Hq Hd). lia.
  - rewrite (decision_same (M_Core.now (sc s)) (rtr (sc s) r) t Ht); [reflexivity| |].
    + intros Hq. pose proof (gd_r _ HG r Hq) as Hi. split; [exact (HP _ _ Hi)|exact (gd_up _ HG _ _ Hi)].
    + intros Hq Hd. pose proof (HP _ _ (gd_r _ HG r Hq)). pose proof (gd_dr _ HG r Hq Hd). lia.
Qed.
Lemma decision_cases : forall x, match dequeue_decision x t with (_, x', new) =>
  (new = [] /\ (has_queued x' = true -> x' = x /\ queued_time x <> t)) \/
  (new = [desired_time x] /\ x' = M_Tracker.mkT (desired_time x) (desired_time x) true true /\ has_queued x = true /\ has_desired x = true) end.
Proof.
  intros x. unfold dequeue_decision. destruct (has_queued x) eqn:E1; [|left; split; [reflexivity|]; rewrite E1; discriminate]. cbn [negb orb].
  destruct (Z.eqb_spec t (queued_time x)) as [E2|E2]; cbn [negb]; [|left; split; [reflexivity|]; intros _; split; [reflexivity|congruence]].
  destruct (has_desired x) eqn:E3; cbn [negb]; [|left; split; [reflexivity|discriminate]].
  destruct (t =? desired_time x); cbn [negb]; [left; split; [reflexivity|discriminate]|]. right. auto.
Qed.
Lemma decide_good : good (snd (decide s1 t i)) /\ tick (sc (snd (decide s1 t i))) = S (tick (sc s)) /\ M_Core.now (sc (snd (decide s1 t i))) = t /\
  exists new, que (sc (snd (decide s1 t i))) = new ++ que (sc s1).
Proof.
  assert (Hn : M_Core.now (sc s) <= t) by exact (HP t i Hin). pose proof HG as [A1 A2 A3 A4 A5].
  assert (R : forall e, In e (remove_first t i (que (sc s))) -> In e (que (sc s))) by (intros; eapply remove_first_In; eassumption).
  assert (K : forall t' i', In (t', i') (que (sc s)) -> (t', i') <> (t, i) -> In (t', i') (remove_first t i (que (sc s)))) by (intros; now apply remove_first_other).
  destruct i as [v|r] eqn:Ei; cbn [decide]; cbn [s1 sc set_sc ntr rtr].
  - pose proof (decision_cases (ntr (sc s) v)) as D. destruct (dequeue_decision (ntr (sc s) v) t) as [[k x'] new]. cbn [snd].
    destruct D as [[-> D]|(-> & -> & D1 & D2)]; cbn [fold_left M_Core.enqueue sc set_sc set_que set_ntr que tick M_Core.now]; (split; [|split; [reflexivity|split; [reflexivity|]]]);
      [|exists []; reflexivity| |eexists [_]; reflexivity]; (split; cbn [M_Core.enqueue sc set_sc set_que set_ntr ntr rtr que M_Core.now]).
    + intros u. unfold upd. destruct (Nat.eqb_spec u v) as [->|Hu]; intros Hq.
      * destruct (D Hq) as [-> Hne]. apply K; [now apply A1|congruence].
      * apply K; [now apply A1|congruence].
    + intros r Hq. apply K; [now apply A2|discriminate].
    + intros t' i' Hi. pose proof (A3 t' i' (R _ Hi)). lia.
    + intros u. unfold upd. destruct (Nat.eqb_spec u v) as [->|Hu]; intros Hq Hd; [destruct (D Hq) as [-> _]; pose proof (A4 v Hq Hd); lia|pose proof (A4 u Hq Hd); lia].
    + intros r Hq Hd. pose proof (A5 r Hq Hd). lia.
    + intros u. unfold upd. destruct (Nat.eqb_spec u v) as [->|Hu]; intros Hq; [now left|right; apply K; [now apply A1|congruence]].
    + intros r Hq. right. apply K; [now apply A2|discriminate].
    + pose proof (A4 v D1 D2). intros t' i' [Hi|Hi]; [injection Hi as <- <-; lia|pose proof (A3 t' i' (R _ Hi)); lia].
    + intros u. unfold upd. destruct (Nat.eqb_spec u v) as [->|Hu]; intros Hq Hd; [cbn [queued_time desired_time]; pose proof (A4 v D1 D2); lia|pose proof (A4 u Hq Hd); lia].
    + intros r Hq Hd. pose proof (A5 r Hq Hd). lia.
  - pose proof (decision_cases (rtr (sc s) r)) as D. destruct (dequeue_decision (rtr (sc s) r) t) as [[k x'] new]. cbn [snd].
    destruct D as [[-> D]|(-> & -> & D1 & D2)]; cbn [fold_left M_Core.enqueue sc set_sc set_que set_rtr que tick M_Core.now]; (split; [|split; [reflexivity|split; [reflexivity|]]]);
      [|exists []; reflexivity| |eexists [_]; reflexivity]; (split; cbn [M_Core.enqueue sc set_sc set_que set_rtr ntr rtr que M_Core.now]).
    + intros u Hq. apply K; [now apply A1|discriminate].
    + intros u. unfold upd. destruct (Nat.eqb_spec u r) as [->|Hu]; intros Hq.
      * destruct (D Hq) as [-> Hne]. apply K; [now apply A2|congruence].
      * apply K; [now apply A2|congruence].
    + intros t' i' Hi. pose proof (A3 t' i' (R _ Hi)). lia.
    + intros u Hq Hd. pose proof (A4 u Hq Hd). lia.
    + intros u. unfold upd. destruct (Nat.eqb_spec u r) as [->|Hu]; intros Hq Hd; [destruct (D Hq) as [-> _]; pose proof (A5 r Hq Hd); lia|pose proof (A5 u Hq Hd); lia].
    + intros u Hq. right. apply K; [now apply A1|discriminate].
    + intros u. unfold upd. destruct (Nat.eqb_spec u r) as [->|Hu]; intros Hq; [now left|right; apply K; [now apply A2|congruence]].
    + pose proof (A5 r D1 D2). intros t' i' [Hi|Hi]; [injection Hi as <- <-; lia|pose proof (A3 t' i' (R _ Hi)); lia].
    + intros u Hq Hd. pose proof (A4 u Hq Hd). lia.
    + intros u. unfold upd. destruct (Nat.eqb_spec u r) as [->|Hu]; intros Hq Hd; [cbn [queued_time desired_time]; pose proof (A5 r D1 D2); lia|pose proof (A5 u Hq Hd); lia].
Qed.
End Deq.

(** [cs] are the choices of an oracle, from tick [n] on. *)
Definition follows (orc : nat -> nat) (n : nat) (cs : list nat) : Prop := forall j c, nth_error cs j = Some c -> orc (n + j)%nat = c.
Lemma follows_app : forall orc n a b, follows orc n (a ++ b) -> follows orc n a /\ follows orc (n + length a) b.
Proof.
  intros orc n a b H. split; intros j c Hj.
  - apply H. rewrite nth_error_app1; [assumption|]. apply nth_error_Some. congruence.
  - rewrite <- Nat.add_assoc. apply H. rewrite nth_error_app2 by lia. replace (length a + j - length a)%nat with j by lia. assumption.
Qed.
Lemma follows_some : forall n cs, exists orc, follows orc n cs.
Proof. intros n cs. exists (fun m => nth (m - n) cs 0%nat). intros j c H. replace (n + j - n)%nat with j by lia. now apply nth_error_nth. Qed.

Section Loops.
Variable G : graph.
Hypothesis WF : wf_graph G.
Variable ev : list nat.
Context {FI : fine spy_ints G ev}.

Lemma sched_punctual : forall ls X Y s, sched G ls X Y s -> punctual s.
Proof. intros ls X Y s H t i Hi. exact (q_time _ _ _ _ _ H t i Hi). Qed.
Lemma event_punctual : forall s ls ch al e, event_ok G ev s ls ch al e -> punctual s.
Proof.
  intros s ls ch al [|r1 r2 e|r e|b x y] H; cbn [event_ok] in H.
  - eapply sched_punctual, H.
  - destruct H as [_ [H|(a & p & i & _ & _ & _ & _ & _ & H)]]; eapply sched_punctual, H.
  - eapply sched_punctual, H.
  - destruct H as (_ & _ & _ & _ & _ & _ & H & _). eapply sched_punctual, H.
Qed.

Lemma run_h : forall ls ch al c s h, Geo G ev s ls ch -> Roles G ev s ls ch al c nobody nobody -> sched G ls nobody nobody s -> link s h ->
  forall d, exists K s' h' e cs, (forall f, (K <= f)%nat -> run_until_event_h G f cyclic_ints (f - d) s h = Ok (s', h', e)) /\ link s' h' /\
    tick (sc s') = (tick (sc s) + length cs)%nat /\
    forall orc, follows orc (tick (sc s)) cs -> forall f, (K <= f)%nat -> run_until_event G f orc spy_ints (f - d) s = Ok (s', e).
Proof.
  intros ls ch al c s. induction (less_wf G ls s) as [s _ IH]. intros h HGeo HRo HQ HL d.
  pose proof (sched_punctual _ _ _ _ HQ) as HP. destruct (heap_dequeue_spec s h HL HP) as [(E & h' & E1 & L1)|(t & i & h' & E1 & Hi & Hm & HH)].
  - exists (S d), s, h', NoEvent, []. split; [|split; [assumption|split; [cbn [length]; lia|]]].
    + intros f Hf. destruct (f - d)%nat as [|k] eqn:Ek; [lia|]. cbn [run_until_event_h]. rewrite E1. reflexivity.
    + intros orc _ f Hf. destruct (f - d)%nat as [|k] eqn:Ek; [lia|]. cbn [run_until_event]. pose proof (dequeue_spec orc s) as D. destruct (M_Core.dequeue orc s) as [[[t i] s1]|]; [|reflexivity].
      rewrite E in D. destruct D as [[] _].
  - destruct (pick s t i Hi Hm) as (c0 & Hc0). set (s1 := set_sc s _) in *. cbv zeta in E1.
    pose proof (decide_same s t i (lk_good _ _ HL) HP Hi) as DS. fold s1 in DS.
    destruct (decide_good s t i (lk_good _ _ HL) HP Hi) as (DG1 & DG2 & DG3 & DG4). fold s1 in DG1, DG2, DG3, DG4.
    destruct (decide s1 t i) as [keep s2] eqn:ED. cbn [snd] in *.
    assert (L2 : link s2 h') by (split; [assumption|]; destruct DG4 as [new DG4]; exists new, (que (sc s1)); split; [assumption|]; rewrite DG3; exact HH).
    destruct (run_step G WF (NI := spy_ints) ev (FI := FI) ls ch al c (fun _ => c0) s HGeo HRo HQ t i s1 keep s2 (Hc0 _ eq_refl) ED) as (HGeo2 & HRo2 & RS).
    assert (TK : forall cs, (tick (sc s2) + length cs = tick (sc s) + length (c0 :: cs))%nat) by (intros cs; rewrite DG2; cbn [length]; lia).
    assert (FO : forall orc cs, follows orc (tick (sc s)) (c0 :: cs) -> M_Core.dequeue orc s = Some (t, i, s1) /\ follows orc (tick (sc s2)) cs).
    { intros orc cs HF. apply (follows_app orc _ [c0] cs) in HF as [F1 F2]. split; [apply Hc0; specialize (F1 0%nat c0 eq_refl); now rewrite Nat.add_0_r in F1|].
      rewrite DG2. cbn [length] in F2. now rewrite Nat.add_1_r in F2. }
    destruct keep.
    + destruct RS as [(K1 & v & Hv & RS1) RS2]. pose proof (RS2 K1) as SF. rewrite (RS1 K1 (le_n K1)) in SF. destruct v as [[s3 e]| | |]; cbn [safe] in SF; try contradiction; try congruence.
      cbn [fst snd] in SF. destruct SF as (HGeo3 & HRo3 & SF).
      assert (SM : forall f, (K1 <= f)%nat -> process_tentative G f cyclic_ints s2 i = Ok (s3, e) /\ step s2 s3).
      { intros f Hf. pose proof (process_tentative_sim G f s2 i) as PS. rewrite (RS1 f Hf) in PS. cbn [sim fst] in PS. destruct PS as [PS1 PS2]. split; [|assumption]. apply PS2; [assumption|].
        destruct e; [eapply sched_punctual, SF|eapply event_punctual, SF..]. }
      pose proof (proj2 (SM K1 (le_n K1))) as ST. pose proof (link_step _ _ _ L2 ST) as L3.
      assert (GO : e <> NoEvent -> exists K s' h'' e' cs, (forall f, (K <= f)%nat -> run_until_event_h G f cyclic_ints (f - d) s h = Ok (s', h'', e')) /\ link s' h'' /\
        tick (sc s') = (tick (sc s) + length cs)%nat /\ forall orc, follows orc (tick (sc s)) cs -> forall f, (K <= f)%nat -> run_until_event G f orc spy_ints (f - d) s = Ok (s', e')).
      { intros Hne. exists (Nat.max K1 (S d)), s3, h', e, [c0]. split; [|split; [assumption|split; [rewrite (st_tick _ _ ST), <- (TK []); cbn [length]; lia|]]].
        - intros f Hf. destruct (f - d)%nat as [|k] eqn:Ek; [lia|]. cbn [run_until_event_h]. rewrite E1. cbn [bindO]. rewrite DS. cbn [ev_data]. rewrite (proj1 (SM f ltac:(lia))). cbn [bindO fst snd]. destruct e; congruence.
        - intros orc HF f Hf. destruct (f - d)%nat as [|k] eqn:Ek; [lia|]. cbn [run_until_event]. rewrite (proj1 (FO orc _ HF)), ED. rewrite (RS1 f ltac:(lia)). cbn [bindO fst snd]. destruct e; congruence. }
      destruct e; [|apply GO; discriminate..]. clear GO.
      destruct (IH s3 (proj2 SF) h' HGeo3 HRo3 (proj1 SF) L3 (S d)) as (K & s' & h'' & e & cs & R1 & R2 & R3 & R4).
      exists (Nat.max K (Nat.max K1 (S d))), s', h'', e, (c0 :: cs). split; [|split; [assumption|split; [rewrite R3, (st_tick _ _ ST); apply TK|]]].
      * intros f Hf. destruct (f - d)%nat as [|k] eqn:Ek; [lia|]. cbn [run_until_event_h]. rewrite E1. cbn [bindO]. rewrite DS. cbn [ev_data]. rewrite (proj1 (SM f ltac:(lia))). cbn [bindO fst snd].
        replace k with (f - S d)%nat by lia. apply R1. lia.
      * intros orc HF f Hf. destruct (FO orc _ HF) as [F1 F2]. destruct (f - d)%nat as [|k] eqn:Ek; [lia|]. cbn [run_until_event]. rewrite F1, ED. rewrite (RS1 f ltac:(lia)). cbn [bindO fst snd].
        replace k with (f - S d)%nat by lia. apply R4; [now rewrite (st_tick _ _ ST)|lia].
    + destruct (IH s2 (proj2 RS) h' HGeo2 HRo2 (proj1 RS) L2 (S d)) as (K & s' & h'' & e & cs & R1 & R2 & R3 & R4).
      exists (Nat.max K (S d)), s', h'', e, (c0 :: cs). split; [|split; [assumption|split; [rewrite R3; apply TK|]]].
      * intros f Hf. destruct (f - d)%nat as [|k] eqn:Ek; [lia|]. cbn [run_until_event_h]. rewrite E1. cbn [bindO]. rewrite DS. replace k with (f - S d)%nat by lia. apply R1. lia.
      * intros orc HF f Hf. destruct (FO orc _ HF) as [F1 F2]. destruct (f - d)%nat as [|k] eqn:Ek; [lia|]. cbn [run_until_event]. rewrite F1, ED. replace k with (f - S d)%nat by lia. apply R4; [assumption|lia].
Qed.

Lemma Inv_punctual : forall s, Inv G ev s -> punctual s.
Proof. intros s (ls & ch & al & c & _ & _ & H & _). eapply sched_punctual, H. Qed.

Lemma main_h : forall s h, Inv G ev s -> link s h ->
  forall d, exists K s' h' cs, (forall f, (K <= f)%nat -> main_loop_h G f cyclic_ints (f - d) s h = Ok (s', h')) /\ link s' h' /\
    tick (sc s') = (tick (sc s) + length cs)%nat /\
    forall orc, follows orc (tick (sc s)) cs -> forall f, (K <= f)%nat -> main_loop G f orc spy_ints (f - d) s = Ok s'.
Proof.
  intros s. induction (prog_wf ev s) as [s _ IH]. intros h (ls & ch & al & c & AO & HGeo & HQ & H) HL d.
  destruct (run_h ls ch al c s h HGeo H HQ HL 0) as (K1 & s1 & h1 & e & cs1 & R1 & R2 & R3 & R4).
  assert (R1' : forall f, (K1 <= f)%nat -> run_until_event_h G f cyclic_ints f s h = Ok (s1, h1, e)) by (intros f Hf; rewrite <- (R1 f Hf); now rewrite Nat.sub_0_r).
  assert (R4' : forall orc, follows orc (tick (sc s)) cs1 -> forall f, (K1 <= f)%nat -> run_until_event G f orc spy_ints f s = Ok (s1, e)) by (intros orc HF f Hf; rewrite <- (R4 orc HF f Hf); now rewrite Nat.sub_0_r).
  destruct (follows_some (tick (sc s)) cs1) as (orc0 & F0).
  pose proof (run_until_event_spec G WF (NI := spy_ints) ev (FI := FI) ls ch al c K1 orc0 K1 s HGeo H HQ) as RS. rewrite (R4' orc0 F0 K1 (le_n K1)) in RS. cbn [safe fst snd] in RS. destruct RS as (KP & G1 & H1 & HE).
  assert (AO1 : arena_ok (ra s1) ls) by now rewrite (k_ra _ _ _ KP). destruct (kept_count G ev s s1 ls ch HGeo G1 KP) as (N1 & N2 & N3).
  assert (GO : e <> NoEvent -> exists K s' h' cs, (forall f, (K <= f)%nat -> main_loop_h G f cyclic_ints (f - d) s h = Ok (s', h')) /\ link s' h' /\
    tick (sc s') = (tick (sc s) + length cs)%nat /\ forall orc, follows orc (tick (sc s)) cs -> forall f, (K <= f)%nat -> main_loop G f orc spy_ints (f - d) s = Ok s').
  { intros Hne. destruct (process_event_spec G WF ev (NI := spy_ints) (FI := FI) s1 ls ch al c e G1 AO1 H1 HE Hne) as [(K2 & v & Hv & P1) P2]. pose proof (P2 K2) as SF. rewrite (P1 K2 (le_n K2)) in SF.
    destruct v as [s2| | |]; cbn [safe] in SF; try contradiction; try congruence. destruct SF as (_ & Pg & I2).
    assert (SM : forall f, (K2 <= f)%nat -> process_event G f cyclic_ints s1 e = Ok s2 /\ step s1 s2).
    { intros f Hf. pose proof (process_event_sim G f s1 e) as PS. rewrite (P1 f Hf) in PS. cbn [sim] in PS. destruct PS as [PS1 PS2]. split; [|assumption]. apply PS2; [apply R2|now apply Inv_punctual]. }
    pose proof (proj2 (SM K2 (le_n K2))) as ST. assert (PG : prog ev s s2) by (unfold prog in *; rewrite N1, N2, N3 in Pg; exact Pg).
    destruct (IH s2 PG h1 I2 (link_step _ _ _ R2 ST) (S d)) as (K3 & s' & h' & cs2 & M1 & M2 & M3 & M4).
    exists (Nat.max (Nat.max K1 K2) (Nat.max K3 (S d))), s', h', (cs1 ++ cs2). split; [|split; [assumption|split; [rewrite M3, (st_tick _ _ ST), R3, app_length; lia|]]].
    - intros f Hf. destruct (f - d)%nat as [|k] eqn:Ek; [lia|]. cbn [main_loop_h]. rewrite R1' by lia. cbn [bindO fst snd]. replace k with (f - S d)%nat by lia.
      destruct e; [congruence|..]; rewrite (proj1 (SM f ltac:(lia))); cbn [bindO]; apply M1; lia.
    - intros orc HF f Hf. apply follows_app in HF as [F1 F2]. destruct (f - d)%nat as [|k] eqn:Ek; [lia|]. cbn [main_loop]. rewrite (R4' orc F1) by lia. cbn [bindO fst snd]. replace k with (f - S d)%nat by lia.
      assert (F3 : follows orc (tick (sc s2)) cs2) by (rewrite (st_tick _ _ ST), R3; assumption).
      destruct e; [congruence|..]; rewrite (P1 f) by lia; cbn [bindO]; apply (M4 orc F3); lia. }
  destruct e; [|apply GO; discriminate..]. exists (Nat.max K1 (S d)), s1, h1, cs1. split; [|split; [assumption|split; [assumption|]]].
  - intros f Hf. destruct (f - d)%nat as [|k] eqn:Ek; [lia|]. cbn [main_loop_h]. rewrite R1' by lia. reflexivity.
  - intros orc HF f Hf. destruct (f - d)%nat as [|k] eqn:Ek; [lia|]. cbn [main_loop]. rewrite (R4' orc HF) by lia. reflexivity.
Qed.
End Loops.
