(** Invariants of the decoder's core, part 5: taking an entry from the queue. *)
From Coq Require Import ZArith NArith List Bool Arith Lia.
From Verif Require Import M_Base M_Varying M_Tracker M_Core S_Core S_Tree P_Sum P_Up P_Tree P_CoreGeo P_CoreSched P_CoreArea P_CoreRad.
Import ListNotations.
Local Open Scope Z_scope.

Lemma item_eqb_spec : forall a b, item_eqb a b = true <-> a = b.
Proof.
  intros [a|a] [b|b]; simpl; split; intros H; try discriminate.
  - apply Nat.eqb_eq in H. now subst.
  - injection H as ->. apply Nat.eqb_refl.
  - apply Nat.eqb_eq in H. now subst.
  - injection H as ->. apply Nat.eqb_refl.
Qed.
Lemma remove_first_In : forall t i q e, In e (remove_first t i q) -> In e q.
Proof.
  induction q as [|[t' i'] q IH]; intros e H; [destruct H|]. cbn [remove_first] in H.
  destruct (_ && _); [now right|]. destruct H as [<-|H]; [now left|right; auto].
Qed.
Lemma remove_first_other : forall t i q e, In e q -> e <> (t, i) -> In e (remove_first t i q).
Proof.
  induction q as [|[t' i'] q IH]; intros e H Hne; [destruct H|]. cbn [remove_first].
  destruct ((t =? t') && item_eqb i i') eqn:E.
  - apply andb_true_iff in E as [E1 E2]. apply Z.eqb_eq in E1. apply item_eqb_spec in E2. subst.
    destruct H as [<-|H]; [congruence|assumption].
  - destruct H as [<-|H]; [now left|right; auto].
Qed.
Lemma min_time_spec : forall q m, min_time m q <= m /\ (forall t i, In (t, i) q -> min_time m q <= t) /\
  (min_time m q = m \/ exists i, In (min_time m q, i) q).
Proof.
  induction q as [|[t' i'] q IH]; intros m; cbn [min_time].
  - repeat split; [lia|intros ? ? []|now left].
  - destruct (IH (Z.min m t')) as (H1 & H2 & H3). split; [lia|]. split.
    + intros t i [E|Hi]; [injection E as <- <-; lia|eauto].
    + destruct H3 as [H3|[i H3]]; [|right; exists i; now right].
      destruct (Z.min_spec m t') as [[_ E]|[_ E]]; rewrite E in *; [now left|]. right. exists i'. left. now rewrite H3.
Qed.
Lemma dequeue_spec : forall orc s, match dequeue orc s with
  | None => que (sc s) = []
  | Some (t, i, s1) => In (t, i) (que (sc s)) /\ (forall t' i', In (t', i') (que (sc s)) -> t <= t') /\
      s1 = set_sc s (mkQ (ntr (sc s)) (rtr (sc s)) (remove_first t i (que (sc s))) t (S (tick (sc s))))
  end.
Proof.
  intros orc s. unfold dequeue. destruct (que (sc s)) as [|[t0 i0] q'] eqn:E; [reflexivity|].
  destruct (min_time_spec q' t0) as (H1 & H2 & H3). set (m := min_time t0 q') in *.
  set (cands := filter _ _). assert (Hc : cands <> []).
  { assert (exists e, In e cands).
    { destruct H3 as [H3|[i H3]].
      - exists (t0, i0). apply filter_In. split; [now left|]. simpl. apply Z.eqb_eq. lia.
      - exists (m, i). apply filter_In. split; [now right|]. simpl. apply Z.eqb_eq. lia. }
    destruct H as [e He]. intros Ec. rewrite Ec in He. destruct He. }
  destruct (nth_error cands _) as [[t i]|] eqn:En.
  - apply nth_error_In in En. apply filter_In in En as [En Et]. simpl in Et. apply Z.eqb_eq in Et. subst t.
    split; [assumption|]. split; [|reflexivity]. intros t' i' [F|F]; [injection F as <- <-; lia|eauto].
  - exfalso. apply nth_error_None in En. pose proof (Nat.mod_upper_bound (orc (tick (sc s))) (length cands)).
    destruct cands; [congruence|]. cbn [length] in *. lia.
Qed.

Section Queue.
Variable G : graph.
Hypothesis WF : wf_graph G.

(** Everything waited for is in the queue, so nothing happens before the first entry. *)
Lemma queue_first : forall ev s ls ch, Geo G ev s ls ch -> sched G ls nobody nobody s ->
  forall t i q, In (t, i) (que (sc s)) -> (forall t' i', In (t', i') (que (sc s)) -> t <= t') -> now q = t -> Geo G ev (set_sc s q) ls ch.
Proof.
  intros ev s ls ch HGeo HQ t i q Hi Hmin Hq. assert (Hle := q_time _ _ _ _ _ HQ t i Hi).
  apply (time_advance G WF ev s ls ch t HGeo Hle); auto.
  - intros u x w o T Hin Ha.
    assert (W : forall v, (v < length G)%nat -> wants s v T -> t <= T).
    { intros v Hv [W1 W2]. destruct (q_nd _ _ _ _ _ HQ v Hv W1) as [W3 W4]. pose proof (Hmin _ _ (q_nq _ _ _ _ _ HQ v Hv W3)). lia. }
    destruct (nbr_bound G WF _ _ _ _ Hin) as [Hu Hv].
    destruct (q_cov _ _ _ _ _ HQ u x w o T Hin Ha) as [W1|(v & E & W1)]; [intros []|intros ? ? []| |]; eauto.
  - intros r Hr Hb Hs. assert (Hd : has_desired (rtr (sc s) r) = true) by (apply (q_shr _ _ _ _ _ HQ); auto).
    destruct (q_des _ _ _ _ _ HQ r Hr Hd) as (_ & _ & <-). destruct (q_rd _ _ _ _ _ HQ r Hr Hd) as [D1 D2].
    pose proof (Hmin _ _ (q_rq _ _ _ _ _ HQ r Hr D1)). lia.
Qed.

Definition one (v : nat) : nat -> Prop := fun u => u = v.

Lemma decide_spec : forall ev s ls ch, Geo G ev s ls ch -> sched G ls nobody nobody s ->
  forall orc t i s1, dequeue orc s = Some (t, i, s1) ->
  let (keep, s2) := decide s1 t i in
  (exists q, s2 = set_sc s q /\ now q = t) /\ Geo G ev s2 ls ch /\
  if keep then
    match i with
    | INode v => (v < length G)%nat /\ nsl s2 v <> -1 /\ sched G ls (one v) nobody s2
    | IRegion r => In r ls /\ bpar (rg s) r = None /\ slp (rad (rg s) r) = -1 /\ shrink_time s2 r = t /\
        has_desired (rtr (sc s2) r) = false /\ sched G ls nobody (one r) s2
    end
  else sched G ls nobody nobody s2.
Proof.
  intros ev s ls ch HGeo HQ orc t i s1 E. pose proof (dequeue_spec orc s) as DS. rewrite E in DS. destruct DS as (Hi & Hmin & ->).
  pose proof (queue_first ev s ls ch HGeo HQ t i) as QF.
  assert (Old : forall e, In e (que (sc s)) -> e <> (t, i) -> In e (remove_first t i (que (sc s)))) by (intros; now apply remove_first_other).
  assert (New : forall e, In e (remove_first t i (que (sc s))) -> In e (que (sc s))) by (intros e; apply remove_first_In).
  destruct HQ as [h_nq h_nd h_rq h_rd h_time h_node h_live h_nsh h_des h_shr h_cov] eqn:EQ. clear EQ.
  destruct i as [v|r].
  - assert (Hv := h_node _ _ Hi). unfold decide. cbn [sc set_sc ntr]. unfold dequeue_decision.
    destruct (negb (has_queued (ntr (sc s) v)) || negb (t =? queued_time (ntr (sc s) v))) eqn:C1.
    { (* not ours *)
      cbn [fold_left]. split; [eexists; split; [reflexivity|reflexivity]|]. split; [apply (QF _ Hi Hmin); reflexivity|].
      split; cbn [sc set_sc set_ntr ntr rtr que now tick rg nd]; auto.
      - intros u Hu. unfold upd. destruct (Nat.eqb_spec u v) as [->|Hne].
        + intros Hq. apply Old; [now apply h_nq|]. intros Ee. injection Ee as Ee. rewrite Hq, Ee, Z.eqb_refl in C1. discriminate.
        + intros Hq. apply Old; [now apply h_nq|]. congruence.
      - intros u Hu. unfold upd. destruct (Nat.eqb_spec u v) as [->|Hne]; auto.
      - intros r Hr Hq. apply Old; [now apply h_rq|]. discriminate.
      - intros t' i' Hi'. eauto.
      - intros t' u Hi'. eauto.
      - intros t' r Hi'. eauto.
      - intros u Hu Hd. unfold upd. destruct (Nat.eqb_spec u v) as [->|Hne]; intros Hw; apply h_nsh; auto.
      - intros u x w o T Hin Ha Hu Hx. destruct (h_cov u x w o T Hin Ha Hu Hx) as [[W1 W2]|(z & Ez & [W1 W2])].
        + left. split; cbn [sc set_sc set_ntr ntr]; unfold upd; destruct (Nat.eqb_spec u v); subst; auto.
        + right. exists z. split; [assumption|]. split; cbn [sc set_sc set_ntr ntr]; unfold upd; destruct (Nat.eqb_spec z v); subst; auto. }
    apply orb_false_iff in C1 as [C1 C2]. apply negb_false_iff in C1, C2. apply Z.eqb_eq in C2.
    destruct (has_desired (ntr (sc s) v)) eqn:C3; cbn [negb].
    2:{ (* not wanted any more *)
      cbn [fold_left]. split; [eexists; split; [reflexivity|reflexivity]|]. split; [apply (QF _ Hi Hmin); reflexivity|].
      split; cbn [sc set_sc set_ntr ntr rtr que now tick rg nd]; auto.
      - intros u Hu. unfold upd. destruct (Nat.eqb_spec u v) as [->|Hne]; cbn [has_queued]; [discriminate|].
        intros Hq. apply Old; [now apply h_nq|]. congruence.
      - intros u Hu. unfold upd. destruct (Nat.eqb_spec u v) as [->|Hne]; cbn [has_desired]; [discriminate|auto].
      - intros r Hr Hq. apply Old; [now apply h_rq|]. discriminate.
      - intros t' i' Hi'. eauto.
      - intros t' u Hi'. eauto.
      - intros t' r Hi'. eauto.
      - intros u Hu Hd. unfold upd. destruct (Nat.eqb_spec u v) as [->|Hne]; cbn [has_desired]; [discriminate|]. intros Hw; apply h_nsh; auto.
      - intros u x w o T Hin Ha Hu Hx. destruct (h_cov u x w o T Hin Ha Hu Hx) as [[W1 W2]|(z & Ez & [W1 W2])].
        + left. split; cbn [sc set_sc set_ntr ntr]; rewrite upd_other; auto; congruence.
        + right. exists z. split; [assumption|]. split; cbn [sc set_sc set_ntr ntr]; rewrite upd_other; auto; congruence. }
    destruct (h_nd v Hv C3) as [_ Hqd].
    destruct (Z.eqb_spec t (desired_time (ntr (sc s) v))) as [C4|C4]; cbn [negb].
    + (* now *)
      cbn [fold_left]. split; [eexists; split; [reflexivity|reflexivity]|]. split; [apply (QF _ Hi Hmin); reflexivity|].
      split; [assumption|]. split; [apply (h_nsh v Hv (fun x => x) C3)|].
      split; cbn [sc set_sc set_ntr ntr rtr que now tick rg nd]; auto.
      * intros u Hu. unfold upd. destruct (Nat.eqb_spec u v) as [->|Hne]; cbn [has_queued]; [discriminate|].
        intros Hq. apply Old; [now apply h_nq|]. congruence.
      * intros u Hu. unfold upd. destruct (Nat.eqb_spec u v) as [->|Hne]; cbn [has_desired]; [discriminate|auto].
      * intros r Hr Hq. apply Old; [now apply h_rq|]. discriminate.
      * intros t' i' Hi'. eauto.
      * intros t' u Hi'. eauto.
      * intros t' r Hi'. eauto.
      * intros u Hu Hd. rewrite upd_other by exact Hd. intros Hw; apply h_nsh; auto.
      * intros u x w o T Hin Ha Hu Hx. destruct (h_cov u x w o T Hin Ha) as [[W1 W2]|(z & Ez & [W1 W2])]; [intros []|intros ? ? []| |].
        -- left. split; cbn [sc set_sc set_ntr ntr]; rewrite upd_other; auto.
        -- right. exists z. split; [assumption|]. specialize (Hx z Ez). split; cbn [sc set_sc set_ntr ntr]; rewrite upd_other; auto.
    + (* later *)
      cbn [fold_left]. unfold enqueue. split; [eexists; split; [reflexivity|reflexivity]|]. split; [apply (QF _ Hi Hmin); reflexivity|].
      split; cbn [sc set_sc set_ntr set_que ntr rtr que now tick rg nd]; auto.
      * intros u Hu. unfold upd. destruct (Nat.eqb_spec u v) as [->|Hne]; cbn [queued_time]; [now left|].
        intros Hq. right. apply Old; [now apply h_nq|]. congruence.
      * intros u Hu. unfold upd. destruct (Nat.eqb_spec u v) as [->|Hne]; cbn [has_desired has_queued queued_time desired_time]; [|auto]. intros _. split; [reflexivity|lia].
      * intros r Hr Hq. right. apply Old; [now apply h_rq|]. discriminate.
      * intros t' i' [Ee|Hi']; [injection Ee as <- <-; lia|eauto].
      * intros t' u [Ee|Hi']; [injection Ee as <- <-; assumption|eauto].
      * intros t' r [Ee|Hi']; [discriminate|eauto].
      * intros u Hu Hd. unfold upd. destruct (Nat.eqb_spec u v) as [->|Hne]; intros Hw; apply h_nsh; auto.
      * intros u x w o T Hin Ha Hu Hx. destruct (h_cov u x w o T Hin Ha Hu Hx) as [[W1 W2]|(z & Ez & [W1 W2])].
        -- left. split; cbn [sc set_sc set_ntr set_que ntr]; unfold upd; destruct (Nat.eqb_spec u v); subst; auto.
        -- right. exists z. split; [assumption|]. split; cbn [sc set_sc set_ntr set_que ntr]; unfold upd; destruct (Nat.eqb_spec z v); subst; auto.
  - unfold decide. cbn [sc set_sc rtr]. unfold dequeue_decision.
    destruct (negb (has_queued (rtr (sc s) r)) || negb (t =? queued_time (rtr (sc s) r))) eqn:C1.
    { cbn [fold_left]. split; [eexists; split; [reflexivity|reflexivity]|]. split; [apply (QF _ Hi Hmin); reflexivity|].
      split; cbn [sc set_sc set_rtr ntr rtr que now tick rg nd]; auto.
      - intros u Hu Hq. apply Old; [now apply h_nq|]. discriminate.
      - intros u Hu. unfold upd. destruct (Nat.eqb_spec u r) as [->|Hne].
        + intros Hq. apply Old; [now apply h_rq|]. intros Ee. injection Ee as Ee. rewrite Hq, Ee, Z.eqb_refl in C1. discriminate.
        + intros Hq. apply Old; [now apply h_rq|]. congruence.
      - intros u Hu. unfold upd. destruct (Nat.eqb_spec u r) as [->|Hne]; auto.
      - intros t' i' Hi'. eauto.
      - intros t' u Hi'. eauto.
      - intros t' u Hi'. unfold upd. destruct (Nat.eqb_spec u r) as [->|Hne]; eauto.
      - intros u Hu. unfold upd. destruct (Nat.eqb_spec u r) as [->|Hne]; apply (h_des _ Hu).
      - intros u Hu Hb Hs Hx. unfold upd. destruct (Nat.eqb_spec u r) as [->|Hne]; auto. }
    apply orb_false_iff in C1 as [C1 C2]. apply negb_false_iff in C1, C2. apply Z.eqb_eq in C2.
    destruct (has_desired (rtr (sc s) r)) eqn:C3; cbn [negb].
    2:{ cbn [fold_left]. split; [eexists; split; [reflexivity|reflexivity]|]. split; [apply (QF _ Hi Hmin); reflexivity|].
      split; cbn [sc set_sc set_rtr ntr rtr que now tick rg nd]; auto.
      - intros u Hu Hq. apply Old; [now apply h_nq|]. discriminate.
      - intros u Hu. unfold upd. destruct (Nat.eqb_spec u r) as [->|Hne]; cbn [has_queued]; [discriminate|].
        intros Hq. apply Old; [now apply h_rq|]. congruence.
      - intros u Hu. unfold upd. destruct (Nat.eqb_spec u r) as [->|Hne]; cbn [has_desired]; [discriminate|auto].
      - intros t' i' Hi'. eauto.
      - intros t' u Hi'. eauto.
      - intros t' u Hi'. unfold upd. destruct (Nat.eqb_spec u r) as [->|Hne]; cbn [has_desired]; [discriminate|eauto].
      - intros u Hu. unfold upd. destruct (Nat.eqb_spec u r) as [->|Hne]; cbn [has_desired]; [discriminate|]. apply (h_des _ Hu).
      - intros u Hu Hb Hs Hx. unfold upd. destruct (Nat.eqb_spec u r) as [->|Hne]; cbn [has_desired]; [|auto].
        exfalso. pose proof (h_shr r Hu Hb Hs Hx). congruence. }
    assert (Hr := h_live _ _ Hi C3). destruct (h_rd r Hr C3) as [_ Hqd]. destruct (h_des r Hr C3) as (Db & Ds & Dt).
    destruct (Z.eqb_spec t (desired_time (rtr (sc s) r))) as [C4|C4]; cbn [negb].
    + cbn [fold_left]. split; [eexists; split; [reflexivity|reflexivity]|]. split; [apply (QF _ Hi Hmin); reflexivity|].
      split; [assumption|]. split; [assumption|]. split; [assumption|]. split; [rewrite C4, Dt; reflexivity|].
      split; [cbn [sc set_sc set_rtr rtr]; rewrite upd_same; reflexivity|].
      split; cbn [sc set_sc set_rtr ntr rtr que now tick rg nd]; auto.
      * intros u Hu Hq. apply Old; [now apply h_nq|]. discriminate.
      * intros u Hu. unfold upd. destruct (Nat.eqb_spec u r) as [->|Hne]; cbn [has_queued]; [discriminate|].
        intros Hq. apply Old; [now apply h_rq|]. congruence.
      * intros u Hu. unfold upd. destruct (Nat.eqb_spec u r) as [->|Hne]; cbn [has_desired]; [discriminate|auto].
      * intros t' i' Hi'. eauto.
      * intros t' u Hi'. eauto.
      * intros t' u Hi'. unfold upd. destruct (Nat.eqb_spec u r) as [->|Hne]; cbn [has_desired]; [discriminate|eauto].
      * intros u Hu. unfold upd. destruct (Nat.eqb_spec u r) as [->|Hne]; cbn [has_desired]; [discriminate|]. apply (h_des _ Hu).
      * intros u Hu Hb Hs Hx. rewrite upd_other by exact Hx. apply h_shr; auto.
    + cbn [fold_left]. unfold enqueue. split; [eexists; split; [reflexivity|reflexivity]|]. split; [apply (QF _ Hi Hmin); reflexivity|].
      split; cbn [sc set_sc set_rtr set_que ntr rtr que now tick rg nd]; auto.
      * intros u Hu Hq. right. apply Old; [now apply h_nq|]. discriminate.
      * intros u Hu. unfold upd. destruct (Nat.eqb_spec u r) as [->|Hne]; cbn [queued_time]; [now left|].
        intros Hq. right. apply Old; [now apply h_rq|]. congruence.
      * intros u Hu. unfold upd. destruct (Nat.eqb_spec u r) as [->|Hne]; cbn [has_desired has_queued queued_time desired_time]; [|auto]. intros _. split; [reflexivity|lia].
      * intros t' i' [Ee|Hi']; [injection Ee as <- <-; lia|eauto].
      * intros t' u [Ee|Hi']; [discriminate|eauto].
      * intros t' u [Ee|Hi']; [injection Ee as <- <-; auto|]. unfold upd. destruct (Nat.eqb_spec u r) as [->|Hne]; eauto.
      * intros u Hu. unfold upd. destruct (Nat.eqb_spec u r) as [->|Hne]; cbn [desired_time]; [|apply (h_des _ Hu)]. intros _. apply (h_des _ Hu C3).
      * intros u Hu Hb Hs Hx. unfold upd. destruct (Nat.eqb_spec u r) as [->|Hne]; auto.
Qed.
End Queue.
