(** The shortest-path search, part 2: the loop ends, in a collision or with an empty queue. *)
From Coq Require Import ZArith NArith List Bool Arith Lia Permutation.
From Verif Require Import M_Base M_Tracker M_Core S_Core S_Reweight M_Search S_Search P_Reweight P_Flip P_CoreGeo P_CoreSched P_CoreQueue P_Search.
Import ListNotations.
Local Open Scope Z_scope.

Lemma remove_first_length : forall t i q, In (t, i) q -> S (length (remove_first t i q)) = length q.
Proof.
  induction q as [|[t' i'] q IH]; intros H; [destruct H|]. cbn [remove_first]. destruct ((t =? t') && item_eqb i i') eqn:E; [reflexivity|].
  cbn [length]. f_equal. apply IH. destruct H as [H|H]; [|assumption]. injection H as -> ->. rewrite Z.eqb_refl in E. destruct (item_eqb i i) eqn:F; [discriminate|].
  assert (item_eqb i i = true) by (now apply item_eqb_spec). congruence.
Qed.
Lemma sdequeue_spec : forall orc s, match sdequeue orc s with
  | None => sque s = []
  | Some (t, i, s1) => In (t, i) (sque s) /\ (forall t' i', In (t', i') (sque s) -> t <= t') /\
      s1 = mkSearch (sfrom s) (spre s) (sdist s) (strk s) (remove_first t i (sque s)) t (S (stick s)) (sreached s) (sbnd s)
  end.
Proof.
  intros orc s. unfold sdequeue. destruct (sque s) as [|[t0 i0] q'] eqn:E; [reflexivity|].
  destruct (min_time_spec q' t0) as (H1 & H2 & H3). set (m := min_time t0 q') in *.
  set (cands := filter _ _). assert (Hc : cands <> []).
  { assert (exists e, In e cands).
    { destruct H3 as [H3|[i H3]].
      - exists (t0, i0). apply filter_In. split; [now left|]. simpl. apply Z.eqb_eq. lia.
      - exists (m, i). apply filter_In. split; [now right|]. simpl. apply Z.eqb_eq. lia. }
    destruct H as [e He]. intros Ec. rewrite Ec in He. destruct He. }
  destruct (nth_error cands _) as [[t i]|] eqn:En.
  - apply nth_error_In in En. apply filter_In in En as [En Et]. simpl in Et. apply Z.eqb_eq in Et. subst t.
    split; [assumption|]. split; [|reflexivity]. intros t' i' [F|F]; [injection F as <- <-; lia|eauto].
  - exfalso. apply nth_error_None in En. pose proof (Nat.mod_upper_bound (orc (stick s)) (length cands)).
    destruct cands; [congruence|]. cbn [length] in *. lia.
Qed.

(** Counting nodes. *)
Definition cnt (n : nat) (f : nat -> bool) : nat := length (filter f (seq 0 n)).
Definition b2n (b : bool) : nat := if b then 1%nat else 0%nat.
Lemma filter_swap : forall (f g : nat -> bool) v l, NoDup l -> (forall y, y <> v -> f y = g y) ->
  (length (filter f l) + (if in_dec Nat.eq_dec v l then b2n (g v) else 0) = length (filter g l) + (if in_dec Nat.eq_dec v l then b2n (f v) else 0))%nat.
Proof.
  intros f g v l ND H. induction l as [|a l IH]; [simpl; lia|]. apply NoDup_cons_iff in ND as [N1 N2]. specialize (IH N2). cbn [filter].
  destruct (Nat.eq_dec a v) as [->|Hne].
  - destruct (in_dec Nat.eq_dec v (v :: l)) as [_|C]; [|elim C; now left]. destruct (in_dec Nat.eq_dec v l) as [C|_]; [contradiction|]. destruct (f v), (g v); simpl; lia.
  - rewrite (H a Hne). destruct (in_dec Nat.eq_dec v (a :: l)) as [C|C]; destruct (in_dec Nat.eq_dec v l) as [D|D].
    + destruct (g a); simpl; lia.
    + destruct C; [congruence|contradiction].
    + elim C. now right.
    + destruct (g a); simpl; lia.
Qed.
Lemma cnt_swap : forall n f g v, (v < n)%nat -> (forall y, y <> v -> f y = g y) -> (cnt n f + b2n (g v) = cnt n g + b2n (f v))%nat.
Proof.
  intros n f g v Hv H. pose proof (filter_swap f g v (seq 0 n) (seq_NoDup n 0) H) as E. unfold cnt. destruct (in_dec Nat.eq_dec v (seq 0 n)) as [_|C]; [exact E|]. elim C. apply in_seq. lia.
Qed.

Definition nobody : nat -> Prop := fun _ => False.

Section Search.
Variable G : graph.
Hypothesis WF : wf_graph G.
Variable orc : nat -> nat.
Variable A : ints.
Hypothesis AO : wfine A G.

Definition mism (x : tracker) : bool := has_queued x && has_desired x && negb (queued_time x =? desired_time x).
Definition inacc (b : option (nat * Z)) (x : tracker) : bool :=
  has_desired x && negb (match b with Some (_, t) => desired_time x =? t | None => false end).
(** Decreases with every queue entry handled that does not lead to a new node. *)
Definition mu (s : search) : nat := (length (sque s) + cnt (length G) (fun v => mism (strk s v)) + cnt (length G) (fun v => inacc (best G s v) (strk s v)))%nat.

Lemma roots_ext : forall R R' X s, (forall y, R y <-> R' y) -> sinv G R X s -> sinv G R' X s.
Proof.
  intros R R' X s H [I1 I2 I3 I4 I5 I6 I7 I8 I9 I10 I11 I12 I13 I14]. constructor; auto.
  - intros v r Hv. destruct (I1 v r Hv). split; [assumption|]. now apply H.
  - intros r Hr. apply I2. now apply H.
Qed.

(** The decision about a queue entry. *)
Lemma decision_spec : forall R s t i s1, sinv G R nobody s -> sdequeue orc s = Some (t, i, s1) -> exists v, i = INode v /\ sfrom s v <> None /\
  let '(keep, x, new) := dequeue_decision (strk s1 v) t in
  let s2 := fold_left (fun s t => set_sque s ((t, INode v) :: sque s)) new (set_strk s1 v x) in
  sfrom s2 = sfrom s /\ sdist s2 = sdist s /\ sbnd s2 = sbnd s /\ sreached s2 = sreached s /\ snow s2 = t /\
  if keep then sinv G R (eq v) s2 /\ has_queued (strk s2 v) = false /\ has_desired (strk s2 v) = false /\
      (mu s = mu s2 + 1 + b2n (negb (match best G s v with Some (_, t') => (t =? t')%Z | None => false end)))%nat
  else sinv G R nobody s2 /\ (mu s2 < mu s)%nat.
Proof.
  intros R s t i s1 HI Hd. pose proof (sdequeue_spec orc s) as D. rewrite Hd in D. destruct D as (D1 & D2 & D3).
  destruct (i_que _ _ _ _ HI _ _ D1) as (Hnow & v & -> & Hv). exists v. split; [reflexivity|]. split; [assumption|].
  assert (Hvn : (v < length G)%nat) by (destruct (sfrom s v) as [r|] eqn:E; [|congruence]; exact (proj1 (i_src _ _ _ _ HI v r E))).
  pose proof (remove_first_length _ _ _ D1) as Hlen. rewrite D3. cbn [strk].
  assert (Build : forall (Y : nat -> Prop) x q, (forall y, Y y -> y = v) ->
     (has_desired x = true -> has_queued x = true /\ queued_time x <= desired_time x) ->
     (has_queued x = true -> In (queued_time x, INode v) q) ->
     (forall e, In e (remove_first t (INode v) (sque s)) -> In e q) ->
     (forall t' i, In (t', i) q -> In (t', i) (sque s) \/ (t <= t' /\ i = INode v)) ->
     (forall t', has_desired (strk s v) = true -> desired_time (strk s v) <= t' -> (has_desired x = true /\ desired_time x <= t') \/ (Y v /\ t <= t')) ->
     sinv G R Y (mkSearch (sfrom s) (spre s) (sdist s) (upd (strk s) v x) q t (S (stick s)) (sreached s) (sbnd s))).
  { intros Y x q HY B1 B2 B3 B4 B6.
    assert (Cov : forall y t', covered s nobody y t' -> forall s', strk s' = upd (strk s) v x -> snow s' = t -> covered s' Y y t').
    { intros y t' [[C1 C2]|[[] _]] s' E1 E2. unfold covered. rewrite E1, E2. destruct (Nat.eq_dec y v) as [->|Hne]; [rewrite upd_same; auto|]. rewrite upd_other by assumption. now left. }
    destruct HI as [I1 I2 I3 I4 I5 I6 I7 I8 I9 I10 I11 I12 I13 I14]. constructor; cbn [sfrom spre sdist strk sque snow stick sreached sbnd]; auto.
    - intros y r Hy. destruct (I3 y r Hy). split; [lia|assumption].
    - intros y r Hy. destruct (I4 y r Hy) as (l & L1 & L2). exists l. split; [|assumption]. apply (traced_frame G s); [assumption|congruence|]. auto.
    - intros y Hy. destruct (Nat.eq_dec y v) as [->|Hne]; [congruence|]. rewrite upd_other by assumption. auto.
    - intros y. destruct (Nat.eq_dec y v) as [->|Hne]; [rewrite upd_same; auto|]. rewrite upd_other by assumption. auto.
    - intros y. destruct (Nat.eq_dec y v) as [->|Hne]; [rewrite upd_same; auto|]. rewrite upd_other by assumption. intros H. apply B3. apply remove_first_other; [auto|congruence].
    - intros t' i Hin. destruct (B4 _ _ Hin) as [H|[H ->]].
      + destruct (I10 _ _ H) as [_ J]. split; [eauto|assumption].
      + split; [assumption|]. exists v. auto.
    - intros. eapply Cov; try reflexivity. eauto.
    - intros y u w o r r' Hin Hy Hu Hne. destruct (I13 y u w o r r' Hin Hy Hu Hne) as [C|C]; [left|right]; eapply Cov; try reflexivity; exact C.
    - intros. eapply Cov; try reflexivity. eauto. }
  assert (Sub : forall e, In e (remove_first t (INode v) (sque s)) -> In e (sque s)) by (intros e; apply remove_first_In).
  assert (Mu : forall x q tk, let s2 := mkSearch (sfrom s) (spre s) (sdist s) (upd (strk s) v x) q t tk (sreached s) (sbnd s) in
     (mu s2 + length (sque s) + b2n (mism (strk s v)) + b2n (inacc (best G s v) (strk s v)) =
      mu s + length q + b2n (mism x) + b2n (inacc (best G s v) x))%nat).
  { intros x q tk s2. unfold mu. change (sque s2) with q.
    pose proof (cnt_swap (length G) (fun y => mism (strk s2 y)) (fun y => mism (strk s y)) v Hvn) as E1.
    pose proof (cnt_swap (length G) (fun y => inacc (best G s2 y) (strk s2 y)) (fun y => inacc (best G s y) (strk s y)) v Hvn) as E2.
    cbn [strk s2] in E1, E2. rewrite !upd_same in E1, E2. change (best G s2 v) with (best G s v) in E2.
    specialize (E1 ltac:(intros y Hy; now rewrite upd_other)). specialize (E2 ltac:(intros y Hy; now rewrite upd_other)).
    cbn [strk s2]. lia. }
  unfold dequeue_decision. destruct (has_queued (strk s v)) eqn:Hq; cbn [negb orb].
  2: { (* stale entry *)
    cbn [fold_left]. unfold set_strk, set_sque. repeat (split; [reflexivity|]). unfold set_strk, set_sque; cbn [sfrom spre sdist sque snow stick sreached sbnd]. split.
    - apply Build; [intros ? []|apply HI|congruence|auto|auto|]. intros t' H1 H2. left. auto.
    - pose proof (Mu (strk s v) (remove_first t (INode v) (sque s)) (S (stick s))) as M. cbv zeta in M. cbn [strk] in *. lia. }
  destruct (Z.eqb_spec t (queued_time (strk s v))) as [Et|Et]; cbn [negb].
  2: { (* stale entry *)
    cbn [fold_left]. unfold set_strk, set_sque. repeat (split; [reflexivity|]). unfold set_strk, set_sque; cbn [sfrom spre sdist sque snow stick sreached sbnd]. split.
    - apply Build; [intros ? []|apply HI| |auto|auto|].
      + intros _. apply remove_first_other; [now apply HI|congruence].
      + intros t' H1 H2. left. auto.
    - pose proof (Mu (strk s v) (remove_first t (INode v) (sque s)) (S (stick s))) as M. cbv zeta in M. cbn [strk] in *. lia. }
  destruct (has_desired (strk s v)) eqn:Hdes; cbn [negb].
  2: { (* the event is no longer wanted *)
    cbn [fold_left]. unfold set_strk, set_sque. repeat (split; [reflexivity|]). unfold set_strk, set_sque; cbn [sfrom spre sdist sque snow stick sreached sbnd]. split.
    - apply Build; [intros ? []|discriminate|discriminate|auto|auto|]. intros t' H1 H2. congruence.
    - pose proof (Mu (M_Tracker.mkT (desired_time (strk s v)) (queued_time (strk s v)) false false) (remove_first t (INode v) (sque s)) (S (stick s))) as M. cbv zeta in M.
      unfold mism, inacc in M. cbn [has_desired has_queued] in M. rewrite Hdes, andb_false_r in M. cbn [andb b2n] in M. cbn [strk] in *. lia. }
  destruct (Z.eqb_spec t (desired_time (strk s v))) as [Ed|Ed]; cbn [negb].
  - (* keep *)
    cbn [fold_left]. unfold set_strk, set_sque. repeat (split; [reflexivity|]). unfold set_strk, set_sque; cbn [sfrom spre sdist sque snow stick sreached sbnd].
    split; [|split; [cbn [strk]; now rewrite upd_same|split; [cbn [strk]; now rewrite upd_same|]]].
    + apply Build; [auto|discriminate|discriminate|auto|auto|]. intros t' H1 H2. right. split; [reflexivity|lia].
    + pose proof (Mu (M_Tracker.mkT (desired_time (strk s v)) (queued_time (strk s v)) false false) (remove_first t (INode v) (sque s)) (S (stick s))) as M. cbv zeta in M.
      unfold mism, inacc in M. cbn [has_desired has_queued] in M. rewrite Hdes, Hq, <- Et, <- Ed, Z.eqb_refl in M. cbn [andb negb b2n] in M. cbn [strk] in *. rewrite <- Et, <- Ed. lia.
  - (* postponed *)
    destruct (i_trk _ _ _ _ HI v Hdes) as [_ Hle].
    cbn [fold_left]. unfold set_strk, set_sque. repeat (split; [reflexivity|]). unfold set_strk, set_sque; cbn [sfrom spre sdist strk sque snow stick sreached sbnd]. split.
    + apply Build; cbn; [intros ? []| |now left|now right| |auto].
      * intros _. split; [reflexivity|lia].
      * intros t' i [F|F]; [injection F as <- <-; right; split; [lia|reflexivity]|left; auto].
    + pose proof (Mu (M_Tracker.mkT (desired_time (strk s v)) (desired_time (strk s v)) true true) ((desired_time (strk s v), INode v) :: remove_first t (INode v) (sque s)) (S (stick s))) as M. cbv zeta in M.
      unfold mism, inacc in M. cbn [has_desired has_queued desired_time queued_time] in M. rewrite Hdes, Hq, <- Et, Z.eqb_refl in M. destruct (Z.eqb_spec t (desired_time (strk s v))); [contradiction|]. cbn [andb negb b2n length] in M. cbn [strk] in *. lia.
Qed.

Lemma entry_unique : forall u x w o w' o', In (x, w, o) (nbrs G u) -> In (x, w', o') (nbrs G u) -> w' = w /\ o' = o.
Proof.
  intros u x w o w' o' H1 H2. apply In_nth_error in H1 as [k1 H1]. apply In_nth_error in H2 as [k2 H2].
  assert (k2 = k1) by (apply (at_index_unique G u x); [apply (wf_simple G WF)|now exists w', o'|now exists w, o]). subst k2. rewrite H1 in H2. injection H2 as -> ->. auto.
Qed.
Lemma back_index : forall u v w o, In (Some v, w, o) (nbrs G u) -> exists i, index_of_neighbor G v (Some u) = Ok i /\ nth_error (nbrs G v) i = Some (Some u, w, o).
Proof.
  intros u v w o H. pose proof (wf_sym G WF _ _ _ _ H) as H'. destruct (index_of_found (nbrs G v) (Some u) w o 0 H') as [i Hi]. exists i. split; [exact Hi|].
  destruct (index_of_neighbor_spec G v (Some u) i Hi) as (w' & o' & Hn). rewrite Hn. destruct (entry_unique _ _ _ _ _ _ H' (nth_error_In _ _ Hn)) as [-> ->]. reflexivity.
Qed.
Lemma in_graph : forall u v w o, In (Some v, w, o) (nbrs G u) -> (v < length G)%nat.
Proof.
  intros u v w o H. apply (wf_sym G WF) in H. unfold nbrs in H. destruct (Nat.lt_ge_cases v (length G)) as [L|L]; [exact L|]. rewrite nth_overflow in H by exact L. destruct H.
Qed.

(** The edge [c] on which the search ends. *)
Definition collision (s : search) (c : nat * nat) : Prop :=
  sfrom s (fst c) <> None /\ exists e, nth_error (nbrs G (fst c)) (snd c) = Some e /\ cand s (fst c) e = Some (snow s) /\
  forall u, fst (fst e) = Some u -> sfrom s u <> None.

Lemma slook_spec : forall R s v, sinv G R (eq v) s -> sfrom s v <> None -> has_queued (strk s v) = false -> has_desired (strk s v) = false ->
  exists s' c, slook G A s v = Ok (s', c) /\ match c with
    | Some c => s' = s /\ fst c = v /\ collision s c
    | None => sinv G R nobody s' /\
        ((best G s v = None /\ s' = s) \/
         (exists k t, best G s v = Some (k, t) /\ t <> snow s /\ s' = wake A s v t) \/
         length (sreached s') = S (length (sreached s)))
    end.
Proof.
  intros R s v HI Hv Hq Hd. unfold slook. rewrite (find_next_best G WF s v) by (eapply inv_ahead; eauto). cbn [bindO]. pose proof (best_spec G s v) as B.
  destruct (best G s v) as [[k t]|] eqn:Eb.
  2: { exists s, None. split; [reflexivity|]. split; [|left; auto]. eapply inv_more; [|apply (inv_done G WF R (eq v) s v HI Hv)].
       - intros y [-> H]. now elim H.
       - intros e t He Hc. rewrite (B e He) in Hc. discriminate. }
  destruct B as [(e & B1 & B2) B3]. pose proof (nth_error_In _ _ B1) as Hin.
  destruct (Z.eqb_spec t (snow s)) as [->|Hne].
  - rewrite B1. destruct e as [[[u|] w] o].
    + destruct (sfrom s v) as [r|] eqn:Ev; [|congruence]. destruct (sfrom s u) as [r'|] eqn:Eu.
      * exists s, (Some (v, k)). split; [reflexivity|]. split; [reflexivity|]. split; [reflexivity|]. split; cbn; [congruence|]. exists (Some u, w, o). repeat split; auto. intros y E. injection E as <-. congruence.
      * unfold cand in B2. rewrite Ev, Eu in B2. cbn in B2. injection B2 as B2.
        destruct (back_index v u w o Hin) as (i & Hi & Hn). rewrite Hi. cbn [bindO]. unfold explore. rewrite Hn.
        rewrite Ev. replace (w + sdist s v) with (snow s) by lia.
        destruct (i_src _ _ _ _ HI _ _ Ev) as [_ Rr].
        destruct (reach_spec G WF A AO R (eq v) s u r (Some i) HI Eu (in_graph _ _ _ _ Hin)) as (s1 & E1 & I1 & F1 & F2 & F3 & F4 & F5).
        { right. split; [assumption|]. exists i, v, w, o. repeat split; auto. lia. }
        rewrite E1. cbn [bindO]. exists (wake A s1 v (snow s1)), None. split; [reflexivity|].
        apply (roots_ext (fun y => R y \/ y = r) R) in I1; [|intros y; split; [intros [H| ->]; assumption|auto]].
        assert (Huv : v <> u) by congruence.
        assert (Hv1 : sfrom s1 v <> None) by (rewrite F1, upd_other; [congruence|exact Huv]).
        assert (FT : timely A (snow s1) (snow s1)) by (destruct (wf_weight G WF _ _ _ _ Hin) as [Hw0 _]; apply (AO _ _ _ _ _ _ Hin); lia).
        destruct (wake_eq A s1 v (snow s1) FT) as (q & Ew & Hw).
        split; [|right; right; rewrite Ew; cbn [sreached]; rewrite F4; reflexivity].
        eapply inv_more; [|apply inv_done with (X := eq v) (v := v); [exact WF| | |]].
        -- intros y [-> H]. now elim H.
        -- apply (wake_inv G WF A); auto; [lia|]. intros t' (e' & He' & Hc'). eapply cand_now; eauto.
        -- rewrite Ew. exact Hv1.
        -- intros e' t' He' Hc'. rewrite Ew in Hc' |- *. cbn [strk]. rewrite upd_same. change (cand s1 v e' = Some t') in Hc'.
           pose proof (cand_now G R (eq v) s1 I1 v e' t' Hv1 He' Hc'). destruct Hw as [[_ ->]|(_ & _ & _ & ->)]; cbn; auto.
    + exists s, (Some (v, k)). split; [reflexivity|]. split; [reflexivity|]. split; [reflexivity|]. split; cbn; [congruence|]. exists (None, w, o). repeat split; auto. intros u E. discriminate.
  - exists (wake A s v t), None. split; [reflexivity|]. pose proof (cand_fits G WF A AO R (eq v) s HI v e t Hv Hin B2) as FT. destruct (wake_eq A s v t FT) as (q & Ew & Hw).
    split; [|right; left; exists k, t; auto].
    pose proof (cand_now G R (eq v) s HI v e t Hv Hin B2).
    eapply inv_more; [|apply inv_done with (X := eq v) (v := v); [exact WF| | |]].
    + intros y [-> H0]. now elim H0.
    + apply (wake_inv G WF A); auto. intros t' (e' & He' & Hc'). eauto.
    + rewrite Ew. exact Hv.
    + intros e' t' He' Hc'. rewrite Ew in Hc' |- *. cbn [strk]. rewrite upd_same. change (cand s v e' = Some t') in Hc'.
      pose proof (B3 e' t' He' Hc'). destruct Hw as [[_ ->]|(_ & _ & _ & ->)]; cbn; auto.
Qed.

Lemma mu_wake : forall s v k t, timely A (snow s) t -> (v < length G)%nat -> has_queued (strk s v) = false -> has_desired (strk s v) = false -> best G s v = Some (k, t) -> mu (wake A s v t) = S (mu s).
Proof.
  intros s v k t FT Hv Hq Hd Hb. destruct (wake_eq A s v t FT) as (q & Ew & [[-> Hx]|(_ & H & _)]); [|congruence]. rewrite Ew, Hx.
  set (s2 := mkSearch _ _ _ _ _ _ _ _ _). unfold mu.
  pose proof (cnt_swap (length G) (fun y => mism (strk s2 y)) (fun y => mism (strk s y)) v Hv) as E1.
  pose proof (cnt_swap (length G) (fun y => inacc (best G s2 y) (strk s2 y)) (fun y => inacc (best G s y) (strk s y)) v Hv) as E2.
  cbn [strk s2] in E1, E2. rewrite !upd_same in E1, E2. change (best G s2 v) with (best G s v) in E2.
  specialize (E1 ltac:(intros y Hy; now rewrite upd_other)). specialize (E2 ltac:(intros y Hy; now rewrite upd_other)).
  assert (A1 : mism (M_Tracker.mkT t t true true) = false) by (unfold mism; cbn; now rewrite Z.eqb_refl).
  assert (A2 : inacc (best G s v) (M_Tracker.mkT t t true true) = false) by (unfold inacc; rewrite Hb; cbn; now rewrite Z.eqb_refl).
  assert (A3 : mism (strk s v) = false) by (unfold mism; now rewrite Hq). assert (A4 : inacc (best G s v) (strk s v) = false) by (unfold inacc; now rewrite Hd).
  rewrite A1, A3 in E1. rewrite A2, A4 in E2.
  cbn [strk sque s2 length b2n] in *. lia.
Qed.
Lemma reached_bound : forall R X s, sinv G R X s -> (length (sreached s) <= length G)%nat.
Proof.
  intros R X s HI. rewrite <- (seq_length (length G) 0). apply NoDup_incl_length; [apply HI|]. intros v Hv. apply (i_reached _ _ _ _ HI) in Hv.
  destruct (sfrom s v) as [r|] eqn:E; [|congruence]. apply in_seq. pose proof (proj1 (i_src _ _ _ _ HI v r E)). lia.
Qed.

Lemma srun_total : forall R n m s, sinv G R nobody s -> (length G - length (sreached s) <= n)%nat -> (mu s <= m)%nat ->
  exists k s' c, srun G orc A k s = Ok (s', c) /\ match c with
    | None => sinv G R nobody s' /\ sque s' = []
    | Some c => sinv G R (eq (fst c)) s' /\ collision s' c
    end /\ sbnd s' = sbnd s.
Proof.
  intros R. induction n as [n IHn] using lt_wf_ind. induction m as [m IHm] using lt_wf_ind. intros s HI Hn Hm.
  pose proof (sdequeue_spec orc s) as D. destruct (sdequeue orc s) as [[[t i] s1]|] eqn:Ed.
  2: { exists 1%nat, s, None. cbn [srun]. rewrite Ed. auto. }
  destruct (decision_spec R s t i s1 HI Ed) as (v & -> & Hv & Hdec).
  assert (Step : forall k, srun G orc A (S k) s = match dequeue_decision (strk s1 v) t with (keep, x, new) =>
          let s2 := fold_left (fun s t => set_sque s ((t, INode v) :: sque s)) new (set_strk s1 v x) in
          if keep then bindO (slook G A s2 v) (fun r => match snd r with None => srun G orc A k (fst r) | Some c => Ok (fst r, Some c) end)
          else srun G orc A k s2 end) by (intros k; cbn [srun]; rewrite Ed; reflexivity).
  destruct (dequeue_decision (strk s1 v) t) as [[keep x] new]. cbv zeta in *. set (s2 := fold_left _ _ _) in *. destruct Hdec as (F1 & F2 & F3 & F4 & F5 & Hdec).
  assert (Hbest : best G s2 v = best G s v).
  { unfold best. apply scan_ext. intros e _. unfold cand. now rewrite F1, F2, F3. }
  destruct keep.
  - destruct Hdec as (I2 & Q2 & D2 & M2). assert (Hv2 : sfrom s2 v <> None) by (now rewrite F1).
    destruct (slook_spec R s2 v I2 Hv2 Q2 D2) as (s3 & c & E3 & Hc). destruct c as [c|].
    + destruct Hc as (-> & Ec & Hcol). exists 1%nat, s2, (Some c). rewrite Step, E3. cbn [bindO fst snd]. rewrite Ec. auto.
    + destruct Hc as [I3 Hc].
      assert (Hbnd : sbnd s3 = sbnd s \/ True) by auto.
      assert (IH : exists k s' c, srun G orc A k s3 = Ok (s', c) /\ match c with
          | None => sinv G R nobody s' /\ sque s' = [] | Some c => sinv G R (eq (fst c)) s' /\ collision s' c end /\ sbnd s' = sbnd s3).
      { destruct Hc as [[Eb ->]|[(k & t' & Eb & Hne & ->)|Hlen]].
        - apply (IHm (mu s2)); [lia|assumption|rewrite F4; lia|lia].
        - rewrite Hbest in Eb. destruct (wake_any A s2 v t') as (tk & q & Ew).
          assert (Hvn : (v < length G)%nat) by (destruct (sfrom s v) as [r|] eqn:E; [|congruence]; exact (proj1 (i_src _ _ _ _ HI v r E))).
          assert (FT : timely A (snow s2) t').
          { pose proof (best_spec G s2 v) as B. rewrite Hbest, Eb in B. destruct B as [(e & B1 & B2) _]. exact (cand_fits G WF A AO R (eq v) s2 I2 v e t' Hv2 (nth_error_In _ _ B1) B2). }
          assert (Emu : mu (wake A s2 v t') = S (mu s2)) by (eapply mu_wake; eauto; rewrite Hbest; exact Eb).
          rewrite Eb in M2. destruct (Z.eqb_spec t t') as [->|Hnt]; [congruence|]. cbn [negb b2n] in M2.
          apply (IHm (mu (wake A s2 v t'))); [lia|assumption|rewrite Ew; cbn [sreached]; rewrite F4; lia|lia].
        - rewrite F4 in Hlen. pose proof (reached_bound R nobody s3 I3). apply (IHn (length G - length (sreached s3))%nat) with (m := mu s3); [lia|assumption|lia|lia]. }
      destruct IH as (k & s' & c & E & P1 & P2). exists (S k), s', c. rewrite Step, E3. cbn [bindO fst snd]. split; [exact E|]. split; [exact P1|].
      rewrite P2. clear -Hc F3 E3. destruct Hc as [[_ ->]|[(k & t' & _ & _ & ->)|Hlen]]; [exact F3|destruct (wake_any A s2 v t') as (tk & q & ->); exact F3|].
      unfold slook in E3. destruct (find_next G s2 v) as [[[k t]|]| | |]; cbn [bindO] in E3; try discriminate; [|injection E3 as <-; exact F3].
      destruct (t =? snow s2); [|injection E3 as <-; destruct (wake_any A s2 v t) as (tk & q & ->); exact F3].
      destruct (nth_error (nbrs G v) k) as [[[[u|] w] o]|]; try discriminate. destruct (sfrom s2 v); [|discriminate]. destruct (sfrom s2 u); [discriminate|].
      destruct (index_of_neighbor G u (Some v)); cbn [bindO] in E3; try discriminate. unfold explore in E3. destruct (nth_error (nbrs G u) a) as [[[[y|] w'] o']|]; try discriminate.
      unfold sreschedule in E3. destruct (find_next G _ u) as [[[k' t']|]| | |]; cbn [bindO] in E3; try discriminate; injection E3 as <-.
      * match goal with |- sbnd (wake A ?a ?b ?c) = _ => destruct (wake_any A a b c) as (tk & q & ->) end. cbn [sbnd].
        match goal with |- sbnd (wake A ?a ?b ?c) = _ => destruct (wake_any A a b c) as (tk' & q' & ->) end. exact F3.
      * match goal with |- sbnd (wake A ?a ?b ?c) = _ => destruct (wake_any A a b c) as (tk & q & ->) end. exact F3.
  - destruct Hdec as [I2 M2]. destruct (IHm (mu s2)) with (s := s2) as (k & s' & c & E & P1 & P2); [lia|assumption|rewrite F4; lia|lia|].
    exists (S k), s', c. rewrite Step. split; [exact E|]. split; [exact P1|]. congruence.
Qed.
Lemma srun_mono : forall k k' s r, srun G orc A k s = Ok r -> (k <= k')%nat -> srun G orc A k' s = Ok r.
Proof.
  induction k as [|k IH]; intros k' s r E L; [discriminate|]. destruct k' as [|k']; [lia|]. cbn [srun] in *.
  destruct (sdequeue orc s) as [[[t i] s1]|]; [|exact E]. destruct i as [v|]; [|exact E].
  destruct (dequeue_decision (strk s1 v) t) as [[keep x] new]. destruct keep; [|apply IH; [exact E|lia]].
  destruct (slook G A _ v) as [[s3 c]| | |]; cbn [bindO fst snd] in *; try discriminate. destruct c; [exact E|]. apply IH; [exact E|lia].
Qed.
End Search.
