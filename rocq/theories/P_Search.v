(** The shortest-path search, part 1: invariants of the bidirectional search and its termination. *)
From Coq Require Import ZArith NArith List Bool Arith Lia Permutation.
From Verif Require Import M_Base M_Tracker M_Core S_Core S_Reweight M_Search S_Search P_CoreGeo P_CoreSched P_CoreQueue.
Import ListNotations.
Local Open Scope Z_scope.

Lemma upd_same : forall {X} (f : nat -> X) k x, upd f k x k = x.
Proof. intros. unfold upd. now rewrite Nat.eqb_refl. Qed.
Lemma upd_other : forall {X} (f : nat -> X) k x i, i <> k -> upd f k x i = f i.
Proof. intros. unfold upd. destruct (Nat.eqb_spec i k); congruence. Qed.
Lemma same_opt_spec : forall x y, same_opt x y = true <-> x = y.
Proof.
  intros [x|] [y|]; simpl; split; intros H; try congruence; try discriminate.
  - apply Nat.eqb_eq in H. now subst.
  - injection H as ->. apply Nat.eqb_refl.
Qed.
Lemma same_opt_false : forall x y, x <> y -> same_opt x y = false.
Proof. intros x y H. destruct (same_opt x y) eqn:E; [|reflexivity]. apply same_opt_spec in E. contradiction. Qed.
Lemma same_opt_refl : forall x, same_opt x x = true.
Proof. intros. now apply same_opt_spec. Qed.

Section Search.
Variable G : graph.
Hypothesis WF : wf_graph G.
Variable orc : nat -> nat.
Variable A : ints.
Hypothesis AO : wfine A G.

(** The time at which the search from both sides crosses the edge [e] at [v]; the clock plays no role. *)
Definition cand (s : search) (v : nat) (e : nbr) : option Z :=
  match e with
  | (None, w, _) => if sbnd s then Some (sdist s v + w) else None
  | (Some u, w, _) =>
      if same_opt (sfrom s u) (sfrom s v) then None
      else match sfrom s u with
           | None => Some (sdist s v + w)
           | Some _ => Some ((w + sdist s v + sdist s u) / 2)
           end
  end.
Definition best (s : search) (v : nat) : option (nat * Z) := scan (cand s v) 0 (nbrs G v) None.

(** The edges that the search has not crossed yet lie ahead. *)
Definition ahead (s : search) (v : nat) : Prop := forall u w o, In (Some u, w, o) (nbrs G v) ->
  forall r, sfrom s u = Some r -> sfrom s v <> Some r -> 2 * snow s <= w + sdist s v + sdist s u.

Lemma crossing_cand : forall s v e, ahead s v -> In e (nbrs G v) -> fst (fst e) <> None -> crossing s v e = cand s v e.
Proof.
  intros s v [[[u|] w] o] H Hin Hne; [|now elim Hne]. unfold crossing, cand. destruct (same_opt (sfrom s u) (sfrom s v)) eqn:E; [reflexivity|].
  destruct (sfrom s u) as [r|] eqn:Eu; [|f_equal; lia]. f_equal. pose proof (H u w o Hin r Eu) as L. assert (2 * snow s <= w + sdist s v + sdist s u).
  { apply L. intros Ev. rewrite Ev in E. rewrite same_opt_refl in E. discriminate. }
  replace (w - (snow s - sdist s v) - (snow s - sdist s u)) with (w + sdist s v + sdist s u - 2 * snow s) by lia.
  rewrite Z.quot_div_nonneg by lia. replace (w + sdist s v + sdist s u) with ((w + sdist s v + sdist s u - 2 * snow s) + snow s * 2) at 2 by lia.
  rewrite Z.div_add by lia. lia.
Qed.
Lemma find_next_best : forall s v, ahead s v -> find_next G s v = Ok (best s v).
Proof.
  intros s v H. unfold find_next, best.
  assert (C : forall l, (forall w o, ~ In (None, w, o) l) -> forallb (fun x : nbr => match x with (None, _, _) => false | _ => true end) l = true).
  { intros l Hl. apply forallb_forall. intros [[[u|] w] o] Hx; [reflexivity|]. now elim (Hl w o). }
  assert (X : forall l, (forall e, In e l -> In e (nbrs G v)) -> (forall w o, ~ In (None, w, o) l) -> forall i b, scan (crossing s v) i l b = scan (cand s v) i l b).
  { intros l Hl Hn i b. apply scan_ext. intros [[[u|] w] o] Hx; [|now elim (Hn w o)]. apply crossing_cand; auto. discriminate. }
  destruct (nbrs G v) as [|e rest] eqn:E; [reflexivity|].
  pose proof (wf_boundary_first G WF v e rest E) as B. destruct e as [[[u|] w] o].
  - assert (Hn : forall w' o', ~ In (None, w', o') ((Some u, w, o) :: rest)) by (intros w' o' [F|F]; [discriminate|eapply B; eauto]).
    rewrite C by assumption. rewrite X; auto.
  - rewrite C by (intros ? ?; apply B). rewrite X; [|intros e He; now right|intros ? ?; apply B].
    cbn [scan cand]. destruct (sbnd s); [|reflexivity]. now replace (snow s + w - (snow s - sdist s v)) with (sdist s v + w) by lia.
Qed.
Lemma best_spec : forall s v, match best s v with
  | None => forall e, In e (nbrs G v) -> cand s v e = None
  | Some (k, t) => (exists e, nth_error (nbrs G v) k = Some e /\ cand s v e = Some t) /\ forall e t', In e (nbrs G v) -> cand s v e = Some t' -> t <= t'
  end.
Proof. intros s v. pose proof (scan_spec (cand s v) (nbrs G v) [] None) as H. cbn [length app] in H. unfold best. apply H. intros x []. Qed.

(** Tracing back from a node to the root of its search. *)
Inductive traced (s : search) : nat -> nat -> list (nat * nat) -> Prop :=
| tr_root : forall v, spre s v = None -> sdist s v = 0 -> traced s v v []
| tr_step : forall v i u w o r l, spre s v = Some i -> nth_error (nbrs G v) i = Some (Some u, w, o) -> sfrom s u = Some r ->
    sdist s v = w + sdist s u -> traced s u r l -> traced s v r ((v, i) :: l).

(** [v] will be looked at by time [t]; [X] are the nodes being looked at now. *)
Definition covered (s : search) (X : nat -> Prop) (v : nat) (t : Z) : Prop :=
  (has_desired (strk s v) = true /\ desired_time (strk s v) <= t) \/ (X v /\ snow s <= t).

Record sinv (R : nat -> Prop) (X : nat -> Prop) (s : search) : Prop := {
  i_src : forall v r, sfrom s v = Some r -> (v < length G)%nat /\ R r;
  i_root : forall r, R r -> sfrom s r = Some r /\ spre s r = None /\ sdist s r = 0;
  i_dist : forall v r, sfrom s v = Some r -> 0 <= sdist s v <= snow s /\ Z.even (sdist s v) = true;
  i_trace : forall v r, sfrom s v = Some r -> exists l, traced s v r l /\ (length l < length (sreached s))%nat;
  i_nodup : NoDup (sreached s);
  i_reached : forall v, In v (sreached s) <-> sfrom s v <> None;
  i_clean : forall v, sfrom s v = None -> spre s v = None /\ has_desired (strk s v) = false /\ has_queued (strk s v) = false;
  i_trk : forall v, has_desired (strk s v) = true -> has_queued (strk s v) = true /\ queued_time (strk s v) <= desired_time (strk s v);
  i_q : forall v, has_queued (strk s v) = true -> In (queued_time (strk s v), INode v) (sque s);
  i_que : forall t i, In (t, i) (sque s) -> snow s <= t /\ exists v, i = INode v /\ sfrom s v <> None;
  i_same : forall v u w o r, In (Some u, w, o) (nbrs G v) -> sfrom s v = Some r -> sfrom s u = Some r -> sdist s u <= sdist s v + w;
  i_free : forall v u w o r, In (Some u, w, o) (nbrs G v) -> sfrom s v = Some r -> sfrom s u = None -> covered s X v (sdist s v + w);
  i_other : forall v u w o r r', In (Some u, w, o) (nbrs G v) -> sfrom s v = Some r -> sfrom s u = Some r' -> r <> r' ->
    covered s X v ((w + sdist s v + sdist s u) / 2) \/ covered s X u ((w + sdist s v + sdist s u) / 2);
  i_bnd : forall v w o r, sbnd s = true -> In (None, w, o) (nbrs G v) -> sfrom s v = Some r -> covered s X v (sdist s v + w) }.

Section Inv.
Variable R : nat -> Prop.
Variable X : nat -> Prop.
Variable s : search.
Hypothesis HI : sinv R X s.

Lemma desired_ahead : forall v, has_desired (strk s v) = true -> snow s <= desired_time (strk s v).
Proof. intros v H. destruct (i_trk _ _ _ HI v H) as [H1 H2]. pose proof (i_q _ _ _ HI v H1) as H3. destruct (i_que _ _ _ HI _ _ H3) as [H4 _]. lia. Qed.
Lemma covered_now : forall v t, covered s X v t -> snow s <= t.
Proof. intros v t [[H1 H2]|[_ H]]; [|assumption]. pose proof (desired_ahead v H1). lia. Qed.
Lemma half_le : forall v u w o r r', In (Some u, w, o) (nbrs G v) -> sfrom s v = Some r -> sfrom s u = Some r' ->
  2 * ((w + sdist s v + sdist s u) / 2) = w + sdist s v + sdist s u.
Proof.
  intros v u w o r r' Hin Hv Hu. destruct (wf_weight G WF _ _ _ _ Hin) as [_ Ew]. destruct (i_dist _ _ _ HI _ _ Hv) as [_ Ev]. destruct (i_dist _ _ _ HI _ _ Hu) as [_ Eu].
  symmetry. apply Z_div_exact_full_2; [lia|]. rewrite Zmod_even. replace (Z.even (w + sdist s v + sdist s u)) with true; [reflexivity|]. rewrite !Z.even_add, Ew, Ev, Eu. reflexivity.
Qed.
Lemma inv_ahead : forall v, sfrom s v <> None -> ahead s v.
Proof.
  intros v Hv u w o Hin r Hu Hne. destruct (sfrom s v) as [r'|] eqn:Ev; [|congruence].
  assert (snow s <= (w + sdist s v + sdist s u) / 2).
  { destruct (i_other _ _ _ HI v u w o r' r Hin Ev Hu) as [C|C]; [congruence| |]; eapply covered_now; exact C. }
  pose proof (half_le v u w o r' r Hin Ev Hu). lia.
Qed.
(** Every crossing that the search would still have to make is at a time from now on. *)
Lemma cand_now : forall v e t, sfrom s v <> None -> In e (nbrs G v) -> cand s v e = Some t -> snow s <= t.
Proof.
  intros v [[[u|] w] o] t Hv Hin Hc; unfold cand in Hc; destruct (sfrom s v) as [r|] eqn:Ev; try congruence.
  - destruct (same_opt (sfrom s u) (Some r)) eqn:E; [discriminate|]. destruct (sfrom s u) as [r'|] eqn:Eu; injection Hc as <-.
    + destruct (i_other _ _ _ HI v u w o r r' Hin Ev Eu) as [C|C]; try (eapply covered_now; exact C). intros ->. rewrite same_opt_refl in E. discriminate.
    + eapply covered_now. eapply i_free; eauto.
  - destruct (sbnd s) eqn:Eb; [|discriminate]. injection Hc as <-. eapply covered_now. eapply i_bnd; eauto.
Qed.
End Inv.

(** Once [v] itself is going to be looked at in time, it no longer needs to be a node being looked at. *)
Lemma inv_done : forall R X s v, sinv R X s -> sfrom s v <> None ->
  (forall e t, In e (nbrs G v) -> cand s v e = Some t -> has_desired (strk s v) = true /\ desired_time (strk s v) <= t) -> sinv R (fun y => X y /\ y <> v) s.
Proof.
  intros R X s v HI Hv H.
  assert (C : forall y t, covered s X y t -> (y = v -> exists e, In e (nbrs G v) /\ cand s v e = Some t) -> covered s (fun y => X y /\ y <> v) y t).
  { intros y t C Hy. destruct (Nat.eq_dec y v) as [->|Hne].
    - destruct (Hy eq_refl) as (e & He & Hc). left. eauto.
    - destruct C as [C|[C1 C2]]; [now left|right; auto]. }
  destruct HI as [I1 I2 I3 I4 I5 I6 I7 I8 I9 I10 I11 I12 I13 I14]. constructor; auto.
  - intros x u w o r Hin Hx Hu. apply C; [eapply I12; eauto|]. intros ->. exists (Some u, w, o). split; [assumption|]. unfold cand. rewrite Hx, Hu. reflexivity.
  - intros x u w o r r' Hin Hx Hu Hne. destruct (I13 x u w o r r' Hin Hx Hu Hne) as [D|D]; [left|right]; (apply C; [exact D|]; intros ->).
    + exists (Some u, w, o). split; [assumption|]. unfold cand. rewrite Hx, Hu. rewrite same_opt_false by congruence. reflexivity.
    + exists (Some x, w, o). split; [now apply (wf_sym G WF)|]. unfold cand. rewrite Hx, Hu. rewrite same_opt_false by congruence. do 2 f_equal. lia.
  - intros x w o r Hb Hin Hx. apply C; [eapply I14; eauto|]. intros ->. exists (None, w, o). split; [assumption|]. unfold cand. now rewrite Hb.
Qed.
Lemma inv_more : forall R (X X' : nat -> Prop) s, (forall y, X y -> X' y) -> sinv R X s -> sinv R X' s.
Proof.
  intros R X X' s H HI. assert (C : forall y t, covered s X y t -> covered s X' y t) by (intros y t [C|[C1 C2]]; [now left|right; auto]).
  destruct HI as [I1 I2 I3 I4 I5 I6 I7 I8 I9 I10 I11 I12 I13 I14]. constructor; auto.
  - intros. apply C. eauto.
  - intros. destruct (I13 v u w o r r') as [D|D]; auto.
  - intros. apply C. eauto.
Qed.
Lemma traced_frame : forall s s' v r l, traced s v r l -> sfrom s v <> None -> (forall y, sfrom s y <> None -> sfrom s' y = sfrom s y /\ spre s' y = spre s y /\ sdist s' y = sdist s y) -> traced s' v r l.
Proof.
  intros s s' v r l H Hv F. induction H as [v H1 H2|v i u w o r l H1 H2 H3 H4 H5 IH].
  - destruct (F v Hv) as (F1 & F2 & F3). apply tr_root; congruence.
  - destruct (F v Hv) as (F1 & F2 & F3). assert (Hu : sfrom s u <> None) by congruence. destruct (F u Hu) as (F4 & F5 & F6). eapply tr_step; [rewrite F2; exact H1|exact H2|congruence|congruence|auto].
Qed.
Lemma inv_ext : forall R X s s', sinv R X s -> sfrom s' = sfrom s -> spre s' = spre s -> sdist s' = sdist s -> (forall v, strk s' v = strk s v) -> sque s' = sque s -> snow s' = snow s ->
  sreached s' = sreached s -> sbnd s' = sbnd s -> sinv R X s'.
Proof.
  intros R X s s' HI E1 E2 E3 E4 E5 E6 E7 E8. assert (C : forall y t, covered s X y t -> covered s' X y t) by (intros y t H; unfold covered in *; rewrite E4, E6; exact H).
  destruct HI as [I1 I2 I3 I4 I5 I6 I7 I8 I9 I10 I11 I12 I13 I14]. constructor; rewrite ?E1, ?E2, ?E3, ?E5, ?E6, ?E7, ?E8; auto.
  - intros v r Hv. destruct (I4 v r Hv) as (l & L1 & L2). exists l. split; [|assumption]. apply (traced_frame s); [assumption|congruence|]. rewrite E1, E2, E3. auto.
  - intros v. rewrite E4. auto.
  - intros v. rewrite E4. auto.
  - intros v. rewrite E4. auto.
  - intros. apply C. eauto.
  - intros. destruct (I13 v u w o r r') as [D|D]; auto.
  - intros. apply C. eauto.
Qed.

(** Effects of [wake]. *)
Lemma cand_fits : forall R X s, sinv R X s -> forall v e t, sfrom s v <> None -> In e (nbrs G v) -> cand s v e = Some t -> timely A (snow s) t.
Proof.
  intros R X s HI v [[x w] o] t Hv Hin Hc. pose proof (cand_now R X s HI v _ t Hv Hin Hc) as Hn. apply (AO v x w o); [assumption|]. split; [assumption|].
  destruct (wf_weight G WF _ _ _ _ Hin) as [Hw _]. destruct (sfrom s v) as [r|] eqn:Ev; [|congruence]. destruct (i_dist _ _ _ HI _ _ Ev) as [Dv _].
  unfold cand in Hc. rewrite Ev in Hc. destruct x as [u|].
  - destruct (same_opt (sfrom s u) (Some r)); [discriminate|]. destruct (sfrom s u) as [r'|] eqn:Eu; injection Hc as <-; [|lia].
    destruct (i_dist _ _ _ HI _ _ Eu) as [Du _]. apply Z.div_le_upper_bound; lia.
  - destruct (sbnd s); [|discriminate]. injection Hc as <-. lia.
Qed.
Lemma wake_any : forall s v t, exists k q, wake A s v t = mkSearch (sfrom s) (spre s) (sdist s) k q (snow s) (stick s) (sreached s) (sbnd s).
Proof.
  intros s v t. unfold wake, set_desired. destruct (_ || _); do 2 eexists; reflexivity.
Qed.
Lemma wake_eq : forall s v t, timely A (snow s) t -> exists q, wake A s v t = mkSearch (sfrom s) (spre s) (sdist s)
    (upd (strk s) v (fst (set_desired Z.gtb (strk s v) t))) q (snow s) (stick s) (sreached s) (sbnd s) /\
    ((q = (t, INode v) :: sque s /\ fst (set_desired Z.gtb (strk s v) t) = M_Tracker.mkT t t true true) \/
     (q = sque s /\ has_queued (strk s v) = true /\ queued_time (strk s v) <= t /\ fst (set_desired Z.gtb (strk s v) t) = M_Tracker.mkT t (queued_time (strk s v)) true true)).
Proof.
  intros s v t [FT FL]. unfold wake. rewrite FT. unfold set_desired. rewrite FL. destruct (has_queued (strk s v)) eqn:E; cbn [negb orb].
  - destruct (Z.gtb_spec (queued_time (strk s v)) t).
    + eexists. split; [reflexivity|]. left. now split.
    + eexists. split; [reflexivity|]. right. auto.
  - eexists. split; [reflexivity|]. left. now split.
Qed.
Lemma wake_inv : forall R X s v t, sinv R X s -> sfrom s v <> None -> snow s <= t -> timely A (snow s) t ->
  (forall t', (exists e, In e (nbrs G v) /\ cand s v e = Some t') -> t <= t') -> sinv R X (wake A s v t).
Proof.
  intros R X s v t HI Hv Ht FT Hc. destruct (wake_eq s v t FT) as (q & E & Hq). rewrite E. clear E. set (x := fst (set_desired Z.gtb (strk s v) t)) in *.
  assert (Hx : has_desired x = true /\ desired_time x = t /\ has_queued x = true /\ queued_time x <= t /\ In (queued_time x, INode v) q /\ forall e, In e (sque s) -> In e q).
  { destruct Hq as [[-> ->]|(-> & H1 & H2 & ->)]; cbn; repeat split; auto; try lia. eapply i_q; eauto. }
  destruct Hx as (X1 & X2 & X3 & X4 & X5 & X6).
  assert (Hqin : forall t' i, In (t', i) q -> In (t', i) (sque s) \/ (t' = t /\ i = INode v)).
  { destruct Hq as [[-> _]|[-> _]]; intros t' i Hin; [|now left]. destruct Hin as [F|F]; [injection F as <- <-; now right|now left]. }
  assert (Cov : forall u t', covered s X u t' -> (u = v -> t <= t') -> forall s', sfrom s' = sfrom s -> strk s' = upd (strk s) v x -> snow s' = snow s -> covered s' X u t').
  { intros u t' C Cv s' _ E2 E3. unfold covered in *. rewrite E2, E3. destruct (Nat.eq_dec u v) as [->|Hne].
    - rewrite upd_same, X1, X2. left. split; [reflexivity|auto].
    - rewrite upd_other by assumption. exact C. }
  destruct HI as [I1 I2 I3 I4 I5 I6 I7 I8 I9 I10 I11 I12 I13 I14]. constructor; cbn [sfrom spre sdist strk sque snow stick sreached sbnd]; auto.
  - intros y r Hy. destruct (I4 y r Hy) as (l & Hl & Hlen). exists l. split; [|assumption]. apply (traced_frame s); [assumption|congruence|]. auto.
  - intros y Hy. destruct (Nat.eq_dec y v) as [->|Hne]; [congruence|]. rewrite upd_other by assumption. auto.
  - intros y. destruct (Nat.eq_dec y v) as [->|Hne]; [rewrite upd_same; rewrite X2; auto|]. rewrite upd_other by assumption. auto.
  - intros y. destruct (Nat.eq_dec y v) as [->|Hne]; [rewrite upd_same; auto|]. rewrite upd_other by assumption. auto.
  - intros t' i Hin. destruct (Hqin _ _ Hin) as [F|[-> ->]]; [now apply I10|]. split; [assumption|]. exists v. now split.
  - intros y u w o r Hin Hy Hu. eapply Cov; try reflexivity; [eapply I12; eauto|]. intros ->. apply Hc. exists (Some u, w, o). split; [assumption|]. unfold cand. rewrite Hy, Hu. reflexivity.
  - intros y u w o r r' Hin Hy Hu Hne. destruct (I13 y u w o r r' Hin Hy Hu Hne) as [C|C].
    + left. eapply Cov; try reflexivity; [exact C|]. intros ->. apply Hc. exists (Some u, w, o). split; [assumption|]. unfold cand. rewrite Hy, Hu, same_opt_false by congruence. reflexivity.
    + right. eapply Cov; try reflexivity; [exact C|]. intros ->. apply Hc. exists (Some y, w, o). split; [now apply (wf_sym G WF)|]. unfold cand. rewrite Hy, Hu, same_opt_false by congruence. do 2 f_equal. lia.
  - intros y w o r Hb Hin Hy. eapply Cov; try reflexivity; [eapply I14; eauto|]. intros ->. apply Hc. exists (None, w, o). split; [assumption|]. unfold cand. now rewrite Hb.
Qed.

(** A node becomes reached at the current time. *)
Lemma reach_spec : forall R X s x r p, sinv R X s -> sfrom s x = None -> (x < length G)%nat ->
  ((p = None /\ r = x /\ snow s = 0) \/
   (R r /\ exists i u w o, p = Some i /\ nth_error (nbrs G x) i = Some (Some u, w, o) /\ sfrom s u = Some r /\ snow s = w + sdist s u)) ->
  exists s', sreschedule G A (reach s x (Some r) p (snow s)) x = Ok s' /\ sinv (fun y => R y \/ y = r) X s' /\
    sfrom s' = upd (sfrom s) x (Some r) /\ snow s' = snow s /\ sbnd s' = sbnd s /\ sreached s' = x :: sreached s /\ stick s' = stick s.
Proof.
  intros R X s x r p HI Hx Hlt Hcase.
  set (s1 := reach s x (Some r) p (snow s)).
  assert (Even : Z.even (snow s) = true).
  { destruct Hcase as [(_ & _ & ->)|(_ & i & u & w & o & _ & Hn & Hu & ->)]; [reflexivity|]. apply nth_error_In in Hn. destruct (wf_weight G WF _ _ _ _ Hn) as [_ Ew]. destruct (i_dist _ _ _ HI _ _ Hu) as [_ Eu]. now rewrite Z.even_add, Ew, Eu. }
  assert (Pos : 0 <= snow s).
  { destruct Hcase as [(_ & _ & ->)|(_ & i & u & w & o & _ & Hn & Hu & ->)]; [lia|]. apply nth_error_In in Hn. destruct (wf_weight G WF _ _ _ _ Hn) as [Ew _]. destruct (i_dist _ _ _ HI _ _ Hu) as [Eu _]. lia. }
  assert (F1 : forall y, sfrom s1 y = if (y =? x)%nat then Some r else sfrom s y) by reflexivity.
  assert (F2 : forall y, sdist s1 y = if (y =? x)%nat then snow s else sdist s y) by reflexivity.
  assert (F3 : forall y, spre s1 y = if (y =? x)%nat then p else spre s y) by reflexivity.
  assert (Frame : forall y, sfrom s y <> None -> sfrom s1 y = sfrom s y /\ spre s1 y = spre s y /\ sdist s1 y = sdist s y).
  { intros y Hy. assert (y <> x) by congruence. rewrite F1, F2, F3. destruct (Nat.eqb_spec y x); [contradiction|auto]. }
  assert (Cov : forall y t, covered s X y t -> covered s1 (fun y => X y \/ y = x) y t) by (intros y t [C|[C1 C2]]; [left; exact C|right; split; [now left|exact C2]]).
  assert (Own : forall t, snow s <= t -> covered s1 (fun y => X y \/ y = x) x t) by (intros t Ht; right; split; [now right|exact Ht]).
  assert (I1 : sinv (fun y => R y \/ y = r) (fun y => X y \/ y = x) s1).
  { pose proof HI as HI0. destruct HI as [I1 I2 I3 I4 I5 I6 I7 I8 I9 I10 I11 I12 I13 I14]. constructor; cbn [snow sreached sque strk sbnd s1 reach] in *.
    - intros v r0. rewrite F1. destruct (Nat.eqb_spec v x) as [->|Hne]; [intros E; injection E as <-; auto|]. intros E. destruct (I1 _ _ E). auto.
    - intros r0 [H0| ->].
      + destruct (I2 _ H0) as [E0 E1]. rewrite F1, F2, F3. destruct (Nat.eqb_spec r0 x) as [->|]; [congruence|auto].
      + rewrite F1, F2, F3. destruct (Nat.eqb_spec r x) as [->|Hne].
        * destruct Hcase as [(-> & _ & ->)|(H0 & _)]; [auto|]. destruct (I2 _ H0). congruence.
        * destruct Hcase as [(_ & -> & _)|(H0 & _)]; [congruence|auto].
    - intros v r0. rewrite F1, F2. change (snow s1) with (snow s). destruct (Nat.eqb_spec v x) as [->|Hne]; [intros _; split; [lia|assumption]|]. apply I3.
    - intros v r0. rewrite F1. change (length (sreached s1)) with (S (length (sreached s))). destruct (Nat.eqb_spec v x) as [->|Hne].
      + intros E; injection E as <-. destruct Hcase as [(-> & -> & E0)|(H0 & i & u & w & o & -> & Hn & Hu & E0)].
        * exists []. split; [|simpl; lia]. apply tr_root; [rewrite F3|rewrite F2]; rewrite Nat.eqb_refl; congruence.
        * destruct (I4 _ _ Hu) as (l & L1 & L2). exists ((x, i) :: l). split; [|simpl; lia]. assert (Hu' : sfrom s u <> None) by congruence. destruct (Frame u Hu') as (G1 & G2 & G3).
          eapply tr_step; [rewrite F3, Nat.eqb_refl; reflexivity|exact Hn|congruence|rewrite F2, Nat.eqb_refl; congruence|]. apply (traced_frame s); assumption.
      + intros E. destruct (I4 _ _ E) as (l & L1 & L2). exists l. split; [|simpl; lia]. apply (traced_frame s); [assumption|congruence|assumption].
    - constructor; [|assumption]. rewrite I6. congruence.
    - intros v. rewrite F1. destruct (Nat.eqb_spec v x) as [->|Hne]; simpl; [split; [congruence|now left]|]. rewrite I6. split; [intros [E|E]; [congruence|assumption]|now right].
    - intros v. rewrite F1, F3. destruct (Nat.eqb_spec v x) as [->|Hne]; [discriminate|]. apply I7.
    - apply I8.
    - apply I9.
    - intros t i Hin. destruct (I10 t i Hin) as (J1 & v & J2 & J3). split; [assumption|]. exists v. split; [assumption|]. rewrite F1. destruct (Nat.eqb_spec v x); [discriminate|assumption].
    - intros v u w o r0 Hin. rewrite !F1, !F2. destruct (wf_weight G WF _ _ _ _ Hin) as [Ew _].
      destruct (Nat.eqb_spec v x) as [->|Hv], (Nat.eqb_spec u x) as [->|Hu]; intros E1 E2; [lia| | |eapply I11; eauto].
      + destruct (I3 _ _ E2). lia.
      + pose proof (I12 v x w o r0 Hin E1 Hx) as C. pose proof (covered_now R X s HI0 _ _ C). lia.
    - intros v u w o r0 Hin. rewrite !F1, F2. destruct (wf_weight G WF _ _ _ _ Hin) as [Ew _].
      destruct (Nat.eqb_spec u x) as [->|Hu]; [discriminate|]. destruct (Nat.eqb_spec v x) as [->|Hv]; intros E1 E2; [apply Own; lia|]. apply Cov. eapply I12; eauto.
    - intros v u w o r0 r' Hin. rewrite !F1, !F2. destruct (wf_weight G WF _ _ _ _ Hin) as [Ew _].
      destruct (Nat.eqb_spec v x) as [->|Hv], (Nat.eqb_spec u x) as [->|Hu]; intros E1 E2 Hne; [congruence| | |].
      + left. apply Own. pose proof (wf_sym G WF _ _ _ _ Hin) as Hin'. pose proof (covered_now R X s HI0 _ _ (I12 u x w o r' Hin' E2 Hx)). apply Z.div_le_lower_bound; lia.
      + right. apply Own. pose proof (covered_now R X s HI0 _ _ (I12 v x w o r0 Hin E1 Hx)). apply Z.div_le_lower_bound; lia.
      + destruct (I13 v u w o r0 r' Hin E1 E2 Hne) as [C|C]; [left|right]; apply Cov; exact C.
    - intros v w o r0 Hb Hin. rewrite F1, F2. destruct (wf_weight G WF _ _ _ _ Hin) as [Ew _]. destruct (Nat.eqb_spec v x) as [->|Hv]; intros E1; [apply Own; lia|]. apply Cov. eapply I14; eauto. }
  assert (Hx1 : sfrom s1 x <> None) by (rewrite F1, Nat.eqb_refl; discriminate).
  assert (Back : forall y, (X y \/ y = x) /\ y <> x -> X y) by (intros y [[H|H] Hne]; [assumption|contradiction]).
  unfold sreschedule. rewrite (find_next_best s1 x) by (eapply inv_ahead; eauto). cbn [bindO]. pose proof (best_spec s1 x) as B.
  destruct (best s1 x) as [[k t]|].
  - eexists. split; [reflexivity|]. destruct B as [(e & B1 & B2) B3]. pose proof (cand_fits _ _ s1 I1 x e t Hx1 (nth_error_In _ _ B1) B2) as FT. destruct (wake_eq s1 x t FT) as (q & E & Hq).
    split; [|rewrite E; repeat split; reflexivity].
    eapply inv_more; [exact Back|]. apply inv_done; [| |].
    + apply wake_inv; auto; [eapply cand_now; eauto; eapply nth_error_In; eauto|]. intros t' (e' & He' & Hc'). eauto.
    + rewrite E. exact Hx1.
    + intros e' t' He' Hc'. rewrite E. cbn [strk]. rewrite upd_same. assert (t <= t') by (apply (B3 e' t' He'); rewrite <- Hc', E; reflexivity).
      destruct Hq as [[_ ->]|(_ & _ & _ & ->)]; cbn; auto.
  - eexists. split; [reflexivity|]. split; [|repeat split; reflexivity]. eapply inv_more; [exact Back|].
    apply inv_done; [|exact Hx1|].
    + eapply inv_ext; [exact I1| | | | | | | |]; try reflexivity. intros v. cbn [strk set_strk s1 reach]. destruct (Nat.eq_dec v x) as [->|Hne]; [|now rewrite upd_other].
      rewrite upd_same. destruct (i_clean _ _ _ HI x Hx) as (_ & H1 & _). unfold set_no_desired. destruct (strk s x) as [d q hd hq]; cbn in *. now rewrite H1.
    + intros e t He Hc. exfalso. assert (cand s1 x e = None) by auto. change (cand s1 x e = Some t) in Hc. congruence.
Qed.
End Search.
