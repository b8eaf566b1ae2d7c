(** Invariants of the decoder's core, part 2: the schedule. *)
From Coq Require Import ZArith NArith List Bool Arith Lia.
From Verif Require Import M_Base M_Varying M_Tracker M_Core S_Varying P_Varying S_Core P_Tree P_CoreGeo.
Import ListNotations.
Local Open Scope Z_scope.

(** ** Packed radii *)
Definition vok (d : Z) : Prop := exists l, legal l /\ d = word_of l.
Definition slp (d : Z) : Z := if is_growing d then 1 else if is_shrinking d then -1 else 0.

Lemma vok_word : forall l, legal l -> vok (word_of l).
Proof. intros l H. now exists l. Qed.
Lemma slp_word : forall l, legal l -> slp (word_of l) = slope l.
Proof.
  intros l H. unfold slp. rewrite vf_growing, vf_shrinking by assumption.
  destruct l as [sl ic]. destruct H as [H|[H|H]]; cbn [slope] in *; subst; reflexivity.
Qed.
Lemma vok_slp : forall d, vok d -> slp d = -1 \/ slp d = 0 \/ slp d = 1.
Proof. intros d (l & H & ->). rewrite slp_word; assumption. Qed.
Lemma vok_growing : forall d, vok d -> is_growing d = (slp d =? 1).
Proof. intros d (l & H & ->). rewrite slp_word by assumption. now apply vf_growing. Qed.
Lemma vok_shrinking : forall d, vok d -> is_shrinking d = (slp d =? -1).
Proof. intros d (l & H & ->). rewrite slp_word by assumption. now apply vf_shrinking. Qed.
Lemma vok_distance : forall d t, vok d -> get_distance_at_time d t = y_intercept d + slp d * t.
Proof. intros d t (l & H & ->). rewrite slp_word, vf_distance, vf_icpt by assumption. reflexivity. Qed.
Lemma legal_1 : forall c, legal (mkLine 1 c). Proof. intros. right. now right. Qed.
Lemma legal_0 : forall c, legal (mkLine 0 c). Proof. intros. right. now left. Qed.
Lemma legal_m1 : forall c, legal (mkLine (-1) c). Proof. intros. now left. Qed.
Lemma legal_off : forall l c, legal l -> legal (mkLine (slope l) c). Proof. intros l c H. exact H. Qed.
Lemma then_growing_ok : forall d t, vok d -> vok (then_growing_at_time d t) /\ slp (then_growing_at_time d t) = 1 /\
  y_intercept (then_growing_at_time d t) = get_distance_at_time d t - t.
Proof.
  intros d t (l & H & ->). rewrite vf_then_growing by assumption. repeat split.
  - apply vok_word, legal_1.
  - apply slp_word, legal_1.
  - rewrite vf_icpt by apply legal_1. cbn [icpt]. now rewrite vf_distance.
Qed.
Lemma then_shrinking_ok : forall d t, vok d -> vok (then_shrinking_at_time d t) /\ slp (then_shrinking_at_time d t) = -1 /\
  y_intercept (then_shrinking_at_time d t) = get_distance_at_time d t + t.
Proof.
  intros d t (l & H & ->). rewrite vf_then_shrinking by assumption. repeat split.
  - apply vok_word, legal_m1.
  - apply slp_word, legal_m1.
  - rewrite vf_icpt by apply legal_m1. cbn [icpt]. now rewrite vf_distance.
Qed.
Lemma then_frozen_ok : forall d t, vok d -> vok (then_frozen_at_time d t) /\ slp (then_frozen_at_time d t) = 0 /\
  y_intercept (then_frozen_at_time d t) = get_distance_at_time d t.
Proof.
  intros d t (l & H & ->). rewrite vf_then_frozen by assumption. repeat split.
  - apply vok_word, legal_0.
  - apply slp_word, legal_0.
  - rewrite vf_icpt by apply legal_0. cbn [icpt]. now rewrite vf_distance.
Qed.
Lemma zero_growing_ok : forall t, let d := growing_varying_with_zero_distance_at_time t in vok d /\ slp d = 1 /\ y_intercept d = - t.
Proof.
  intros t d. subst d. destruct (constructors_correct 0 t) as (_ & _ & _ & ->). repeat split.
  - apply vok_word, legal_1.
  - apply slp_word, legal_1.
  - rewrite vf_icpt by apply legal_1. reflexivity.
Qed.
Lemma one_ok : vok 1 /\ slp 1 = 1 /\ y_intercept 1 = 0.
Proof. repeat split. exists (mkLine 1 0). split; [apply legal_1|reflexivity]. Qed.
Lemma zero_ok : vok 0 /\ slp 0 = 0 /\ y_intercept 0 = 0.
Proof. repeat split. exists (mkLine 0 0). split; [apply legal_0|reflexivity]. Qed.
Lemma v_add_ok : forall d o, vok d -> vok (v_add d o) /\ slp (v_add d o) = slp d /\ y_intercept (v_add d o) = y_intercept d + o.
Proof.
  intros d o (l & H & ->). destruct (offset_correct l o H) as [-> _]. split; [|split].
  - apply vok_word. now apply legal_off.
  - rewrite !slp_word by (auto; now apply legal_off). reflexivity.
  - rewrite !vf_icpt by (auto; now apply legal_off). reflexivity.
Qed.

(** ** Radii at nodes and meeting times *)
Definition nsl (s : state) (v : nat) : Z := slp (local_radius s v).
Definition icp (s : state) (v : nat) : Z := y_intercept (local_radius s v).
(** When the regions at [u] and at [x] will meet across an edge of weight [w], with the present slopes. *)
Definition appr (s : state) (u : nat) (x : option nat) (w : Z) : option Z :=
  match x with
  | None => if nsl s u =? 1 then Some (w - icp s u) else None
  | Some v =>
      if same_opt (top (nd s) u) (top (nd s) v) then None
      else if (nsl s u =? -1) || (nsl s v =? -1) then None
      else if nsl s u + nsl s v =? 2 then Some ((w - icp s u - icp s v) / 2)
      else if nsl s u + nsl s v =? 1 then Some (w - icp s u - icp s v)
      else None
  end.
Definition shrink_time (s : state) (r : nat) : Z :=
  match shl (rg s) r with [] => y_intercept (rad (rg s) r) | v :: _ => icp s v end.

Lemma same_opt_comm : forall a b, same_opt a b = same_opt b a.
Proof. intros [a|] [b|]; simpl; auto. apply Nat.eqb_sym. Qed.
Lemma appr_sym : forall s u v w, appr s u (Some v) w = appr s v (Some u) w.
Proof.
  intros. unfold appr. rewrite same_opt_comm, orb_comm, (Z.add_comm (nsl s u)).
  replace (w - icp s u - icp s v) with (w - icp s v - icp s u) by lia. reflexivity.
Qed.
(** What [appr] depends on. *)
Lemma appr_ext : forall s s' u x w,
  (top (nd s') u = top (nd s) u /\ local_radius s' u = local_radius s u) ->
  (forall v, x = Some v -> top (nd s') v = top (nd s) v /\ local_radius s' v = local_radius s v) ->
  appr s' u x w = appr s u x w.
Proof.
  intros s s' u x w [E1 E2] H. unfold appr, nsl, icp. rewrite E2. destruct x as [v|]; [|reflexivity].
  destruct (H v eq_refl) as [E3 E4]. rewrite E1, E3, E4. reflexivity.
Qed.

Definition wants (s : state) (v : nat) (T : Z) : Prop :=
  has_desired (ntr (sc s) v) = true /\ desired_time (ntr (sc s) v) <= T.

Section Sched.
Variable G : graph.
Context {NI : ints} {WNI : wfine NI G}.

(** Every coming event is waited for, except those that involve the nodes [D]; every shrinking region has a
    wake-up for the time when it leaves a node or vanishes, except the regions [X]. *)
Record sched (ls : list nat) (D : nat -> Prop) (X : nat -> Prop) (s : state) : Prop := {
  q_nq : forall v, (v < length G)%nat -> has_queued (ntr (sc s) v) = true -> In (queued_time (ntr (sc s) v), INode v) (que (sc s));
  q_nd : forall v, (v < length G)%nat -> has_desired (ntr (sc s) v) = true ->
     has_queued (ntr (sc s) v) = true /\ queued_time (ntr (sc s) v) <= desired_time (ntr (sc s) v);
  q_rq : forall r, In r ls -> has_queued (rtr (sc s) r) = true -> In (queued_time (rtr (sc s) r), IRegion r) (que (sc s));
  q_rd : forall r, In r ls -> has_desired (rtr (sc s) r) = true ->
     has_queued (rtr (sc s) r) = true /\ queued_time (rtr (sc s) r) <= desired_time (rtr (sc s) r);
  q_time : forall t i, In (t, i) (que (sc s)) -> now (sc s) <= t;
  q_node : forall t v, In (t, INode v) (que (sc s)) -> (v < length G)%nat;
  q_live : forall t r, In (t, IRegion r) (que (sc s)) -> has_desired (rtr (sc s) r) = true -> In r ls;
  q_nsh : forall v, (v < length G)%nat -> ~ D v -> has_desired (ntr (sc s) v) = true -> nsl s v <> -1;
  q_des : forall r, In r ls -> has_desired (rtr (sc s) r) = true ->
     bpar (rg s) r = None /\ slp (rad (rg s) r) = -1 /\ desired_time (rtr (sc s) r) = shrink_time s r;
  q_shr : forall r, In r ls -> bpar (rg s) r = None -> slp (rad (rg s) r) = -1 -> ~ X r -> has_desired (rtr (sc s) r) = true;
  q_cov : forall u x w o T, In (x, w, o) (nbrs G u) -> appr s u x w = Some T -> ~ D u -> (forall v, x = Some v -> ~ D v) ->
     wants s u T \/ exists v, x = Some v /\ wants s v T }.

Definition lrok (s : state) : Prop := forall v, (v < length G)%nat -> vok (local_radius s v).

(** ** The scan *)
Lemma scan_spec : forall f l pre best,
  (match best with
   | None => forall x, In x pre -> f x = None
   | Some (k, t) => (exists x, nth_error pre k = Some x /\ f x = Some t) /\ forall x t', In x pre -> f x = Some t' -> t <= t'
   end) ->
  match scan f (length pre) l best with
  | None => forall x, In x (pre ++ l) -> f x = None
  | Some (k, t) => (exists x, nth_error (pre ++ l) k = Some x /\ f x = Some t) /\ forall x t', In x (pre ++ l) -> f x = Some t' -> t <= t'
  end.
Proof.
  intros f l. induction l as [|a l IH]; intros pre best H.
  - cbn [scan]. rewrite app_nil_r. exact H.
  - cbn [scan]. replace (pre ++ a :: l) with ((pre ++ [a]) ++ l) by (rewrite <- app_assoc; reflexivity).
    replace (S (length pre)) with (length (pre ++ [a])) by (rewrite app_length; simpl; lia).
    apply IH. destruct (f a) as [t|] eqn:Ea.
    + destruct best as [[k tb]|].
      * destruct H as [(x & Hx & Hf) H]. destruct (Z.ltb_spec t tb).
        -- split.
           ++ exists a. split; [|exact Ea]. rewrite nth_error_app2 by lia. rewrite Nat.sub_diag. reflexivity.
           ++ intros y t' Hy Hft. apply in_app_or in Hy as [Hy|[<-|[]]].
              ** pose proof (H y t' Hy Hft). lia.
              ** rewrite Ea in Hft. injection Hft as <-. lia.
        -- split.
           ++ exists x. split; [|exact Hf]. rewrite nth_error_app1; [exact Hx|]. apply nth_error_Some. congruence.
           ++ intros y t' Hy Hft. apply in_app_or in Hy as [Hy|[<-|[]]].
              ** eauto.
              ** rewrite Ea in Hft. injection Hft as <-. lia.
      * split.
        -- exists a. split; [|exact Ea]. rewrite nth_error_app2 by lia. rewrite Nat.sub_diag. reflexivity.
        -- intros y t' Hy Hft. apply in_app_or in Hy as [Hy|[<-|[]]].
           ++ rewrite (H y Hy) in Hft. discriminate.
           ++ rewrite Ea in Hft. injection Hft as <-. lia.
    + destruct best as [[k tb]|].
      * destruct H as [(x & Hx & Hf) H]. split.
        -- exists x. split; [|exact Hf]. rewrite nth_error_app1; [exact Hx|]. apply nth_error_Some. congruence.
        -- intros y t' Hy Hft. apply in_app_or in Hy as [Hy|[<-|[]]]; [eauto|congruence].
      * intros y Hy. apply in_app_or in Hy as [Hy|[<-|[]]]; auto.
Qed.
Lemma scan_ext : forall f f' l i best, (forall x, In x l -> f x = f' x) -> scan f i l best = scan f' i l best.
Proof.
  intros f f' l. induction l as [|a l IH]; intros i best H; [reflexivity|]. cbn [scan].
  rewrite (H a) by now left. apply IH. intros x Hx. apply H. now right.
Qed.

Lemma nsl_top : forall s v, nsl s v = 1 -> top (nd s) v <> None.
Proof. intros s v H E. unfold nsl, local_radius in H. rewrite E in H. discriminate. Qed.

(** ... computes the minimum of [appr] over the edges of a node that is not shrinking. *)
Lemma next_event_eq : wf_graph G -> forall s v, lrok s -> nsl s v <> -1 ->
  next_event G s v = scan (fun e => appr s v (fst (fst e)) (snd (fst e))) 0 (nbrs G v) None.
Proof.
  intros WF s v HL Hn. unfold next_event.
  destruct (nbrs G v) as [|e0 l0] eqn:El.
  { unfold next_event_growing, next_event_not_growing. rewrite El. destruct (is_growing _); reflexivity. }
  assert (Hv : (v < length G)%nat).
  { destruct (Nat.lt_ge_cases v (length G)); [assumption|]. unfold nbrs in El. rewrite nth_overflow in El by assumption. discriminate. }
  rewrite <- El. pose proof (HL v Hv) as Kv. rewrite (vok_growing _ Kv). fold (nsl s v).
  destruct (vok_slp _ Kv) as [E|[E|E]]; fold (nsl s v) in E; [contradiction| |]; rewrite E; cbn [Z.eqb Pos.eqb].
  - unfold next_event_not_growing. apply scan_ext. intros [[x w] o] Hin.
    destruct (nbr_bound G WF _ _ _ _ Hin) as [_ Hb]. cbn [fst snd]. unfold appr. rewrite E. destruct x as [u|]; [|reflexivity].
    specialize (Hb u eq_refl). pose proof (HL u Hb) as Ku. rewrite (vok_growing _ Ku). fold (nsl s u). fold (icp s v) (icp s u).
    destruct (vok_slp _ Ku) as [F|[F|F]]; fold (nsl s u) in F; rewrite F; cbn -[same_opt Z.div].
    + now destruct (same_opt _ _).
    + now destruct (same_opt _ _).
    + destruct (same_opt _ _) eqn:S; [|reflexivity]. apply same_opt_spec in S. exfalso.
      unfold nsl, local_radius in E, F. rewrite S in E. destruct (top (nd s) u) as [T|] eqn:Tu; [|discriminate].
      (* same top, same slope *)
      unfold v_add in E, F. rewrite Z.shiftl_mul_pow2 in E, F by lia. change (2 ^ 2) with 4 in E, F.
      unfold slp, is_growing, is_shrinking in E, F.
      assert (P : forall a b, Z.land (a + b * 4) 1 = Z.land a 1 /\ Z.land (a + b * 4) 2 = Z.land a 2).
      { clear. intros a b. assert (Q : Z.land (a + b * 4) 3 = Z.land a 3).
        { change 3 with (Z.ones 2). rewrite !Z.land_ones by lia. change (2 ^ 2) with 4. apply Z_mod_plus_full. }
        split.
        - change 1 with (Z.land 3 1). rewrite !Z.land_assoc, Q. reflexivity.
        - change 2 with (Z.land 3 2). rewrite !Z.land_assoc, Q. reflexivity. }
      destruct (P (rad (rg s) T) (wrp (nd s) v)) as [P1 P2]. rewrite P1, P2 in E.
      destruct (P (rad (rg s) T) (wrp (nd s) u)) as [P3 P4]. rewrite P3, P4 in F. congruence.
  - unfold next_event_growing. apply scan_ext. intros [[x w] o] Hin.
    destruct (nbr_bound G WF _ _ _ _ Hin) as [_ Hb]. cbn [fst snd]. unfold appr. rewrite E. destruct x as [u|]; [|reflexivity].
    specialize (Hb u eq_refl). pose proof (HL u Hb) as Ku. rewrite (vok_growing _ Ku), (vok_shrinking _ Ku). fold (nsl s u). fold (icp s v) (icp s u).
    destruct (same_opt _ _); [reflexivity|].
    destruct (vok_slp _ Ku) as [F|[F|F]]; fold (nsl s u) in F; rewrite F; cbn -[Z.div Z.shiftr]; try reflexivity.
    rewrite Z.shiftr_div_pow2 by lia. reflexivity.
Qed.
Lemma next_event_spec : wf_graph G -> forall s v, lrok s -> nsl s v <> -1 ->
  match next_event G s v with
  | None => forall x w o, In (x, w, o) (nbrs G v) -> appr s v x w = None
  | Some (k, t) => (exists x w o, nth_error (nbrs G v) k = Some (x, w, o) /\ appr s v x w = Some t) /\
      forall x w o T, In (x, w, o) (nbrs G v) -> appr s v x w = Some T -> t <= T
  end.
Proof.
  intros WF s v HL Hn. rewrite (next_event_eq WF s v HL Hn).
  pose proof (scan_spec (fun e => appr s v (fst (fst e)) (snd (fst e))) (nbrs G v) [] None) as H.
  cbn [length app] in H. destruct (scan _ 0 (nbrs G v) None) as [[k t]|].
  - destruct H as [([[x w] o] & H1 & H2) H3]; [intros ? []|]. split.
    + exists x, w, o. auto.
    + intros x' w' o' T Hin Ha. exact (H3 (x', w', o') T Hin Ha).
  - intros x w o Hin. exact (H ltac:(intros ? []) (x, w, o) Hin).
Qed.

(** ** Requests *)
Lemma set_desired_spec : (forall a b, later NI a b = (a >? b)) -> forall tr t, let (x, new) := set_desired (later NI) tr t in
  has_desired x = true /\ has_queued x = true /\ desired_time x = t /\ queued_time x <= t /\
  ((new = [queued_time x] /\ queued_time x = t) \/ (new = [] /\ has_queued tr = true /\ queued_time x = queued_time tr)).
Proof.
  intros EL tr t. unfold set_desired. rewrite EL. destruct (negb (has_queued tr)) eqn:E; simpl.
  - repeat split; try lia. left; auto.
  - apply negb_false_iff in E. destruct (Z.gtb_spec (queued_time tr) t); simpl.
    + repeat split; try lia. left; auto.
    + repeat split; auto; lia.
Qed.
(** The effect of [want_node] / [want_region] at exact times. *)
Record wanted (it : item) (tr x : tracker) (t : Z) (q q' : list (Z * item)) : Prop := {
  w_des : has_desired x = true;
  w_que : has_queued x = true;
  w_time : desired_time x = t;
  w_le : queued_time x <= t;
  w_q : (q' = (t, it) :: q /\ queued_time x = t) \/ (q' = q /\ has_queued tr = true /\ queued_time x = queued_time tr) }.
Lemma want_node_any : forall s v t, exists x q,
  want_node NI s v t = set_sc s (mkQ (upd (ntr (sc s)) v x) (rtr (sc s)) q (now (sc s)) (tick (sc s))).
Proof.
  intros s v t0. unfold want_node. set (t := to_time NI (now (sc s)) t0).
  unfold set_desired. destruct (_ || _); cbn [fold_left]; do 2 eexists; [reflexivity|]. destruct s as [? ? ? ? ? ? []]; reflexivity.
Qed.
Lemma want_region_any : forall s v t, exists x q,
  want_region NI s v t = set_sc s (mkQ (ntr (sc s)) (upd (rtr (sc s)) v x) q (now (sc s)) (tick (sc s))).
Proof.
  intros s v t0. unfold want_region. set (t := to_time NI (now (sc s)) t0).
  unfold set_desired. destruct (_ || _); cbn [fold_left]; do 2 eexists; [reflexivity|]. destruct s as [? ? ? ? ? ? []]; reflexivity.
Qed.
Lemma want_node_eq : forall s v t, timely NI (now (sc s)) t -> exists x q,
  want_node NI s v t = set_sc s (mkQ (upd (ntr (sc s)) v x) (rtr (sc s)) q (now (sc s)) (tick (sc s))) /\
  wanted (INode v) (ntr (sc s) v) x t (que (sc s)) q.
Proof.
  intros s v t [Et EL]. unfold want_node. rewrite Et.
  pose proof (set_desired_spec EL (ntr (sc s) v) t) as H. destruct (set_desired (later NI) (ntr (sc s) v) t) as [x new].
  destruct H as (H1 & H2 & H3 & H4 & [[-> H5]|(-> & H5 & H6)]); cbn [fold_left].
  - exists x, ((t, INode v) :: que (sc s)). rewrite H5. split; [reflexivity|]. split; auto.
  - exists x, (que (sc s)). split; [destruct s as [? ? ? ? ? ? []]; reflexivity|]. split; auto.
Qed.
Lemma want_region_eq : forall s r t, timely NI (now (sc s)) t -> exists x q,
  want_region NI s r t = set_sc s (mkQ (ntr (sc s)) (upd (rtr (sc s)) r x) q (now (sc s)) (tick (sc s))) /\
  wanted (IRegion r) (rtr (sc s) r) x t (que (sc s)) q.
Proof.
  intros s r t [Et EL]. unfold want_region. rewrite Et.
  pose proof (set_desired_spec EL (rtr (sc s) r) t) as H. destruct (set_desired (later NI) (rtr (sc s) r) t) as [x new].
  destruct H as (H1 & H2 & H3 & H4 & [[-> H5]|(-> & H5 & H6)]); cbn [fold_left].
  - exists x, ((t, IRegion r) :: que (sc s)). rewrite H5. split; [reflexivity|]. split; auto.
  - exists x, (que (sc s)). split; [destruct s as [? ? ? ? ? ? []]; reflexivity|]. split; auto.
Qed.
Lemma wanted_In : forall it tr x t q q', wanted it tr x t q q' -> forall e, In e q' <-> (e = (t, it) /\ q' = (t, it) :: q) \/ In e q.
Proof.
  intros it tr x t q q' [_ _ _ _ [[-> _]|[-> _]]] e; split; intros H; auto.
  - destruct H as [<-|H]; auto.
  - destruct H as [[-> _]|H]; simpl; auto.
  - destruct H as [[-> E]|H]; [|assumption]. exfalso. apply (f_equal (@length _)) in E. simpl in E. lia.
Qed.

(** A node asks to be woken. *)
Lemma sched_want : wf_graph G -> forall ls D X s v t, sched ls D X s -> (v < length G)%nat -> nsl s v <> -1 -> now (sc s) <= t -> timely NI (now (sc s)) t ->
  (forall x w o T, In (x, w, o) (nbrs G v) -> appr s v x w = Some T -> t <= T) ->
  sched ls (fun u => D u /\ u <> v) X (want_node NI s v t).
Proof.
  intros WF ls D X s v t H Hv Hn Ht Et Hmin. destruct (want_node_eq s v t Et) as (x & q & -> & W).
  pose proof (wanted_In _ _ _ _ _ _ W) as WI. destruct H, W.
  assert (In' : forall e, In e (que (sc s)) -> In e q) by (intros e He; apply WI; auto).
  assert (Qx : In (queued_time x, INode v) q).
  { destruct w_q0 as [[-> ->]|(-> & E1 & E2)]; [now left|]. rewrite E2. now apply q_nq0. }
  split; cbn [sc set_sc ntr rtr que now tick nd rg].
  - intros u Hu. unfold upd. destruct (Nat.eqb_spec u v) as [->|]; auto.
  - intros u Hu. unfold upd. destruct (Nat.eqb_spec u v) as [->|]; auto. intros _. split; [assumption|lia].
  - auto.
  - auto.
  - intros t' i Hi. apply WI in Hi as [[E _]|Hi]; [injection E as -> ->; lia|eauto].
  - intros t' u Hi. apply WI in Hi as [[E _]|Hi]; [injection E as -> ->; assumption|eauto].
  - intros t' r Hi. apply WI in Hi as [[E _]|Hi]; [discriminate|eauto].
  - intros u Hu Hd. unfold upd. destruct (Nat.eqb_spec u v) as [->|Hne]; [auto|]. intros Hdes. apply (q_nsh0 u Hu); auto.
  - exact q_des0.
  - exact q_shr0.
  - assert (Wv : forall T, t <= T -> wants (set_sc s (mkQ (upd (ntr (sc s)) v x) (rtr (sc s)) q (now (sc s)) (tick (sc s)))) v T).
    { intros T HT. unfold wants. cbn [sc set_sc ntr]. rewrite upd_same. split; [assumption|lia]. }
    assert (Wo : forall u T, u <> v -> wants s u T -> wants (set_sc s (mkQ (upd (ntr (sc s)) v x) (rtr (sc s)) q (now (sc s)) (tick (sc s)))) u T).
    { intros u T Hne [W1 W2]. unfold wants. cbn [sc set_sc ntr]. rewrite upd_other by assumption. now split. }
    intros u y w o T Hin Ha Hd1 Hd2. change (appr s u y w = Some T) in Ha.
    destruct (Nat.eq_dec u v) as [->|Hne]; [left; apply Wv; eauto|].
    destruct y as [z|].
    + destruct (Nat.eq_dec z v) as [->|Hnz].
      * right. exists v. split; [reflexivity|]. apply Wv. rewrite appr_sym in Ha. apply (wf_sym G WF) in Hin. eauto.
      * destruct (q_cov0 u (Some z) w o T Hin Ha) as [Hw|(z' & E & Hw)].
        -- intros Hdu. apply Hd1. now split.
        -- intros z' E. injection E as <-. intros Hdz. apply (Hd2 z eq_refl). now split.
        -- left; auto.
        -- injection E as <-. right. exists z. auto.
    + destruct (q_cov0 u None w o T Hin Ha) as [Hw|(z' & E & Hw)].
      * intros Hdu. apply Hd1. now split.
      * intros z' E. discriminate.
      * left; auto.
      * discriminate.
Qed.
(** A node with nothing coming stops waiting. *)
Lemma sched_unwant : wf_graph G -> forall ls D X s v, sched ls D X s -> (v < length G)%nat ->
  (forall x w o, In (x, w, o) (nbrs G v) -> appr s v x w = None) ->
  sched ls (fun u => D u /\ u <> v) X (unwant_node s v).
Proof.
  intros WF ls D X s v H Hv Hno. unfold unwant_node. destruct H.
  split; cbn [sc set_sc ntr rtr que now tick nd rg set_ntr]; auto.
  - intros u Hu. unfold upd. destruct (Nat.eqb_spec u v) as [->|]; cbn [set_no_desired has_queued queued_time]; auto.
  - intros u Hu. unfold upd. destruct (Nat.eqb_spec u v) as [->|]; cbn [set_no_desired has_desired]; auto. discriminate.
  - intros u Hu Hd. unfold upd. destruct (Nat.eqb_spec u v) as [->|Hne]; cbn [set_no_desired has_desired]; [discriminate|].
    intros Hdes. apply (q_nsh0 u Hu); auto.
  - intros u y w o T Hin Ha Hd1 Hd2. change (appr s u y w = Some T) in Ha.
    assert (Wo : forall u T, u <> v -> wants s u T -> wants (unwant_node s v) u T).
    { intros z T' Hne [W1 W2]. unfold wants, unwant_node. cbn [sc set_sc ntr set_ntr]. rewrite upd_other by assumption. now split. }
    destruct (Nat.eq_dec u v) as [->|Hne]; [rewrite (Hno _ _ _ Hin) in Ha; discriminate|].
    destruct y as [z|].
    + destruct (Nat.eq_dec z v) as [->|Hnz].
      * rewrite appr_sym in Ha. apply (wf_sym G WF) in Hin. rewrite (Hno _ _ _ Hin) in Ha. discriminate.
      * destruct (q_cov0 u (Some z) w o T Hin Ha) as [Hw|(z' & E & Hw)].
        -- intros Hdu. apply Hd1. now split.
        -- intros z' E. injection E as <-. intros Hdz. apply (Hd2 z eq_refl). now split.
        -- left; apply Wo; auto.
        -- injection E as <-. right. exists z. split; [reflexivity|]. apply Wo; auto.
    + destruct (q_cov0 u None w o T Hin Ha) as [Hw|(z' & E & Hw)].
      * intros Hdu. apply Hd1. now split.
      * intros z' E. discriminate.
      * left; apply Wo; auto.
      * discriminate.
Qed.
Lemma appr_shrinking : forall s v x w, nsl s v = -1 -> appr s v x w = None.
Proof.
  intros s v x w E. unfold appr. rewrite E. destruct x as [u|]; [|reflexivity].
  destruct (same_opt _ _); reflexivity.
Qed.

Lemma sched_D : forall ls (D D' X X' : nat -> Prop) s, sched ls D X s -> (forall v, (v < length G)%nat -> D v -> D' v) ->
  (forall r, In r ls -> X r -> X' r) ->
  wf_graph G -> sched ls D' X' s.
Proof.
  intros ls D D' X X' s H HD HX WF. destruct H. split; auto.
  intros u x w o T Hin Ha H1 H2. destruct (nbr_bound G WF _ _ _ _ Hin) as [Hu Hb]. apply (q_cov0 u x w o T Hin Ha); auto.
  intros v E Hd. apply (H2 v E). auto.
Qed.
(** Events are not in the past. *)
Definition ontime (s : state) : Prop := forall u x w o T, In (x, w, o) (nbrs G u) -> appr s u x w = Some T -> now (sc s) <= T <= now (sc s) + w.

Lemma sched_reschedule : wf_graph G -> forall ls D X s v, sched ls D X s -> lrok s -> ontime s -> (v < length G)%nat -> nsl s v <> -1 ->
  sched ls (fun u => D u /\ u <> v) X (reschedule G NI s v).
Proof.
  intros WF ls D X s v H HL HO Hv Hn. unfold reschedule. pose proof (next_event_spec WF s v HL Hn) as N.
  destruct (next_event G s v) as [[k t]|].
  - destruct N as [(x & w & o & E1 & E2) Hmin]. apply nth_error_In in E1.
    apply sched_want; auto; [eapply HO; eauto|eapply WNI; eauto].
  - apply sched_unwant; auto.
Qed.
(** Rescheduling touches only the schedule. *)
Definition only_sc (s s' : state) : Prop := exists q, s' = set_sc s q /\ rtr q = rtr (sc s) /\ now q = now (sc s) /\ tick q = tick (sc s).
Lemma only_sc_refl : forall s, only_sc s s.
Proof. intros [? ? ? ? ? ? q]. exists q. repeat split. Qed.
Lemma only_sc_trans : forall a b c, only_sc a b -> only_sc b c -> only_sc a c.
Proof.
  intros a b c (q & -> & E1 & E2 & E3) (q' & -> & E1' & E2' & E3'). cbn [sc set_sc] in *. exists q'. repeat split; congruence.
Qed.
Lemma only_sc_reschedule : forall s v, only_sc s (reschedule G NI s v).
Proof.
  intros s v. unfold reschedule. destruct (next_event G s v) as [[k t]|].
  - destruct (want_node_any s v t) as (x & q & ->). eexists. split; [reflexivity|]. auto.
  - eexists. split; [reflexivity|]. auto.
Qed.
Lemma only_sc_unwant : forall s v, only_sc s (unwant_node s v).
Proof. intros. eexists. split; [reflexivity|]. auto. Qed.

Lemma sched_reschedule_all : wf_graph G -> forall ls X l s D, sched ls D X s -> lrok s -> ontime s ->
  (forall v, In v l -> (v < length G)%nat /\ nsl s v <> -1) ->
  let s' := reschedule_all G NI s l in only_sc s s' /\ sched ls (fun u => D u /\ ~ In u l) X s'.
Proof.
  intros WF ls X l. induction l as [|v l IH]; intros s D H HL HO Hl s'.
  - subst s'. cbn [reschedule_all fold_left]. split; [apply only_sc_refl|]. eapply sched_D; eauto.
  - subst s'. cbn [reschedule_all fold_left]. destruct (Hl v) as [Hv Hn]; [now left|].
    pose proof (sched_reschedule WF ls D X s v H HL HO Hv Hn) as H1. pose proof (only_sc_reschedule s v) as O1.
    set (s1 := reschedule G NI s v) in *. clearbody s1. destruct O1 as (q & -> & Eq & En & Et).
    destruct (IH (set_sc s q) _ H1) as [O2 H2].
    + exact HL.
    + unfold ontime. intros u x w o T Hin Ha. change (appr s u x w = Some T) in Ha. cbn [sc set_sc]. rewrite En. eauto.
    + intros u Hu. apply Hl. now right.
    + split.
      * eapply only_sc_trans; [|exact O2]. exists q. auto.
      * eapply sched_D; [exact H2| | |assumption]; [|auto]. intros u Hu [[Hd H3] H4]. split; [assumption|]. intros [->|Hin]; auto.
Qed.
Lemma sched_unwant_all : wf_graph G -> forall ls X l s D, sched ls D X s ->
  (forall v, In v l -> (v < length G)%nat /\ nsl s v = -1) ->
  let s' := fold_left unwant_node l s in only_sc s s' /\ sched ls (fun u => D u /\ ~ In u l) X s'.
Proof.
  intros WF ls X l. induction l as [|v l IH]; intros s D H Hl s'.
  - subst s'. cbn [fold_left]. split; [apply only_sc_refl|]. eapply sched_D; eauto.
  - subst s'. cbn [fold_left]. destruct (Hl v) as [Hv Hn]; [now left|].
    assert (H1 : sched ls (fun u => D u /\ u <> v) X (unwant_node s v)).
    { apply sched_unwant; auto. intros. now apply appr_shrinking. }
    pose proof (only_sc_unwant s v) as O1.
    set (s1 := unwant_node s v) in *. clearbody s1. destruct O1 as (q & -> & Eq & En & Et).
    destruct (IH (set_sc s q) _ H1) as [O2 H2].
    + intros u Hu. apply Hl. now right.
    + split.
      * eapply only_sc_trans; [|exact O2]. exists q. auto.
      * eapply sched_D; [exact H2| | |assumption]; [|auto]. intros u Hu [[Hd H3] H4]. split; [assumption|]. intros [->|Hin]; auto.
Qed.
End Sched.
