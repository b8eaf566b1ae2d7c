From Coq Require Import ZArith NArith List Bool Arith Lia.
From Verif Require Import M_Base M_Varying M_Tracker M_Core S_Core M_Session S_Session P_Tree.
Import ListNotations.
Local Open Scope nat_scope.

Lemma init_idle : forall G, idle G init_state.
Proof. intros G. split; simpl; intros; [reflexivity|repeat split|constructor|constructor]. Qed.

Lemma reset_fold : forall l s v,
  let s1 := fold_left reset_node l s in
  (In v l \/ (arr (nd s) v = None /\ top (nd s) v = None /\ wrp (nd s) v = 0%Z /\ src (nd s) v = None /\
    crs (nd s) v = 0%N /\ rar (nd s) v = 0%Z /\ ntr (sc s) v = tracker_clear)) ->
  arr (nd s1) v = None /\ top (nd s1) v = None /\ wrp (nd s1) v = 0%Z /\ src (nd s1) v = None /\
    crs (nd s1) v = 0%N /\ rar (nd s1) v = 0%Z /\ ntr (sc s1) v = tracker_clear.
Proof.
  induction l as [|u l IH]; intros s v; cbn [fold_left]; intros H; [destruct H as [[]|H]; exact H|].
  apply IH. destruct (Nat.eq_dec u v) as [->|N].
  - right. unfold reset_node. cbn. unfold upd. rewrite Nat.eqb_refl. repeat split.
  - destruct H as [[H|H]|H]; [congruence|now left|]. right. unfold reset_node. cbn. unfold upd.
    destruct (Nat.eqb_spec v u); [congruence|]. exact H.
Qed.
Lemma reset_idle : forall G s, idle G (mwpm_reset G s).
Proof.
  intros G s. split; [reflexivity| |constructor|constructor].
  intros v Hv. destruct (reset_fold (seq 0 (length G)) s v) as (E1 & E2 & E3 & E4 & E5 & E6 & E7).
  { left. apply in_seq. lia. }
  cbn [mwpm_reset sc ntr nd]. rewrite E7. repeat split; assumption.
Qed.
Lemma failed_idle : forall G fuel orc A I s evs s', decode_st G fuel orc A I s evs = (s', NoMatching) -> idle G s'.
Proof.
  intros G fuel orc A I s evs s'. unfold decode_st. destruct (que (sc s)); [|discriminate].
  destruct (add_events_st G A I _ evs) as [s1 b]. destruct b; [discriminate|].
  destruct (main_loop G fuel orc A fuel s1) as [s2| | |]; try discriminate.
  destruct (next (ta s2) =? length (free (ta s2))).
  - destruct (extract_all fuel A s2 evs) as [x| | |]; try discriminate.
    match goal with |- match ?e with _ => _ end = _ -> _ => destruct e as [y| | |]; try discriminate end.
    destruct (res_add (snd x) (snd y)) as [[o w] l]. discriminate.
  - intros H. injection H as <-. apply reset_idle.
Qed.

(** [decode_st] extends [decode]. *)
Lemma fold_throw_ok : forall f l s s', foldS f l s = Ok s' <-> fold_throw f l s = (s', false).
Proof.
  intros f. assert (X : forall l o, (forall s : state, o <> Ok s) -> forall s', fold_left (fun o a => bindO o (fun s => f s a)) l o <> Ok s').
  { induction l as [|a l IH]; intros o Ho s'; cbn [fold_left]; [apply Ho|]. apply IH. intros s. destruct o; simpl; try discriminate. now elim (Ho a0). }
  induction l as [|v l IH]; intros s s'; unfold foldS in *; cbn [fold_left fold_throw bindO].
  - split; intros H; [injection H as ->|injection H as ->]; reflexivity.
  - destruct (f s v) as [s1| | |]; [apply IH| | |];
      (split; [intros H; exfalso; revert H; apply X; discriminate|discriminate]).
Qed.
Lemma add_events_st_ok : forall G A I s0 evs s1, add_events G A I s0 evs = Ok s1 <-> add_events_st G A I s0 evs = (s1, false).
Proof.
  intros G A I s0 evs s1. unfold add_events, add_events_st. destruct (neg_events I) as [|v l]; [apply fold_throw_ok|].
    set (s0' := fold_left _ _ s0). clearbody s0'.
    pose proof (fold_throw_ok (add_marked G A I) evs s0') as E.
    destruct (fold_throw (add_marked G A I) evs s0') as [s2 b]. destruct b.
    - split; [|discriminate]. intros H. destruct (foldS (add_marked G A I) evs s0') as [s3| | |] eqn:F; try discriminate.
      discriminate (proj1 (E s3) eq_refl).
    - rewrite (proj2 (E s2) eq_refl). simpl bindO. split; intros H; [injection H as <-|injection H as <-]; reflexivity.
Qed.
Lemma decode_st_ok : forall G fuel orc A I s evs s' r,
  decode G fuel orc A I s evs = Ok (s', r) <-> decode_st G fuel orc A I s evs = (s', Answer r).
Proof.
  intros. unfold decode, process_timeline, decode_st. destruct (que (sc s)); [|split; discriminate].
  set (s0 := set_sc s _).
  pose proof (add_events_st_ok G A I s0 evs) as HA.
  destruct (add_events_st G A I s0 evs) as [s1 b]. destruct b.
  - destruct (add_events G A I s0 evs) as [s2| | |] eqn:E; [|split; discriminate..]. discriminate (proj1 (HA s2) eq_refl).
  - rewrite (proj2 (HA s1) eq_refl). cbn [bindO].
    destruct (main_loop G fuel orc A fuel s1) as [s2| | |]; cbn [bindO]; try (split; discriminate).
    destruct (next (ta s2) =? length (free (ta s2))); cbn [bindO]; [|split; discriminate].
    destruct (extract_all fuel A s2 evs) as [x| | |]; cbn [bindO]; try (split; discriminate).
    match goal with |- bindO ?e _ = _ <-> _ => destruct e as [y| | |]; cbn [bindO]; try (split; discriminate) end.
    destruct (res_add (snd x) (snd y)) as [[o w] l]. split; intros H; injection H as <- <-; reflexivity.
Qed.

(** ** A run that never ends *)
Section Loop.
Variable G : graph.
Variable fuel : nat.
Variable orc : nat -> nat.
Variable A : ints.

(** Node [v] is woken at time [T], and looking at it yields the request to be woken at [T] again. *)
Definition stuck (s : state) (v : nat) (T : Z) : Prop :=
  que (sc s) = [(T, INode v)] /\ ntr (sc s) v = M_Tracker.mkT T T true true /\
  exists k t, next_event G s v = Some (k, t) /\ t <> T /\ to_time A T t = T.

Lemma local_radius_ext : forall s s', nd s' = nd s -> rg s' = rg s -> forall v, local_radius s' v = local_radius s v.
Proof. intros s s' H1 H2 v. unfold local_radius. now rewrite H1, H2. Qed.
Lemma scan_ext : forall f g, (forall x, f x = g x) -> forall l i b, scan f i l b = scan g i l b.
Proof. intros f g H. induction l as [|x l IH]; intros i b; simpl; [reflexivity|]. rewrite H. apply IH. Qed.
Lemma next_event_ext : forall s s', nd s' = nd s -> rg s' = rg s -> forall v, next_event G s' v = next_event G s v.
Proof.
  intros s s' H1 H2 v. unfold next_event. rewrite (local_radius_ext s s' H1 H2).
  destruct (is_growing (local_radius s v)); [unfold next_event_growing|unfold next_event_not_growing]; apply scan_ext;
    intros [[[u|] w] o]; try reflexivity; rewrite ?H1, !(local_radius_ext s s' H1 H2); reflexivity.
Qed.

Lemma stuck_forever : forall k s v T, stuck s v T -> run_until_event G fuel orc A k s = Fuel.
Proof.
  induction k as [|k IH]; intros s v T (Hq & Ht & j & t & Hn & Hne & Hc); [reflexivity|]. cbn [run_until_event].
  unfold dequeue. rewrite Hq. cbn [min_time filter fst]. rewrite Z.eqb_refl. cbn [length].
  rewrite Nat.mod_1_r. cbn [nth_error remove_first]. rewrite Z.eqb_refl.
  assert (Ei : item_eqb (INode v) (INode v) = true) by (simpl; apply Nat.eqb_refl). rewrite Ei. cbn [andb].
  unfold decide. set (s1 := set_sc s _).
  assert (E1 : ntr (sc s1) v = M_Tracker.mkT T T true true) by exact Ht. rewrite E1.
  unfold dequeue_decision. cbn [has_queued queued_time has_desired desired_time negb orb]. rewrite Z.eqb_refl. cbn [negb fold_left].
  set (s2 := set_sc s1 _). cbn [process_tentative]. unfold look_at_node.
  rewrite (next_event_ext s s2) by reflexivity. rewrite Hn.
  assert (En : now (sc s2) = T) by reflexivity. rewrite En. destruct (Z.eqb_spec t T); [contradiction|]. cbn [bindO fst snd].
  apply (IH _ v T). unfold want_node. rewrite En, Hc.
  assert (E2 : ntr (sc s2) v = M_Tracker.mkT T T false false) by (unfold s2, set_sc, set_ntr; cbn; unfold upd; now rewrite Nat.eqb_refl).
  rewrite E2. unfold set_desired. cbn [has_queued queued_time negb orb fold_left].
  split; [reflexivity|]. split; [cbn; unfold upd; now rewrite Nat.eqb_refl|].
  exists j, t. split; [|split; assumption]. rewrite (next_event_ext s) by reflexivity. exact Hn.
Qed.

(** [n] queue entries are handled without notification. *)
Fixpoint quiet (n : nat) (s : state) : option state :=
  match n with
  | O => Some s
  | S n' =>
      match dequeue orc s with
      | None => None
      | Some (t, i, s1) =>
          let (keep, s2) := decide s1 t i in
          if keep then
            match process_tentative G fuel A s2 i with
            | Ok (s3, NoEvent) => quiet n' s3
            | _ => None
            end
          else quiet n' s2
      end
  end.
Lemma quiet_run : forall n k s s', quiet n s = Some s' -> run_until_event G fuel orc A (n + k) s = run_until_event G fuel orc A k s'.
Proof.
  induction n as [|n IH]; intros k s s' H; cbn [quiet] in H; [injection H as ->; reflexivity|]. cbn [run_until_event plus].
  destruct (dequeue orc s) as [[[t i] s1]|]; [|discriminate]. destruct (decide s1 t i) as [keep s2]. destruct keep; [|now apply IH].
  destruct (process_tentative G fuel A s2 i) as [[s3 e]| | |]; try discriminate. destruct e; try discriminate. cbn [bindO snd fst]. now apply IH.
Qed.
Definition stuck_at (s : state) (v : nat) : bool :=
  match que (sc s), next_event G s v with
  | [(T, INode u)], Some (_, t) =>
      let x := ntr (sc s) v in
      (u =? v) && (desired_time x =? T)%Z && (queued_time x =? T)%Z && has_desired x && has_queued x &&
      negb (t =? T)%Z && (to_time A T t =? T)%Z
  | _, _ => false
  end.
Lemma stuck_at_spec : forall s v, stuck_at s v = true -> exists T, stuck s v T.
Proof.
  intros s v. unfold stuck_at, stuck. destruct (que (sc s)) as [|[T [u|u]] [|]]; try discriminate.
  destruct (next_event G s v) as [[k t]|]; [|discriminate].
  destruct (ntr (sc s) v) as [d q hd hq]. cbn [desired_time queued_time has_desired has_queued]. intros H.
  apply andb_prop in H as [H H7]. apply andb_prop in H as [H H6]. apply andb_prop in H as [H H5]. apply andb_prop in H as [H H4].
  apply andb_prop in H as [H H3]. apply andb_prop in H as [H1 H2]. apply Nat.eqb_eq in H1. apply Z.eqb_eq in H2, H3, H7. subst.
  exists T. split; [reflexivity|]. split; [reflexivity|]. exists k, t. split; [reflexivity|]. split; [|exact H7].
  intros ->. now rewrite Z.eqb_refl in H6.
Qed.
End Loop.

(** A path of [n] detectors with a boundary edge at its last one. *)
Definition long_path (n : nat) : graph :=
  map (fun i => (if i =? n - 1 then [(None, max_weight, 1%N)] else []) ++
                (if 0 <? i then [(Some (i - 1), max_weight, 0%N)] else []) ++
                (if i <? n - 1 then [(Some (i + 1), max_weight, 0%N)] else [])) (seq 0 n).
Definition no_neg : neg_info := mkNeg [] 0%N 0%Z [].
Definition any : nat -> nat := fun _ => 0.
Lemma overflow_stuck : forall f,
  match quiet (long_path 68) (10 + f) any machine_ints 134
          (create_detection_event (long_path 68) machine_ints
             (set_sc init_state (mkQ (fun _ => tracker_clear) (fun _ => tracker_clear) [] 0%Z 0)) 0) with
  | Some s => existsb (stuck_at (long_path 68) machine_ints s) (seq 0 68)
  | None => false
  end = true.
Proof. intros f. vm_compute. reflexivity. Qed.
Lemma overflow_never_ends : forall fuel, 200 <= fuel -> decode (long_path 68) fuel any machine_ints no_neg init_state [0] = Fuel.
Proof.
  intros fuel H.
    pose proof (overflow_stuck (fuel - 10)) as E. replace (10 + (fuel - 10)) with fuel in E by lia.
    unfold decode, process_timeline. cbn [que sc init_state neg_events no_neg].
    unfold add_events. cbn [neg_events no_neg]. unfold foldS. cbn [fold_left bindO].
    unfold add_plain at 1. change (length (long_path 68) <=? 0) with false. cbn [bindO].
    change (maybe_create (long_path 68) machine_ints no_neg ?s 0) with (create_detection_event (long_path 68) machine_ints s 0).
    set (s1 := create_detection_event _ _ _ _). change (create_detection_event _ _ _ _) with s1 in E. clearbody s1.
    destruct (quiet (long_path 68) fuel any machine_ints 134 s1) as [s2|] eqn:Eq; [|discriminate].
    apply existsb_exists in E as (v & _ & E). apply stuck_at_spec in E as (T & E).
    destruct fuel as [|fuel]; [lia|]. cbn [main_loop].
    replace (S fuel) with (134 + (S fuel - 134)) at 2 by lia. rewrite (quiet_run _ _ _ _ 134 _ s1 s2 Eq), (stuck_forever _ _ _ _ _ _ _ _ E).
    reflexivity.
Qed.
