(** The comparison of cyclic times and the reduction of times modulo 2^32 do no harm, part 1: one call.

    [spy_ints] has exact comparisons, and turns a request outside the window of 2^31 steps into a request in the past.
    If a call made with them leaves no request in the past, the same call with the integers of the code does the same. *)
From Coq Require Import ZArith NArith List Bool Arith Lia.
From Verif Require Import M_Base M_Cyclic P_Cyclic M_RadixHeap M_Varying M_Tracker M_Core M_CoreHeap.
Import ListNotations.
Local Open Scope Z_scope.

Definition window : Z := 2147483648.
Definition spy_ints : ints :=
  mkInts (to_i32 machine_ints) (fun n t => if (n <=? t) && (t <? n + window) then t else n - 1) Z.gtb.

Definition punctual (s : state) : Prop := forall t i, In (t, i) (que (sc s)) -> now (sc s) <= t.
Record good (s : state) : Prop := {
  gd_n : forall v, has_queued (ntr (sc s) v) = true -> In (queued_time (ntr (sc s) v), INode v) (que (sc s));
  gd_r : forall r, has_queued (rtr (sc s) r) = true -> In (queued_time (rtr (sc s) r), IRegion r) (que (sc s));
  gd_up : forall t i, In (t, i) (que (sc s)) -> t < now (sc s) + window;
  gd_dn : forall v, has_queued (ntr (sc s) v) = true -> has_desired (ntr (sc s) v) = true -> queued_time (ntr (sc s) v) <= desired_time (ntr (sc s) v) < now (sc s) + window;
  gd_dr : forall r, has_queued (rtr (sc s) r) = true -> has_desired (rtr (sc s) r) = true -> queued_time (rtr (sc s) r) <= desired_time (rtr (sc s) r) < now (sc s) + window }.
(** Only requests have been added. *)
Record step (s s' : state) : Prop := {
  st_tick : tick (sc s') = tick (sc s);
  st_now : now (sc s') = now (sc s);
  st_que : exists new, que (sc s') = new ++ que (sc s);
  st_good : good s -> good s' }.

Lemma step_sc : forall s s', sc s' = sc s -> step s s'.
Proof.
  intros s s' E. split; rewrite ?E; auto; [exists []; reflexivity|]. intros [A1 A2 A3 A4 A5]. split; rewrite E; assumption.
Qed.
Lemma step_trans : forall a b c, step a b -> step b c -> step a c.
Proof.
  intros a b c [A1 A2 [n1 A3] A4] [B1 B2 [n2 B3] B4]. split; [congruence|congruence| |auto]. exists (n2 ++ n1). rewrite B3, A3. apply app_assoc.
Qed.
Lemma step_punctual : forall s s', step s s' -> punctual s' -> punctual s.
Proof. intros s s' [_ E [new Q] _] H t i Hi. rewrite <- E. apply (H t i). rewrite Q. apply in_or_app. now right. Qed.

Lemma step_ntr : forall s v x, (has_queued x = true -> has_queued (ntr (sc s) v) = true /\ queued_time x = queued_time (ntr (sc s) v) /\
    (has_desired x = true -> has_desired (ntr (sc s) v) = true /\ desired_time x = desired_time (ntr (sc s) v))) -> step s (set_sc s (set_ntr (sc s) v x)).
Proof.
  intros s v x H. split; [reflexivity|reflexivity|exists []; reflexivity|]. intros [A1 A2 A3 A4 A5]. split; cbn [sc set_sc set_ntr ntr rtr que now]; auto.
  - intros u. unfold upd. destruct (Nat.eqb_spec u v) as [->|]; [|apply A1]. intros Hq. destruct (H Hq) as (H1 & -> & _). now apply A1.
  - intros u. unfold upd. destruct (Nat.eqb_spec u v) as [->|]; [|apply A4]. intros Hq Hd. destruct (H Hq) as (H1 & -> & H2). destruct (H2 Hd) as [H3 ->]. now apply A4.
Qed.
Lemma step_rtr : forall s v x, (has_queued x = true -> has_queued (rtr (sc s) v) = true /\ queued_time x = queued_time (rtr (sc s) v) /\
    (has_desired x = true -> has_desired (rtr (sc s) v) = true /\ desired_time x = desired_time (rtr (sc s) v))) -> step s (set_sc s (set_rtr (sc s) v x)).
Proof.
  intros s v x H. split; [reflexivity|reflexivity|exists []; reflexivity|]. intros [A1 A2 A3 A4 A5]. split; cbn [sc set_sc set_rtr ntr rtr que now]; auto.
  - intros u. unfold upd. destruct (Nat.eqb_spec u v) as [->|]; [|apply A2]. intros Hq. destruct (H Hq) as (H1 & -> & _). now apply A2.
  - intros u. unfold upd. destruct (Nat.eqb_spec u v) as [->|]; [|apply A5]. intros Hq Hd. destruct (H Hq) as (H1 & -> & H2). destruct (H2 Hd) as [H3 ->]. now apply A5.
Qed.

Definition sim {X} (s : state) (st : X -> state) (a b : outcome X) : Prop :=
  match a with Ok x => step s (st x) /\ (good s -> punctual (st x) -> b = Ok x) | _ => True end.
Notation sims := (fun s a b => sim s (fun x : state => x) (Ok a) (Ok b)).

Lemma sim_bind : forall X Y s (st : X -> state) (st2 : Y -> state) a b f g, sim s st a b -> (forall x, a = Ok x -> sim (st x) st2 (f x) (g x)) ->
  sim s st2 (bindO a f) (bindO b g).
Proof.
  intros X Y s st st2 a b f g H K. destruct a as [x| | |]; cbn [bindO sim] in *; auto. specialize (K x eq_refl). destruct H as [H1 H2].
  destruct (f x) as [y| | |]; cbn [sim] in *; auto. destruct K as [K1 K2]. split; [eapply step_trans; eassumption|]. intros Hg Hp.
  rewrite H2; [|assumption|eapply step_punctual; eassumption]. cbn [bindO]. apply K2; [now apply (st_good _ _ H1)|assumption].
Qed.
(** ... and a part that touches no requests at all. *)
Lemma sim_skip : forall X Y s (st2 : Y -> state) (a : outcome X) f g, (forall x, a = Ok x -> sim s st2 (f x) (g x)) -> sim s st2 (bindO a f) (bindO a g).
Proof. intros X Y s st2 a f g H. destruct a; cbn [bindO sim]; auto. Qed.
Lemma sim_same : forall X s (st : X -> state) a, (forall x, a = Ok x -> step s (st x)) -> sim s st a a.
Proof. intros X s st a H. destruct a; cbn [sim]; auto. Qed.
Lemma sim_from : forall X s s' (st : X -> state) a b, step s s' -> sim s' st a b -> sim s st a b.
Proof.
  intros X s s' st a b H K. destruct a; cbn [sim] in *; auto. destruct K as [K1 K2]. split; [eapply step_trans; eassumption|]. intros. apply K2; auto. now apply (st_good _ _ H).
Qed.
Lemma sim_sc : forall X s s' (st : X -> state) a b, sc s' = sc s -> sim s' st a b -> sim s st a b.
Proof. intros X s s' st a b H. apply sim_from, step_sc, H. Qed.
Lemma sims_step : forall s a b, sims s a b -> step s a. Proof. intros s a b [H _]. exact H. Qed.
(** A pure step, then the rest. *)
Lemma sim_then : forall X s s1 s2 (st : X -> state) (f g : state -> outcome X), sims s s1 s2 -> sim s1 st (f s1) (g s1) -> sim s st (f s1) (g s2).
Proof.
  intros X s s1 s2 st f g [H1 H2] K. destruct (f s1) as [x| | |] eqn:E; cbn [sim] in *; auto. destruct K as [K1 K2]. split; [eapply step_trans; eassumption|].
  intros Hg Hp. assert (E2 : Ok s2 = Ok s1) by (apply H2; [assumption|eapply step_punctual; eassumption]). injection E2 as ->. apply K2; auto. now apply (st_good _ _ H1).
Qed.
Lemma sim_fold : forall A (f g : state -> A -> outcome state), (forall s a, sim s (fun x => x) (f s a) (g s a)) -> forall l s, sim s (fun x => x) (foldS f l s) (foldS g l s).
Proof.
  intros A f g H l. assert (K : forall s0 a b, sim s0 (fun x => x) a b -> sim s0 (fun x => x) (fold_left (fun o a => bindO o (fun s => f s a)) l a) (fold_left (fun o a => bindO o (fun s => g s a)) l b)).
  { induction l as [|x l IH]; intros s0 a b Hs; [exact Hs|]. cbn [fold_left]. apply IH. eapply sim_bind; [exact Hs|]. intros s1 _. apply H. }
  intros s. apply K. split; [now apply step_sc|auto].
Qed.
Lemma sims_fold : forall A (f g : state -> A -> state), (forall s a, sims s (f s a) (g s a)) -> forall l s, sims s (fold_left f l s) (fold_left g l s).
Proof.
  intros A f g H. induction l as [|x l IH]; intros s; cbn [fold_left]; [split; [now apply step_sc|auto]|].
  apply (sim_then _ s (f s x) (g s x) (fun x => x) (fun s => Ok (fold_left f l s)) (fun s => Ok (fold_left g l s))); [apply H|apply IH].
Qed.

(** ** Requests *)
Lemma cyclic_later : forall n a b, n <= a < n + window -> n <= b < n + window -> later cyclic_ints a b = (a >? b).
Proof.
  intros n a b Ha Hb. unfold window in *. cbn [later cyclic_ints]. unfold cyc_gt, HALF, wrap. change (2 ^ 32) with 4294967296.
  change ((Z.shiftr (-1 mod 4294967296) 1 + 1) mod 4294967296 - 1) with 2147483647.
  rewrite Z.gtb_ltb. destruct (Z.ltb_spec b a).
  - rewrite Z.mod_small by lia. apply Z.ltb_lt. lia.
  - replace (a - b - 1) with (a - b - 1 + 4294967296 + (-1) * 4294967296) by lia. rewrite Z.mod_add by lia. rewrite Z.mod_small by lia. apply Z.ltb_ge. lia.
Qed.
Lemma window_time : forall n t, n <= t < n + window -> to_time spy_ints n t = t /\ to_time cyclic_ints n t = t.
Proof.
  intros n t H. unfold window in *. cbn [to_time spy_ints cyclic_ints machine_ints]. split; [|rewrite Z.mod_small by lia; lia].
  unfold window. destruct (Z.leb_spec n t); [|lia]. destruct (Z.ltb_spec t (n + 2147483648)); [reflexivity|lia].
Qed.
Lemma outside_time : forall n t, ~ n <= t < n + window -> to_time spy_ints n t = n - 1.
Proof.
  intros n t H. cbn [to_time spy_ints]. destruct (Z.leb_spec n t); [|reflexivity]. destruct (Z.ltb_spec t (n + window)); [lia|reflexivity].
Qed.
Lemma spy_lt : forall n t, to_time spy_ints n t < n + window.
Proof.
  intros n t. unfold window. cbn [to_time spy_ints]. unfold window. destruct (Z.leb_spec n t); [|cbn [andb]; lia]. destruct (Z.ltb_spec t (n + 2147483648)); cbn [andb]; lia.
Qed.

Lemma want_node_step : forall s v t, step s (want_node spy_ints s v t).
Proof.
  intros s v t. pose proof (spy_lt (now (sc s)) t) as HL. unfold want_node, set_desired. set (t' := to_time spy_ints (now (sc s)) t) in *. set (x := ntr (sc s) v).
  destruct (negb (has_queued x) || later spy_ints (queued_time x) t') eqn:E; cbn [fold_left]; (split; [reflexivity|reflexivity| |]).
  - exists [(t', INode v)]. reflexivity.
  - intros [A1 A2 A3 A4 A5]. split; cbn [sc set_sc set_ntr enqueue set_que ntr rtr que now].
    + intros u. unfold upd. destruct (Nat.eqb_spec u v) as [->|]; [intros _; now left|]. intros Hu. right. now apply A1.
    + intros r Hr. right. now apply A2.
    + intros a i [Ha|Ha]; [injection Ha as <- <-; exact HL|eapply A3; eassumption].
    + intros u. unfold upd. destruct (Nat.eqb_spec u v) as [->|]; [intros _ _; cbn [queued_time desired_time]; lia|]. apply A4.
    + exact A5.
  - exists []. reflexivity.
  - apply orb_false_iff in E as [E EL]. apply negb_false_iff in E. cbn [later spy_ints] in EL. rewrite Z.gtb_ltb in EL. apply Z.ltb_ge in EL. intros [A1 A2 A3 A4 A5]. split; cbn [sc set_sc set_ntr ntr rtr que now]; auto.
    + intros u. unfold upd. destruct (Nat.eqb_spec u v) as [->|]; [intros _; now apply A1|]. apply A1.
    + intros u. unfold upd. destruct (Nat.eqb_spec u v) as [->|]; [intros _ _; cbn [queued_time desired_time]; lia|]. apply A4.
Qed.
Lemma want_region_step : forall s v t, step s (want_region spy_ints s v t).
Proof.
  intros s v t. pose proof (spy_lt (now (sc s)) t) as HL. unfold want_region, set_desired. set (t' := to_time spy_ints (now (sc s)) t) in *. set (x := rtr (sc s) v).
  destruct (negb (has_queued x) || later spy_ints (queued_time x) t') eqn:E; cbn [fold_left]; (split; [reflexivity|reflexivity| |]).
  - exists [(t', IRegion v)]. reflexivity.
  - intros [A1 A2 A3 A4 A5]. split; cbn [sc set_sc set_rtr enqueue set_que ntr rtr que now].
    + intros r Hr. right. now apply A1.
    + intros u. unfold upd. destruct (Nat.eqb_spec u v) as [->|]; [intros _; now left|]. intros Hu. right. now apply A2.
    + intros a i [Ha|Ha]; [injection Ha as <- <-; exact HL|eapply A3; eassumption].
    + exact A4.
    + intros u. unfold upd. destruct (Nat.eqb_spec u v) as [->|]; [intros _ _; cbn [queued_time desired_time]; lia|]. apply A5.
  - exists []. reflexivity.
  - apply orb_false_iff in E as [E EL]. apply negb_false_iff in E. cbn [later spy_ints] in EL. rewrite Z.gtb_ltb in EL. apply Z.ltb_ge in EL. intros [A1 A2 A3 A4 A5]. split; cbn [sc set_sc set_rtr ntr rtr que now]; auto.
    + intros u. unfold upd. destruct (Nat.eqb_spec u v) as [->|]; [intros _; now apply A2|]. apply A2.
    + intros u. unfold upd. destruct (Nat.eqb_spec u v) as [->|]; [intros _ _; cbn [queued_time desired_time]; lia|]. apply A5.
Qed.
(** Both trackers agree, or a request in the past is made. *)
Lemma desired_same : forall n x t, (has_queued x = true -> n <= queued_time x < n + window) ->
  set_desired (later cyclic_ints) x (to_time cyclic_ints n t) = set_desired (later spy_ints) x (to_time spy_ints n t) \/
  exists y, set_desired (later spy_ints) x (to_time spy_ints n t) = (y, [n - 1]).
Proof.
  intros n x t H. assert (D : n <= t < n + window \/ ~ n <= t < n + window) by lia. destruct D as [D|D].
  - left. destruct (window_time n t D) as [-> ->]. unfold set_desired. destruct (has_queued x) eqn:E; cbn [negb orb]; [|reflexivity].
    rewrite (cyclic_later n _ t (H eq_refl) D). reflexivity.
  - right. rewrite (outside_time n t D). unfold set_desired. destruct (has_queued x) eqn:E; cbn [negb orb]; [|eexists; reflexivity].
    specialize (H eq_refl). cbn [later spy_ints]. rewrite Z.gtb_ltb. destruct (Z.ltb_spec (n - 1) (queued_time x)); [eexists; reflexivity|lia].
Qed.
Lemma want_node_sim : forall s v t, sims s (want_node spy_ints s v t) (want_node cyclic_ints s v t).
Proof.
  intros s v t. split; [apply want_node_step|]. intros Hg Hp. pose proof (step_punctual _ _ (want_node_step s v t) Hp) as Hp0. f_equal.
  assert (D : has_queued (ntr (sc s) v) = true -> now (sc s) <= queued_time (ntr (sc s) v) < now (sc s) + window).
  { intros Hq. pose proof (gd_n _ Hg v Hq) as Hi. split; [exact (Hp0 _ _ Hi)|exact (gd_up _ Hg _ _ Hi)]. }
  unfold want_node in *. destruct (desired_same (now (sc s)) (ntr (sc s) v) t D) as [->|[y E]]; [reflexivity|].
  rewrite E in Hp. exfalso. specialize (Hp (now (sc s) - 1) (INode v) (or_introl eq_refl)). cbn [fold_left enqueue sc set_sc set_que set_ntr now] in Hp. lia.
Qed.
Lemma want_region_sim : forall s v t, sims s (want_region spy_ints s v t) (want_region cyclic_ints s v t).
Proof.
  intros s v t. split; [apply want_region_step|]. intros Hg Hp. pose proof (step_punctual _ _ (want_region_step s v t) Hp) as Hp0. f_equal.
  assert (D : has_queued (rtr (sc s) v) = true -> now (sc s) <= queued_time (rtr (sc s) v) < now (sc s) + window).
  { intros Hq. pose proof (gd_r _ Hg v Hq) as Hi. split; [exact (Hp0 _ _ Hi)|exact (gd_up _ Hg _ _ Hi)]. }
  unfold want_region in *. destruct (desired_same (now (sc s)) (rtr (sc s) v) t D) as [->|[y E]]; [reflexivity|].
  rewrite E in Hp. exfalso. specialize (Hp (now (sc s) - 1) (IRegion v) (or_introl eq_refl)). cbn [fold_left enqueue sc set_sc set_que set_rtr now] in Hp. lia.
Qed.
Lemma sims_refl : forall s s', step s s' -> sims s s' s'. Proof. intros s s' H. split; auto. Qed.
Lemma unwant_node_step : forall s v, step s (unwant_node s v).
Proof. intros s v. apply step_ntr. cbn [set_no_desired has_queued has_desired queued_time desired_time]. intros H. repeat split; auto; discriminate. Qed.
Lemma unwant_region_step : forall s v, step s (unwant_region s v).
Proof. intros s v. apply step_rtr. cbn [set_no_desired has_queued has_desired queued_time desired_time]. intros H. repeat split; auto; discriminate. Qed.

(** ** The functions of M_Core.v *)
Section Sim.
Variable G : graph.
Variable fuel : nat.
Notation S1 := spy_ints.
Notation S2 := cyclic_ints.

Lemma reschedule_sim : forall s v, sims s (reschedule G S1 s v) (reschedule G S2 s v).
Proof. intros s v. unfold reschedule. destruct (next_event G s v) as [[k t]|]; [apply want_node_sim|apply sims_refl, unwant_node_step]. Qed.
Lemma reschedule_all_sim : forall l s, sims s (reschedule_all G S1 s l) (reschedule_all G S2 s l).
Proof. intros l s. unfold reschedule_all. apply sims_fold. intros; apply reschedule_sim. Qed.
Lemma schedule_shrink_sim : forall s r, sims s (schedule_shrink S1 s r) (schedule_shrink S2 s r).
Proof. intros s r. unfold schedule_shrink. apply want_region_sim. Qed.

Lemma set_tops_sc : forall A s r t p ig s', set_tops fuel A s r t p ig = Ok s' -> sc s' = sc s.
Proof.
  intros A s r t p ig s'. unfold set_tops. set (s1 := set_rg s _). change (sc s) with (sc s1). destruct (descendants fuel (rg s1) r) as [l| | |]; cbn [bindO]; try discriminate.
  assert (F : forall X (f : state -> X -> outcome state), (forall s a s', f s a = Ok s' -> sc s' = sc s) -> forall l s s', foldS f l s = Ok s' -> sc s' = sc s).
  { intros X f Hf l0. unfold foldS. assert (K : forall o s', fold_left (fun o a => bindO o (fun s => f s a)) l0 o = Ok s' -> exists s, o = Ok s /\ sc s' = sc s).
    { induction l0 as [|x l0 IH]; intros o s0 H; cbn [fold_left] in H; [eauto|]. apply IH in H as (s2 & H1 & H2). destruct o as [s3| | |]; cbn [bindO] in H1; try discriminate.
      exists s3. split; [reflexivity|]. rewrite H2. eapply Hf; eassumption. }
    intros s0 s0' H. apply K in H as (s2 & H1 & H2). injection H1 as <-. exact H2. }
  apply F. intros s0 d s0' H. unfold set_region_top in H. apply F in H; [rewrite H; reflexivity|].
  intros s2 v s2' H2. unfold set_node_top in H2. destruct ig; [injection H2 as <-; reflexivity|].
  destruct (compute_wrapped_radius _ _ _ _); cbn [bindO] in H2; try discriminate. injection H2 as <-. reflexivity.
Qed.
Lemma wrap_sim : forall s r b, sim s (fun x => x) (wrap_into_blossom fuel S1 s r b) (wrap_into_blossom fuel S2 s r b).
Proof.
  intros s r b. change (wrap_into_blossom fuel S2 s r b) with (wrap_into_blossom fuel S1 s r b). apply sim_same. intros x H. apply step_sc. eapply set_tops_sc, H.
Qed.
Lemma clear_sim : forall s r, sim s (fun x => x) (clear_blossom_parent fuel S1 s r) (clear_blossom_parent fuel S2 s r).
Proof.
  intros s r. change (clear_blossom_parent fuel S2 s r) with (clear_blossom_parent fuel S1 s r). apply sim_same. intros x H. apply step_sc. eapply set_tops_sc, H.
Qed.

Lemma region_created_sim : forall s r v, sims s (region_created G S1 s r v) (region_created G S2 s r v).
Proof. intros s r v. unfold region_created. match goal with |- sim _ _ (Ok (reschedule _ _ ?x _)) _ => apply (sim_sc _ s x); [reflexivity|apply reschedule_sim] end. Qed.
Lemma region_arriving_sim : forall s r v u k, sim s (fun x => x) (region_arriving G fuel S1 s r v u k) (region_arriving G fuel S2 s r v u k).
Proof.
  intros s r v u k. unfold region_arriving. destruct (nth_error _ _) as [[[x w] o]|]; [|exact I].
  match goal with |- sim _ _ (bindO (compute_wrapped_radius _ _ ?z ?v) _) _ => change (compute_wrapped_radius fuel S2 z v) with (compute_wrapped_radius fuel S1 z v) end.
  apply sim_skip. intros y _. match goal with |- sim _ _ (Ok (reschedule _ _ ?x _)) _ => apply (sim_sc _ s x); [reflexivity|apply reschedule_sim] end.
Qed.
Lemma fst_sims : forall X s a b (e : X), sims s a b -> sim s fst (Ok (a, e)) (Ok (b, e)).
Proof. intros X s a b e [H1 H2]. split; [exact H1|]. cbn [fst]. intros Hg Hp. specialize (H2 Hg Hp). injection H2 as ->. reflexivity. Qed.
Lemma sim_ok : forall X s (st : X -> state) a b f, sim s (fun x : state => x) a b -> (forall x, st (f x) = x) -> sim s st (bindO a (fun x => Ok (f x))) (bindO b (fun x => Ok (f x))).
Proof. intros X s st a b f H E. eapply sim_bind; [exact H|]. intros x _. apply sim_same. intros y Hy. injection Hy as <-. rewrite E. now apply step_sc. Qed.
Lemma region_shrinking_sim : forall s r, sim s fst (region_shrinking G fuel S1 s r) (region_shrinking G fuel S2 s r).
Proof.
  intros s r. unfold region_shrinking. 
  assert (K : forall (o : outcome mevent), sim s fst (bindO o (fun e => Ok (s, e))) (bindO o (fun e => Ok (s, e)))).
  { intros o. apply sim_skip. intros e _. apply fst_sims, sims_refl. now apply step_sc. }
  assert (L : forall v rest, sim s fst
    (Ok (schedule_shrink S1 (reschedule G S1 (set_nd (set_rg s (set_shl (rg s) r rest)) (mkN (upd (arr (nd s)) v None) (upd (top (nd s)) v None) (upd (wrp (nd s)) v 0) (upd (src (nd s)) v None) (upd (crs (nd s)) v 0%N) (upd (rar (nd s)) v 0))) v) r, NoEvent))
    (Ok (schedule_shrink S2 (reschedule G S2 (set_nd (set_rg s (set_shl (rg s) r rest)) (mkN (upd (arr (nd s)) v None) (upd (top (nd s)) v None) (upd (wrp (nd s)) v 0) (upd (src (nd s)) v None) (upd (crs (nd s)) v 0%N) (upd (rar (nd s)) v 0))) v) r, NoEvent))).
  { intros v rest. apply fst_sims. set (x := set_nd _ _). apply (sim_sc _ s x); [reflexivity|].
    apply (sim_then _ x (reschedule G S1 x v) (reschedule G S2 x v) (fun x => x) (fun s => Ok (schedule_shrink S1 s r)) (fun s => Ok (schedule_shrink S2 s r))); [apply reschedule_sim|apply schedule_shrink_sim]. }
  destruct (shl (rg s) r) as [|v [|v2 rest]]; [apply K| |apply L]. destruct (chl (rg s) r); [apply K|apply L].
Qed.
Lemma neighbor_interaction_sim : forall s u k v, sim s fst (neighbor_interaction G fuel S1 s u k v) (neighbor_interaction G fuel S2 s u k v).
Proof.
  intros s u k v. unfold neighbor_interaction.
  assert (K : forall X (o : outcome X) f, sim s fst (bindO o (fun x => Ok (s, f x : mevent))) (bindO o (fun x => Ok (s, f x)))).
  { intros X o f. apply sim_skip. intros e _. apply fst_sims, sims_refl. now apply step_sc. }
  destruct (arr (nd s) u), (arr (nd s) v).
  - destruct (nth_error _ _) as [[[x w] o]|]; [|exact I]. apply fst_sims, sims_refl. now apply step_sc.
  - apply sim_skip. intros T _. apply sim_ok; [apply region_arriving_sim|reflexivity].
  - apply sim_skip. intros T _. apply sim_skip. intros j _. apply sim_ok; [apply region_arriving_sim|reflexivity].
  - destruct (nth_error _ _) as [[[x w] o]|]; [|exact I]. apply fst_sims, sims_refl. now apply step_sc.
Qed.
Lemma look_at_node_sim : forall s v, sim s fst (look_at_node G fuel S1 s v) (look_at_node G fuel S2 s v).
Proof.
  intros s v. unfold look_at_node. destruct (next_event G s v) as [[k t]|]; [|apply fst_sims, sims_refl; now apply step_sc].
  destruct (t =? now (sc s)); [|apply fst_sims, want_node_sim].
  set (R := fun A s1 => match nth_error (nbrs G v) k with None => UB | Some (None, _, _) => bindO (hit_boundary G s1 v) (fun e => Ok (s1, e)) | Some (Some u, _, _) => neighbor_interaction G fuel A s1 v k u end).
  apply (sim_then _ s (want_node S1 s v (now (sc s))) (want_node S2 s v (now (sc s))) fst (R S1) (R S2)); [apply want_node_sim|].
  unfold R. destruct (nth_error _ _) as [[[[u|] w] o]|]; [apply neighbor_interaction_sim| |exact I].
  apply sim_skip. intros e _. apply fst_sims, sims_refl. now apply step_sc.
Qed.
Lemma process_tentative_sim : forall s i, sim s fst (process_tentative G fuel S1 s i) (process_tentative G fuel S2 s i).
Proof. intros s [v|r]; [apply look_at_node_sim|apply region_shrinking_sim]. Qed.

(** *** Regions *)
Lemma area_then : forall s l, sim s (fun x => x) (bindO l (fun l => Ok (reschedule_all G S1 s l))) (bindO l (fun l => Ok (reschedule_all G S2 s l))).
Proof. intros s l. apply sim_skip. intros x _. apply reschedule_all_sim. Qed.
Lemma growing_sim : forall s r, sim s (fun x => x) (set_region_growing G fuel S1 s r) (set_region_growing G fuel S2 s r).
Proof.
  intros s r. unfold set_region_growing. match goal with |- context [unwant_region ?x r] => apply (sim_from _ s (unwant_region x r)); [eapply step_trans; [apply (step_sc s x); reflexivity|apply unwant_region_step]|] end. apply area_then.
Qed.
Lemma frozen_sim : forall s r, sim s (fun x => x) (set_region_frozen G fuel S1 s r) (set_region_frozen G fuel S2 s r).
Proof.
  intros s r. unfold set_region_frozen. match goal with |- context [unwant_region ?x r] => apply (sim_from _ s (unwant_region x r)); [eapply step_trans; [apply (step_sc s x); reflexivity|apply unwant_region_step]|] end.
  destruct (is_shrinking _); [apply area_then|]. apply sims_refl. now apply step_sc.
Qed.
Lemma shrinking_sim : forall s r, sim s (fun x => x) (set_region_shrinking fuel S1 s r) (set_region_shrinking fuel S2 s r).
Proof.
  intros s r. unfold set_region_shrinking. match goal with |- context [schedule_shrink S1 ?x r] => apply (sim_sc _ s x); [reflexivity|];
    apply (sim_then _ x (schedule_shrink S1 x r) (schedule_shrink S2 x r) (fun y => y) (fun s2 => bindO (total_area fuel s2 r) (fun l => Ok (fold_left unwant_node l s2))) (fun s2 => bindO (total_area fuel s2 r) (fun l => Ok (fold_left unwant_node l s2)))) end.
  - apply schedule_shrink_sim.
  - apply sim_skip. intros l _. apply (sims_fold _ unwant_node unwant_node). intros; apply sims_refl, unwant_node_step.
Qed.
Lemma absorb_sim : forall b s c, sim s (fun x => x) (absorb_child fuel S1 b s c) (absorb_child fuel S2 b s c).
Proof.
  intros b s c. unfold absorb_child. match goal with |- context [wrap_into_blossom _ S1 ?x _ _] => apply (sim_sc _ s x); [reflexivity|] end.
  eapply sim_bind; [apply wrap_sim|]. intros x _. apply sims_refl, unwant_region_step.
Qed.
Lemma new_region_step : forall s, step s (snd (new_region s)).
Proof.
  intros s. unfold new_region. destruct (alloc (ra s)) as [r a]. cbn [snd]. eapply step_trans; [apply (step_rtr s r tracker_clear); cbn; discriminate|]. now apply step_sc.
Qed.
Lemma create_blossom_sim : forall s cyc, sim s snd (create_blossom G fuel S1 s cyc) (create_blossom G fuel S2 s cyc).
Proof.
  intros s cyc. unfold create_blossom. pose proof (new_region_step s) as N. destruct (new_region s) as [b s1]. cbn [snd] in N. apply (sim_from _ s s1 _ _ _ N).
  match goal with |- context [foldS _ _ ?x] => apply (sim_sc _ s1 x); [reflexivity|] end. eapply sim_bind; [apply sim_fold; intros; apply absorb_sim|]. intros s4 _. apply sim_skip. intros l _.
  destruct (reschedule_all_sim l s4) as [H1 H2]. split; [exact H1|]. cbn [snd]. intros Hg Hp. specialize (H2 Hg Hp). injection H2 as ->. reflexivity.
Qed.
Lemma step_same : forall s, step s s. Proof. intros s. now apply step_sc. Qed.

(** *** Trees *)
Lemma become_root_sc : forall k s a s', become_root k s a = Ok s' -> sc s' = sc s.
Proof.
  induction k as [|k IH]; intros s a s' H; [discriminate|]. cbn [become_root] in H. destruct (par (tr s) a) as [p|]; [|injection H as <-; reflexivity].
  destruct (become_root k s p) as [s1| | |] eqn:E; cbn [bindO] in H; try discriminate. destruct (deref _) as [p1| | |]; cbn [bindO] in H; try discriminate. injection H as <-. cbn. apply (IH _ _ _ E).
Qed.
Lemma prune_sc : forall k s cur stop back o p s' r, prune k s cur stop back o p = Ok (s', r) -> sc s' = sc s.
Proof.
  induction k as [|k IH]; intros s cur stop back o p s' r H; [discriminate|]. cbn [prune] in H. destruct (cur =? stop)%nat; [injection H as <- _; reflexivity|].
  destruct (deref _); cbn [bindO] in H; try discriminate. destruct (deref _); cbn [bindO] in H; try discriminate. destruct (deref _); cbn [bindO] in H; try discriminate.
  destruct (if back then _ else _); cbn [bindO] in H; try discriminate. apply IH in H. rewrite H. reflexivity.
Qed.
Lemma shatter_one_sim : forall s a, sim s (fun x => x) (shatter_one G fuel S1 s a) (shatter_one G fuel S2 s a).
Proof.
  intros s a. unfold shatter_one. eapply (sim_bind _ _ s (fun x : state => x)).
  - destruct (inn (tr s) a) as [i|]; [|apply sims_refl, step_same].
    apply sim_skip. intros o _. match goal with |- context [set_region_frozen _ _ S1 ?x i] => apply (sim_sc _ s x); [reflexivity|] end.
    eapply sim_bind; [apply frozen_sim|]. intros s3 _. apply (sim_bind _ _ s3 (fun x : state => x)); [apply frozen_sim|]. intros s4 _. apply sims_refl. now apply step_sc.
  - intros s1 _. apply sims_refl. destruct (out (tr s1) a); now apply step_sc.
Qed.
Lemma shatter_descendants_sim : forall k s a, sim s (fun x => x) (shatter_descendants G fuel S1 k s a) (shatter_descendants G fuel S2 k s a).
Proof.
  induction k as [|k IH]; intros s a; [exact I|]. cbn [shatter_descendants]. eapply sim_bind; [apply sim_fold; intros; apply IH|]. intros s1 _. apply shatter_one_sim.
Qed.
Lemma become_root_sim : forall k s a, sim s (fun x => x) (become_root k s a) (become_root k s a).
Proof. intros k s a. apply sim_same. intros x H. apply step_sc. eapply become_root_sc, H. Qed.
Lemma tree_hits_boundary_sim : forall s r e, sim s (fun x => x) (tree_hits_boundary G fuel S1 s r e) (tree_hits_boundary G fuel S2 s r e).
Proof.
  intros s r e. unfold tree_hits_boundary. apply sim_skip. intros r' _. apply sim_skip. intros a _.
  eapply sim_bind; [apply become_root_sim|]. intros s1 _. eapply sim_bind; [apply shatter_descendants_sim|]. intros s2 _.
  match goal with |- context [set_region_frozen _ _ S1 ?x _] => apply (sim_sc _ s2 x); [reflexivity|] end. apply frozen_sim.
Qed.
Lemma tree_hits_boundary_match_sim : forall s r1 r2 e, sim s (fun x => x) (tree_hits_boundary_match G fuel S1 s r1 r2 e) (tree_hits_boundary_match G fuel S2 s r1 r2 e).
Proof.
  intros s r1 r2 e. unfold tree_hits_boundary_match. apply sim_skip. intros a _. match goal with |- context [set_region_frozen _ _ S1 ?x _] => apply (sim_sc _ s x); [reflexivity|] end.
  eapply sim_bind; [apply frozen_sim|]. intros s1 _. eapply sim_bind; [apply become_root_sim|]. intros s2 _. apply shatter_descendants_sim.
Qed.
Lemma tree_hits_other_tree_sim : forall s r1 r2 e, sim s (fun x => x) (tree_hits_other_tree G fuel S1 s r1 r2 e) (tree_hits_other_tree G fuel S2 s r1 r2 e).
Proof.
  intros s r1 r2 e. unfold tree_hits_other_tree. apply sim_skip. intros a _. apply sim_skip. intros b _.
  eapply sim_bind; [apply become_root_sim|]. intros s1 _. eapply sim_bind; [apply become_root_sim|]. intros s2 _.
  eapply sim_bind; [apply shatter_descendants_sim|]. intros s3 _. eapply sim_bind; [apply shatter_descendants_sim|]. intros s4 _.
  match goal with |- context [set_region_frozen _ _ S1 ?x _] => apply (sim_sc _ s4 x); [reflexivity|] end.
  eapply sim_bind; [apply frozen_sim|]. intros s5 _. apply frozen_sim.
Qed.
Lemma make_child_sc : forall s p i o e ce, sc (snd (make_child s p i o e ce)) = sc s.
Proof. intros s p i o e ce. unfold make_child, new_tree_node. destruct (alloc (ta s)). reflexivity. Qed.
Lemma tree_hits_match_sim : forall s r1 r2 e, sim s (fun x => x) (tree_hits_match G fuel S1 s r1 r2 e) (tree_hits_match G fuel S2 s r1 r2 e).
Proof.
  intros s r1 r2 e. unfold tree_hits_match. apply sim_skip. intros a _. apply sim_skip. intros o _.
  pose proof (make_child_sc s a r2 o (medge (ma s) r2) e) as E. destruct (make_child _ _ _ _ _ _) as [c s1]. cbn [snd] in E. apply (sim_sc _ s s1 _ _ _ E).
  apply sim_skip. intros o2 _. match goal with |- context [set_region_shrinking _ S1 ?x _] => apply (sim_sc _ s1 x); [reflexivity|] end.
  eapply sim_bind; [apply shrinking_sim|]. intros s3 _. apply growing_sim.
Qed.
Lemma fold_sc : forall X (f : state -> X -> state), (forall s x, sc (f s x) = sc s) -> forall l s, sc (fold_left f l s) = sc s.
Proof. intros X f H. induction l as [|x l IH]; intros s; cbn [fold_left]; [reflexivity|]. now rewrite IH. Qed.
Lemma tree_hits_self_sim : forall s r1 r2 e c, sim s (fun x => x) (tree_hits_self G fuel S1 s r1 r2 e c) (tree_hits_self G fuel S2 s r1 r2 e c).
Proof.
  intros s r1 r2 e c. unfold tree_hits_self. apply sim_skip. intros a1 _. apply sim_skip. intros a2 _.
  apply sim_skip. intros [s1 [orph1 path1]] H1. apply prune_sc in H1. apply sim_skip. intros [s2 [orph2 path2]] H2. apply prune_sc in H2.
  apply (sim_sc _ s s2); [congruence|]. apply sim_skip. intros o _. match goal with |- context [create_blossom _ _ S1 ?x _] => apply (sim_sc _ s2 x); [reflexivity|] end.
  eapply sim_bind; [apply create_blossom_sim|]. intros [b s4] _. cbn [snd]. apply sims_refl. apply step_sc. rewrite fold_sc by reflexivity. reflexivity.
Qed.
Lemma grow_path_sim : forall seg s cur ce, sim s fst (grow_path G fuel S1 s cur ce seg) (grow_path G fuel S2 s cur ce seg).
Proof.
  intros seg s cur ce. unfold grow_path.
  set (F := fun A acc (x : nat * nat * cedge * cedge) => bindO acc (fun st : state * (nat * cedge) => let '(s, (cur, ce)) := st in let '(i, o, e, ce') := x in
     let (c, s1) := make_child s cur i o e ce in bindO (set_region_shrinking fuel A s1 i) (fun s2 => bindO (set_region_growing G fuel A s2 o) (fun s3 => Ok (s3, (c, ce')))))).
  change (sim s fst (fold_left (F S1) seg (Ok (s, (cur, ce)))) (fold_left (F S2) seg (Ok (s, (cur, ce))))).
  assert (K : forall a b, sim s fst a b -> sim s fst (fold_left (F S1) seg a) (fold_left (F S2) seg b)).
  { induction seg as [|x seg IH]; intros a b H; [exact H|]. cbn [fold_left]. apply IH. unfold F at 1 2. eapply sim_bind; [exact H|].
    intros [s0 [cur0 ce0]] _. destruct x as [[[i o] e] ce']. cbn [fst]. pose proof (make_child_sc s0 cur0 i o e ce0) as E. destruct (make_child _ _ _ _ _ _) as [c s1]. cbn [snd] in E.
    apply (sim_sc _ s0 s1 _ _ _ E). eapply sim_bind; [apply shrinking_sim|]. intros s2 _. apply sim_ok; [apply growing_sim|reflexivity]. }
  apply K. apply fst_sims, sims_refl, step_same.
Qed.
Lemma match_pair_sim : forall s x, sim s (fun x => x) (match_pair G fuel S1 s x) (match_pair G fuel S2 s x).
Proof.
  intros s [[i o] e]. unfold match_pair. set (s1 := add_match s i o e). apply (sim_sc _ s s1); [reflexivity|]. apply sim_skip. intros l1 _.
  apply (sim_then _ s1 (reschedule_all G S1 s1 l1) (reschedule_all G S2 s1 l1) (fun x => x) (fun s2 => bindO (total_area fuel s2 o) (fun l2 => Ok (reschedule_all G S1 s2 l2))) (fun s2 => bindO (total_area fuel s2 o) (fun l2 => Ok (reschedule_all G S2 s2 l2)))); [apply reschedule_all_sim|apply area_then].
Qed.
Lemma shatter_blossom_sim : forall s b x y, sim s (fun x => x) (shatter_blossom G fuel S1 s b x y) (shatter_blossom G fuel S2 s b x y).
Proof.
  intros s b x y. unfold shatter_blossom. eapply sim_bind; [apply sim_fold; intros; apply clear_sim|]. intros s1 _.
  apply sim_skip. intros ba _. apply sim_skip. intros p _. destruct (split_cycle _ _ _) as [pairs seg].
  match goal with |- context [grow_path _ _ S1 ?x _ _ _] => apply (sim_sc _ s1 x); [reflexivity|] end.
  eapply sim_bind; [apply grow_path_sim|]. intros [s3 [cur ce']] _. cbn [fst].
  eapply sim_bind; [apply sim_fold; intros; apply match_pair_sim|]. intros s4 _.
  match goal with |- context [set_region_shrinking _ S1 ?x _] => apply (sim_sc _ s4 x); [reflexivity|] end.
  eapply sim_bind; [apply shrinking_sim|]. intros s6 _. apply sims_refl. now apply step_sc.
Qed.
Lemma mrca_sc : forall s a b s' o, most_recent_common_ancestor fuel s a b = Ok (s', o) -> sc s' = sc s.
Proof.
  intros s a b s' o H. unfold most_recent_common_ancestor in H. destruct (mrca_climb _ _ _ _) as [[t c]| | |]; cbn [bindO snd fst] in H; try discriminate.
  destruct c as [c|]; [|injection H as <- _; reflexivity]. destruct (mrca_clean _ _ _); cbn [bindO] in H; try discriminate. injection H as <- _. reflexivity.
Qed.
Lemma region_hits_region_sim : forall s r1 r2 e, sim s (fun x => x) (region_hits_region G fuel S1 s r1 r2 e) (region_hits_region G fuel S2 s r1 r2 e).
Proof.
  intros s r1 r2 e. unfold region_hits_region. apply sim_skip. intros q1 _. apply sim_skip. intros q2 _. destruct (alt (ma s) q1) as [a1|], (alt (ma s) q2) as [a2|].
  - apply sim_skip. intros [s' [c|]] H; apply mrca_sc in H; cbn [fst snd]; apply (sim_sc _ s s' _ _ _ H); [apply tree_hits_self_sim|apply tree_hits_other_tree_sim].
  - destruct (mreg _ _); [apply tree_hits_match_sim|apply tree_hits_boundary_match_sim].
  - destruct (mreg _ _); [apply tree_hits_match_sim|apply tree_hits_boundary_match_sim].
  - destruct (mreg _ _); [apply tree_hits_match_sim|apply tree_hits_boundary_match_sim].
Qed.
Lemma process_event_sim : forall s e, sim s (fun x => x) (process_event G fuel S1 s e) (process_event G fuel S2 s e).
Proof.
  intros s [|r1 r2 e|r e|b x y]; cbn [process_event]; [apply sims_refl, step_same|apply region_hits_region_sim|apply tree_hits_boundary_sim|apply shatter_blossom_sim].
Qed.

(** *** Detection events *)
Variable I : neg_info.
Lemma create_sim : forall s v, sims s (create_detection_event G S1 s v) (create_detection_event G S2 s v).
Proof.
  intros s v. unfold create_detection_event. pose proof (new_region_step s) as N. destruct (new_region s) as [r s1]. cbn [snd] in N. apply (sim_from _ s s1 _ _ _ N).
  unfold new_tree_node. destruct (alloc (ta s1)) as [a sl]. match goal with |- context [region_created _ S1 ?x _ _] => apply (sim_sc _ s1 x); [reflexivity|] end. apply region_created_sim.
Qed.
Lemma maybe_sim : forall s v, sims s (maybe_create G S1 I s v) (maybe_create G S2 I s v).
Proof. intros s v. unfold maybe_create. destruct (nth v (is_bnd I) false); [apply sims_refl, step_same|apply create_sim]. Qed.
Lemma mark_step : forall s v x, step s (set_mark s v x). Proof. intros. now apply step_sc. Qed.
Lemma add_events_sim : forall s evs, sim s (fun x => x) (add_events G S1 I s evs) (add_events G S2 I s evs).
Proof.
  intros s evs. unfold add_events. destruct (neg_events I) as [|z l] eqn:En.
  - apply sim_fold. intros s0 v. unfold add_plain. destruct (length G <=? v)%nat; [exact Logic.I|apply maybe_sim].
  - rewrite <- En. clear En. apply (sim_from _ s (fold_left (fun s v => set_mark s v 1) (neg_events I) s)); [apply step_sc, fold_sc; reflexivity|].
    eapply sim_bind.
    + apply sim_fold. intros s0 v. unfold add_marked. destruct (length G <=? v)%nat; [exact Logic.I|]. destruct (rar (nd s0) v =? 0); [apply maybe_sim|apply sims_refl, mark_step].
    + intros s2 _. apply sims_fold. intros s0 v. unfold add_left. destruct (rar (nd s0) v =? 0); [apply sims_refl, step_same|].
      apply (sim_from _ s0 (set_mark s0 v 0)); [apply mark_step|apply create_sim].
Qed.
End Sim.
