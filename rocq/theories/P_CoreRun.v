(** Invariants of the decoder's core: the flooder runs only until something happens. *)
From Coq Require Import ZArith NArith List Bool Arith Lia Permutation.
From Verif Require Import M_Base M_Varying M_Tracker M_Core S_Core S_Tree P_Sum P_Up P_Tree P_Tree2 P_CoreGeo P_CoreSched P_CoreArea P_CoreRad P_CoreQueue P_CoreFlood P_CoreStep P_CoreRoles P_Ends P_CoreHalt P_CoreTops.
Import ListNotations.
Local Open Scope nat_scope.

Lemma safe_and : forall A (m : outcome A) (P Q : A -> Prop), safe m P -> safe m Q -> safe m (fun x => P x /\ Q x).
Proof. intros A [a| | |] P Q H1 H2; cbn [safe] in *; auto. Qed.

(** ** Lexicographic orders *)
Definition lex {X} (f : X -> nat) (Q : X -> X -> Prop) (y x : X) : Prop := f y < f x \/ (f y <= f x /\ Q y x).
Lemma lex_wf : forall X (f : X -> nat) (Q : X -> X -> Prop), well_founded Q -> well_founded (lex f Q).
Proof.
  intros X f Q HQ. assert (W : forall n x, f x < n -> Acc (lex f Q) x).
  { induction n as [|n IH]; intros x Hx; [lia|]. revert Hx. induction (HQ x) as [x _ IHx]. intros Hx. constructor. intros y [Hy|[Hy Hq]].
    - apply IH. lia.
    - apply (IHx y Hq). lia. }
  intros x. apply (W (S (f x))). lia.
Qed.
Lemma ltof_wf : forall X (f : X -> nat), well_founded (fun y x => f y < f x).
Proof. intros X f. apply (Wf_nat.well_founded_ltof X f). Qed.

(** ** Sums *)
Definition total {X} (f : X -> nat) (l : list X) : nat := list_sum (map f l).
Lemma total_le : forall X (f g : X -> nat) l, (forall x, In x l -> f x <= g x) -> total f l <= total g l.
Proof.
  intros X f g l. unfold total. induction l as [|a l IH]; intros H; [cbn; lia|]. cbn [map list_sum fold_right].
  pose proof (H a (or_introl eq_refl)). specialize (IH (fun x Hx => H x (or_intror Hx))). unfold list_sum in IH. lia.
Qed.
Lemma total_eq : forall X (f g : X -> nat) l, (forall x, In x l -> f x = g x) -> total f l = total g l.
Proof. intros X f g l H. apply Nat.le_antisymm; apply total_le; intros x Hx; rewrite (H x Hx); auto. Qed.
Lemma total_lt : forall X (f g : X -> nat) l x, (forall x, In x l -> f x <= g x) -> In x l -> f x < g x -> total f l < total g l.
Proof.
  intros X f g l x. induction l as [|a l IH]; intros H Hi Hx; [destruct Hi|].
  pose proof (total_le _ f g l (fun x Hx => H x (or_intror Hx))) as Hl. pose proof (H a (or_introl eq_refl)) as Ha.
  unfold total in *. cbn [map list_sum fold_right]. unfold list_sum in *. destruct Hi as [->|Hi]; [lia|].
  specialize (IH (fun x Hx => H x (or_intror Hx)) Hi Hx). lia.
Qed.

Section Run.
Variable G : graph.
Context {NI : ints}.
Hypothesis WF : wf_graph G.
Notation N := (length G).

(** How far the flood is from done. *)
Definition wR (s : state) (v : nat) : nat :=
  match arr (nd s) v with None => 1 | Some _ => if (nsl s v =? -1)%Z then 2 else 0 end.
Definition mR (s : state) : nat := total (wR s) (seq 0 N).
Definition late (s : state) (v : nat) : nat :=
  if has_desired (ntr (sc s) v) then
    match next_event G s v with Some (_, t) => if (desired_time (ntr (sc s) v) =? t)%Z then 0 else 1 | None => 1 end
  else 0.
Definition mA (s : state) : nat := total (late s) (seq 0 N).
Definition behind (x : tracker) : nat := if has_desired x && (queued_time x <? desired_time x)%Z then 1 else 0.
Definition mL (ls : list nat) (s : state) : nat := total (fun v => behind (ntr (sc s) v)) (seq 0 N) + total (fun r => behind (rtr (sc s) r)) ls.
Definition less (ls : list nat) : state -> state -> Prop :=
  lex mR (lex mA (lex (mL ls) (fun y x => length (que (sc y)) < length (que (sc x))))).
Lemma less_wf : forall ls, well_founded (less ls).
Proof. intros ls. apply lex_wf, lex_wf, lex_wf, ltof_wf. Qed.

Lemma remove_first_length : forall t i q, In (t, i) q -> S (length (remove_first t i q)) = length q.
Proof.
  intros t i. induction q as [|[t' i'] q IH]; intros H; [destruct H|]. cbn [remove_first length].
  destruct ((t =? t')%Z && item_eqb i i') eqn:E; [reflexivity|]. cbn [length]. f_equal. apply IH. destruct H as [H|H]; [|assumption].
  injection H as -> ->. rewrite Z.eqb_refl in E. cbn [andb] in E. exfalso. assert (T : item_eqb i i = true) by now apply item_eqb_spec. congruence.
Qed.

Lemma mR_sc : forall s q, mR (set_sc s q) = mR s. Proof. reflexivity. Qed.

Lemma total_upd : forall A (f : nat -> A) (g : A -> nat) v x l, (forall y, In y l -> y = v -> g x <= g (f v)) ->
  total (fun u => g (upd f v x u)) l <= total (fun u => g (f u)) l.
Proof. intros A f g v x l H. apply total_le. intros y Hy. unfold upd. destruct (Nat.eqb_spec y v) as [->|]; [apply (H v Hy eq_refl)|lia]. Qed.
Lemma total_upd_lt : forall A (f : nat -> A) (g : A -> nat) v x l, In v l -> g x < g (f v) ->
  total (fun u => g (upd f v x u)) l < total (fun u => g (f u)) l.
Proof.
  intros A f g v x l Hi H. apply (total_lt _ _ _ _ v); [|assumption|now rewrite upd_same].
  intros y Hy. unfold upd. destruct (Nat.eqb_spec y v) as [->|]; lia.
Qed.

Lemma decide_less : forall ev s ls ch, Geo G ev s ls ch -> sched G ls nobody nobody s ->
  forall orc t i s1, dequeue orc s = Some (t, i, s1) ->
  let (keep, s2) := decide s1 t i in
  if keep then
    match i with
    | INode v => v < N /\ has_desired (ntr (sc s) v) = true /\ desired_time (ntr (sc s) v) = t /\
       exists x q, s2 = set_sc s q /\ now q = t /\ ntr q = upd (ntr (sc s)) v x /\ has_desired x = false
    | IRegion r => exists q, s2 = set_sc s q
    end
  else less ls s2 s.
Proof.
  intros ev s ls ch HGeo HQ orc t i s1 E. pose proof (dequeue_spec orc s) as DS. rewrite E in DS. destruct DS as (Hi & _ & ->).
  pose proof (remove_first_length t i _ Hi) as HL. unfold decide. cbn [sc set_sc ntr rtr].
  destruct i as [v|r]; unfold dequeue_decision.
  - assert (Hv := q_node _ _ _ _ _ HQ _ _ Hi). set (tk := ntr (sc s) v).
    destruct (negb (has_queued tk) || negb (t =? queued_time tk)%Z) eqn:C1.
    { cbn [fold_left]. right. split; [apply Nat.le_refl|]. right. split.
      { apply total_le. intros u Hu. unfold late. cbn [sc set_sc set_ntr ntr]. unfold upd. destruct (Nat.eqb_spec u v) as [->|]; apply Nat.le_refl. }
      right. split; [|cbn [sc set_sc set_ntr que]; lia].
      unfold mL. cbn [sc set_sc set_ntr ntr rtr]. apply Nat.add_le_mono; [|lia]. apply total_upd. intros. apply Nat.le_refl. }
    apply orb_false_iff in C1 as [C1 C2]. apply negb_false_iff in C1, C2. apply Z.eqb_eq in C2.
    destruct (has_desired tk) eqn:C3; cbn [negb].
    2:{ cbn [fold_left]. right. split; [apply Nat.le_refl|]. right. split.
      { apply total_le. intros u Hu. unfold late. cbn [sc set_sc set_ntr ntr]. unfold upd. destruct (Nat.eqb_spec u v) as [->|]; [cbn [has_desired]; lia|apply Nat.le_refl]. }
      right. split; [|cbn [sc set_sc set_ntr que]; lia].
      unfold mL. cbn [sc set_sc set_ntr ntr rtr]. apply Nat.add_le_mono; [|lia]. apply total_upd. intros. unfold behind at 1. cbn [has_desired andb]. lia. }
    destruct (q_nd _ _ _ _ _ HQ v Hv C3) as [_ Hqd]. fold tk in Hqd.
    destruct (Z.eqb_spec t (desired_time tk)) as [C4|C4]; cbn [negb].
    + cbn [fold_left]. split; [assumption|]. split; [first [assumption|reflexivity]|]. split; [congruence|]. eexists _, _. split; [reflexivity|]. split; [reflexivity|]. split; reflexivity.
    + cbn [fold_left]. right. split; [apply Nat.le_refl|]. right. split.
      { apply total_le. intros u Hu. unfold late. cbn [sc set_sc set_ntr ntr enqueue set_que]. unfold upd. destruct (Nat.eqb_spec u v) as [->|]; [|apply Nat.le_refl].
        cbn [has_desired desired_time]. fold tk. rewrite C3. apply Nat.le_refl. }
      left. unfold mL. cbn [sc set_sc set_ntr ntr rtr enqueue set_que]. apply Nat.add_lt_le_mono; [|lia]. apply total_upd_lt; [apply in_seq; lia|].
      unfold behind. fold tk. cbn [has_desired queued_time desired_time]. rewrite C3, Z.ltb_irrefl. cbn [andb].
      destruct (Z.ltb_spec (queued_time tk) (desired_time tk)); lia.
  - set (tk := rtr (sc s) r).
    destruct (negb (has_queued tk) || negb (t =? queued_time tk)%Z) eqn:C1.
    { cbn [fold_left]. right. split; [apply Nat.le_refl|]. right. split; [apply Nat.le_refl|].
      right. split; [|cbn [sc set_sc set_rtr que]; lia].
      unfold mL. cbn [sc set_sc set_rtr ntr rtr]. apply Nat.add_le_mono; [lia|]. apply total_upd. intros. apply Nat.le_refl. }
    apply orb_false_iff in C1 as [C1 C2]. apply negb_false_iff in C1, C2. apply Z.eqb_eq in C2.
    destruct (has_desired tk) eqn:C3; cbn [negb].
    2:{ cbn [fold_left]. right. split; [apply Nat.le_refl|]. right. split; [apply Nat.le_refl|].
      right. split; [|cbn [sc set_sc set_rtr que]; lia].
      unfold mL. cbn [sc set_sc set_rtr ntr rtr]. apply Nat.add_le_mono; [lia|]. apply total_upd. intros. unfold behind at 1. cbn [has_desired andb]. lia. }
    assert (Hr := q_live _ _ _ _ _ HQ _ _ Hi C3). destruct (q_rd _ _ _ _ _ HQ r Hr C3) as [_ Hqd]. fold tk in Hqd.
    destruct (Z.eqb_spec t (desired_time tk)) as [C4|C4]; cbn [negb].
    + cbn [fold_left]. eexists. reflexivity.
    + cbn [fold_left]. right. split; [apply Nat.le_refl|]. right. split; [apply Nat.le_refl|].
      left. unfold mL. cbn [sc set_sc set_rtr ntr rtr enqueue set_que]. apply Nat.add_le_lt_mono; [lia|]. apply total_upd_lt; [assumption|].
      unfold behind. fold tk. cbn [has_desired queued_time desired_time]. rewrite C3, Z.ltb_irrefl. cbn [andb].
      destruct (Z.ltb_spec (queued_time tk) (desired_time tk)); lia.
Qed.

(** Nodes other than [v] keep their weight. *)
Lemma mR_one : forall s s' v, v < N -> (forall x, x <> v -> arr (nd s') x = arr (nd s) x /\ local_radius s' x = local_radius s x) ->
  wR s' v < wR s v -> mR s' < mR s.
Proof.
  intros s s' v Hv Hx Hw. apply (total_lt _ _ _ _ v); [|apply in_seq; lia|assumption].
  intros x _. destruct (Nat.eq_dec x v) as [->|Hne]; [lia|]. unfold wR, nsl. destruct (Hx x Hne) as [-> ->]. lia.
Qed.

Lemma region_arriving_raw : forall s fuel T v u idx w o, nth_error (nbrs G u) idx = Some (Some v, w, o) -> btop (rg s) T = Some T -> src (nd s) u <> None ->
  match region_arriving G fuel NI s T v u idx with
  | Ok s' => arr (nd s') v = Some T /\ top (nd s') v = Some T /\ rad (rg s') = rad (rg s) /\
      (forall x, x <> v -> arr (nd s') x = arr (nd s) x /\ local_radius s' x = local_radius s x)
  | Fuel => fuel = 0
  | _ => False
  end.
Proof.
  intros s fuel T v u idx w o Hnth BT P1. unfold region_arriving. rewrite Hnth. unfold compute_wrapped_radius. cbn [nd set_nd src arr top]. rewrite upd_same.
  destruct (src (nd s) u) as [p|]; [|congruence].
  cbn [rg set_nd]. rewrite !upd_same, BT. destruct fuel as [|k]; [reflexivity|]. cbn [wrapped_loop]. rewrite Nat.eqb_refl. cbn [bindO].
  set (s2 := set_rg _ _). destruct (only_sc_reschedule G s2 v) as (q & Eq & _).
  change (match Ok (reschedule G NI s2 v) with Ok s' => arr (nd s') v = Some T /\ top (nd s') v = Some T /\ rad (rg s') = rad (rg s) /\
      (forall x, x <> v -> arr (nd s') x = arr (nd s) x /\ local_radius s' x = local_radius s x) | Fuel => S k = 0 | _ => False end).
  cbv beta iota. rewrite Eq. cbn [nd rg set_sc s2 set_rg set_nd set_wrp arr top set_shl rad]. rewrite !upd_same. split; [reflexivity|]. split; [reflexivity|]. split; [reflexivity|].
  intros x Hx. unfold local_radius. cbn [nd rg set_sc s2 set_rg set_nd set_wrp arr top wrp set_shl rad]. rewrite !upd_other by assumption. split; reflexivity.
Qed.

Lemma region_arriving_less : forall ev {FI : fine NI G ev} s ls ch, Geo G ev s ls ch -> sched G ls nobody nobody s ->
  forall T v u idx w o, nth_error (nbrs G u) idx = Some (Some v, w, o) -> arr (nd s) v = None -> top (nd s) u = Some T ->
  nsl s u = 1%Z -> rho (nd s) ch (rval (rg s) (now (sc s))) u = w ->
  stops (fun f => region_arriving G f NI s T v u idx) /\
  forall f, safe (region_arriving G f NI s T v u idx) (fun s' => mR s' < mR s).
Proof.
  intros ev FI s ls ch HGeo HQ T v u idx w o Hnth Av Tu Su Hw. pose proof (proj1 HGeo) as HG.
  assert (Hin := nth_error_In _ _ Hnth). destruct (nbr_bound G WF _ _ _ _ Hin) as [Hu Hv]. specialize (Hv v eq_refl).
  destruct (top_spec G ev s ls ch HGeo u T Hu Tu) as (R & Au & ET & HR & HTR & HT & HTb).
  destruct (g_walk _ _ _ _ _ _ _ HG u R Hu Au) as (p & P1 & P2 & _).
  assert (BT : btop (rg s) T = Some T).
  { rewrite (g_btop _ _ _ _ _ _ _ HG T HT). f_equal. apply (root_none _ _ ch (g_up _ _ _ _ _ _ _ HG) T HT HTb). }
  assert (P1' : src (nd s) u <> None) by congruence.
  split.
  - apply (stops_ext _ _ (fun _ => region_arriving G 1 NI s T v u idx) 1).
    + intros [|f] Hf; [lia|]. unfold region_arriving. rewrite Hnth. unfold compute_wrapped_radius. cbn [nd set_nd src arr top]. rewrite upd_same, P1.
      cbn [rg set_nd]. rewrite !upd_same, BT. cbn [wrapped_loop]. rewrite Nat.eqb_refl. reflexivity.
    + apply stops_ret. pose proof (region_arriving_raw s 1 T v u idx w o Hnth BT P1') as H. intros E. rewrite E in H. discriminate.
  - intros f. pose proof (region_arriving_raw s f T v u idx w o Hnth BT P1') as H.
    pose proof (region_arriving_spec G WF ev s ls ch f HGeo HQ T v u idx w o Hnth Av Tu Su Hw) as S.
    destruct (region_arriving G f NI s T v u idx) as [s'| | |]; cbn [safe] in *; try contradiction; [|exact I].
    destruct S as (_ & G' & _). destruct H as (H1 & H2 & H3 & H4). apply (mR_one s s' v Hv H4). unfold wR. rewrite Av, H1.
    rewrite (nsl_top_slope G ev s' ls ch G' v T Hv H2), H3. rewrite <- (nsl_top_slope G ev s ls ch HGeo u T Hu Tu), Su. cbn. lia.
Qed.

(** Looking at a node makes progress. *)
Lemma look_at_node_stops : forall ev {FI : fine NI G ev} s ls ch, Geo G ev s ls ch -> forall v, v < N -> nsl s v <> (-1)%Z -> sched G ls (one v) nobody s ->
  stops (fun f => look_at_node G f NI s v) /\
  forall f, safe (look_at_node G f NI s v) (fun r => snd r = NoEvent ->
    mR (fst r) < mR s \/
    ((next_event G s v = None /\ fst r = s) \/
     exists k t, next_event G s v = Some (k, t) /\ t <> now (sc s) /\ timely NI (now (sc s)) t /\ fst r = want_node NI s v t)).
Proof.
  intros ev FI s ls ch HGeo v Hv Nv HQ. unfold look_at_node.
  pose proof (Geo_lrok G ev s ls ch HGeo) as LRK. pose proof (Geo_ontime G WF ev s ls ch HGeo) as OT.
  pose proof (next_event_spec G WF s v LRK Nv) as NE. destruct (next_event G s v) as [[k t]|] eqn:ENE.
  2:{ split; [apply stops_ok|]. intros f. cbn [safe fst snd]. auto. }
  destruct NE as [(x & w & o & Hn & Ha) Hmin].
  assert (Hin := nth_error_In _ _ Hn).
  assert (Dn : forall s', sched G ls (fun u => one v u /\ u <> v) nobody s' -> sched G ls nobody nobody s').
  { intros s' H. eapply sched_D; [exact H| | |exact WF]; [|auto]. intros z _ [Hz Hz']. exact (Hz' Hz). }
  destruct (Z.eqb_spec t (now (sc s))) as [->|Hne].
  2:{ split; [apply stops_ok|]. intros f. cbn [safe fst snd]. intros _. right. right. exists k, t. split; [reflexivity|]. split; [assumption|]. split; [|reflexivity]. eapply (fine_w (NI := NI)); [exact Hin|eapply OT; eauto]. }
  pose proof (fine_n (NI := NI) (G := G) (ev := ev) (now (sc s))) as En.
  pose proof (sched_want G WF ls _ _ s v (now (sc s)) HQ Hv Nv ltac:(lia) En Hmin) as HQ1. apply Dn in HQ1. clear Dn.
  destruct (want_node_eq s v (now (sc s)) En) as (xx & q & E & _). rewrite E in *. set (s1 := set_sc s _) in *.
  assert (HGeo1 : Geo G ev s1 ls ch) by exact HGeo.
  assert (ER : mR s = mR s1) by reflexivity. rewrite ER. clear ER.
  assert (Ha1 : appr s1 v x w = Some (now (sc s1))) by exact Ha. clear E. clearbody s1. clear Ha. rewrite Hn.
  pose proof (proj1 HGeo1) as HG1. pose proof (appr_geo G WF ev s1 ls ch HGeo1 v x w o _ Hin Ha1) as AG.
  destruct x as [u|].
  - destruct (nbr_bound G WF _ _ _ _ Hin) as [_ Hu]. specialize (Hu u eq_refl). destruct AG as (Ht & Hs & Hs1 & Hs2).
    unfold neighbor_interaction. destruct (arr (nd s1) v) as [Rv|] eqn:Av, (arr (nd s1) u) as [Ru|] eqn:Au.
    + rewrite Hn. split; [apply stops_ok|]. intros f. cbn [safe fst snd]. discriminate.
    + pose proof (g_top _ _ _ _ _ _ _ HG1 v Rv Hv Av) as Tv. rewrite Tv. cbn [deref bindO].
      destruct (lr_emp G ev s1 ls ch HGeo1 u Hu Au) as (_ & N0 & _ & R0).
      destruct (region_arriving_less ev s1 ls ch HGeo1 HQ1 _ u v k w o Hn Au Tv) as [S1 S2]; [lia|lia|].
      split.
      * apply stops_bind_any; [exact S1|intros; apply stops_ok].
      * intros f. eapply safe_bind; [apply S2|]. cbv beta. intros s' Hs'. cbn [safe fst snd]. auto.
    + pose proof (g_top _ _ _ _ _ _ _ HG1 u Ru Hu Au) as Tu. rewrite Tu. cbn [deref bindO].
      destruct (lr_emp G ev s1 ls ch HGeo1 v Hv Av) as (_ & N0 & _ & R0).
      assert (Hin' := wf_sym G WF _ _ _ _ Hin). unfold index_of_neighbor.
      destruct (index_of_spec (nbrs G u) v 0) as (i & w' & o' & Ei & Hi).
      { apply (in_map (fun e => fst (fst e))) in Hin'. exact Hin'. }
      rewrite Ei. cbn [bindO]. assert (Hi2 := nth_error_In _ _ Hi). destruct (edge_unique G WF _ _ _ _ _ _ Hin' Hi2) as [<- <-].
      destruct (region_arriving_less ev s1 ls ch HGeo1 HQ1 _ v u i w o Hi Av Tu) as [S1 S2]; [lia|lia|].
      split.
      * apply stops_bind_any; [exact S1|intros; apply stops_ok].
      * intros f. eapply safe_bind; [apply S2|]. cbv beta. intros s' Hs'. cbn [safe fst snd]. auto.
    + exfalso. destruct (lr_emp G ev s1 ls ch HGeo1 v Hv Av) as (_ & N0 & _). destruct (lr_emp G ev s1 ls ch HGeo1 u Hu Au) as (_ & N1 & _). lia.
  - unfold hit_boundary. destruct (nbrs G v) as [|[[x' w'] o'] l] eqn:EN; [destruct Hin|]. cbn [bindO].
    split; [apply stops_ok|]. intros f. cbn [safe fst snd]. discriminate.
Qed.

(** From a region up to a blossom around it. *)
Lemma up_upath : forall L p c, up_ok L p c -> forall x, L x -> forall R, In R (c x) -> exists la, upath p x la R /\ (x <> R -> la <> []).
Proof.
  intros L p c U. apply (up_ind L p c U (fun x => forall R, In R (c x) -> exists la, upath p x la R /\ (x <> R -> la <> []))).
  - intros x Hx Ep R HR. rewrite (up_eq _ _ c U x Hx), Ep in HR. destruct HR as [->|[]]. exists []. split; [reflexivity|congruence].
  - intros x q Hx Ep Hq IH R HR. destruct (Nat.eq_dec x R) as [->|Hne]; [exists []; split; [reflexivity|congruence]|].
    rewrite (up_eq _ _ c U x Hx), Ep in HR. destruct HR as [->|HR]; [congruence|]. destruct (IH R HR) as (la & H & _). exists (x :: la). split; [|discriminate]. cbn. eauto.
Qed.

Lemma region_shrinking_stops : forall ev {FI : fine NI G ev} s ls ch al c, Geo G ev s ls ch -> Roles G ev s ls ch al c nobody nobody -> forall r, sched G ls nobody (one r) s ->
  In r ls -> bpar (rg s) r = None -> slp (rad (rg s) r) = (-1)%Z -> shrink_time s r = now (sc s) -> has_desired (rtr (sc s) r) = false ->
  stops (fun f => region_shrinking G f NI s r) /\
  forall f, safe (region_shrinking G f NI s r) (fun x => snd x = NoEvent -> mR (fst x) < mR s).
Proof.
  intros ev FI s ls ch al c HGeo HRo r HQ Hr Hb Hs Ht Hd. pose proof (proj1 HGeo) as HG. pose proof (g_up _ _ _ _ _ _ _ HG) as U.
  destruct (shrinking_inner _ _ _ _ _ _ _ _ _ _ _ _ HRo r Hr Hb Hs (fun x => x)) as (a & Ha & Hia).
  destruct (b_inn _ _ _ _ _ _ _ _ _ _ _ _ HRo a r Ha Hia) as (_ & _ & _ & Halt). specialize (Halt (fun x => x)).
  pose proof (b_str _ _ _ _ _ _ _ _ _ _ _ _ HRo) as ST.
  destruct (ts_innpar _ _ _ _ a r ST Ha Hia) as (p & Hp).
  destruct (ts_par _ _ _ _ ST a p Ha Hp) as (_ & i & o & oq & E1 & E2 & E3 & T1 & T2). rewrite Hia in E1. injection E1 as <-.
  assert (Sp : forall f, safe (region_shrinking G f NI s r) (fun x => still ev s (fst x) /\ Geo G ev (fst x) ls ch /\
    match snd x with NoEvent => sched G ls nobody nobody (fst x) | e => event_ok G ev (fst x) ls ch al e end))
    by (intros f; apply (region_shrinking_spec G WF ev s ls ch f al c HGeo HRo r HQ Hr Hb Hs Ht Hd)).
  assert (Leave : forall v rest, shl (rg s) r = v :: rest -> 
    let n := nd s in
    mR (schedule_shrink NI (reschedule G NI (set_nd (set_rg s (set_shl (rg s) r rest)) (mkN (upd (arr n) v None) (upd (top n) v None) (upd (wrp n) v 0%Z) (upd (src n) v None)
                               (upd (crs n) v 0%N) (upd (rar n) v 0%Z))) v) r) < mR s).
  { intros v rest Hsh n. assert (Hvr : v < N /\ arr (nd s) v = Some r) by (apply (g_shl _ _ _ _ _ _ _ HG r v Hr); rewrite Hsh; now left). destruct Hvr as [Hv Av].
    rewrite schedule_shrink_eq. set (s2 := set_nd _ _). set (s3 := reschedule _ _ _ _). destruct (want_region_any s3 r (shrink_time s3 r)) as (x & q & ->).
    rewrite mR_sc. destruct (only_sc_reschedule G s2 v) as (q' & Eq & _). fold s3 in Eq. rewrite Eq, mR_sc.
    apply (mR_one s s2 v Hv).
    - intros z Hz. unfold local_radius. cbn [nd rg s2 set_nd set_rg arr top wrp set_shl rad]. unfold n. rewrite !upd_other by assumption. split; reflexivity.
    - unfold wR. cbn [nd s2 set_nd arr]. rewrite upd_same, Av. pose proof (g_top _ _ _ _ _ _ _ HG v r Hv Av) as Tv.
      rewrite (root_none _ _ ch U r Hr Hb) in Tv. rewrite (nsl_top_slope G ev s ls ch HGeo v r Hv Tv), Hs. cbn. lia. }
  unfold region_shrinking in *. destruct (shl (rg s) r) as [|v rest] eqn:Esh.
  - split.
    2:{ intros f. specialize (Sp f). unfold blossom_shattering in *. rewrite Halt in *. cbn [deref bindO] in *.
      destruct (deref (efrom (ped (tr s) a))) as [u0| | |]; cbn [bindO safe] in *; auto. destruct (deref (efrom (i2o (tr s) a))) as [u1| | |]; cbn [bindO safe] in *; auto.
      destruct (heir_region_on_shatter f s u0) as [x0| | |]; cbn [bindO safe] in *; auto. destruct (heir_region_on_shatter f s u1) as [x1| | |]; cbn [bindO safe] in *; auto.
      discriminate. }
    unfold blossom_shattering. rewrite Halt. cbn [deref bindO].
    destruct T2 as (u & u' & P1 & P2 & P3 & P4 & P5 & P6 & _). destruct T1 as (w & w' & Q1 & Q2 & Q3 & Q4 & Q5 & Q6 & _).
    rewrite P1, Q1. cbn [deref bindO].
    assert (Heir : forall z, In z ev -> In r (chn (nd s) ch z) -> stops (fun f => heir_region_on_shatter f s z)).
    { intros z Hz Hrz. unfold heir_region_on_shatter. unfold chn in *. destruct (arr (nd s) z) as [Q|] eqn:EQ; [|destruct Hrz]. cbn [deref bindO].
      assert (Hlz := ev_lt G _ _ _ _ _ _ HG z Hz). assert (HQ' := g_arr _ _ _ _ _ _ _ HG z Q Hlz EQ).
      rewrite (g_top _ _ _ _ _ _ _ HG z Q Hlz EQ). rewrite <- (up_root_only _ _ ch U Q r HQ' Hrz Hb).
      assert (Q <> r). { intros ->. assert (Hi : In z (shl (rg s) r)) by (apply (g_shl _ _ _ _ _ _ _ HG r z Hr); auto). rewrite Esh in Hi. destruct Hi. }
      destruct (up_upath _ _ ch U Q HQ' r Hrz) as (la & L1 & L2). apply (stops_sub0 _ (fun f => heir_loop f (rg s) Q (Some r))).
      apply (heir_stops (rg s) r la Q L1 (L2 H)). }
    apply stops_bind_any; [|intros; apply stops_ok].
    apply stops_bind_any; [apply (Heir u P3 P5)|]. intros x _. apply stops_bind_any; [apply (Heir w Q3 Q5)|]. intros; apply stops_ok.
  - destruct rest as [|v2 rest].
    + destruct (chl (rg s) r) as [|c0 cs] eqn:Ech.
      * unfold degenerate_implosion. rewrite Halt. cbn [deref bindO]. rewrite Hp. cbn [deref bindO]. split; [apply stops_ok|]. intros f. cbn [safe fst snd]. discriminate.
      * split; [apply stops_ok|]. intros f. cbn [safe fst snd]. intros _. apply (Leave v [] eq_refl).
    + split; [apply stops_ok|]. intros f. cbn [safe fst snd]. intros _. apply (Leave v (v2 :: rest) eq_refl).
Qed.

(** ** The loop *)
(** One entry of the queue. *)
Lemma run_step : forall ev {FI : fine NI G ev} ls ch al c orc s, Geo G ev s ls ch -> Roles G ev s ls ch al c nobody nobody -> sched G ls nobody nobody s ->
  forall t i s1 keep s2, dequeue orc s = Some (t, i, s1) -> decide s1 t i = (keep, s2) -> Geo G ev s2 ls ch /\ Roles G ev s2 ls ch al c nobody nobody /\
  if keep then stops (fun f => process_tentative G f NI s2 i) /\
    forall f, safe (process_tentative G f NI s2 i) (fun x => Geo G ev (fst x) ls ch /\ Roles G ev (fst x) ls ch al c nobody nobody /\
      match snd x with NoEvent => sched G ls nobody nobody (fst x) /\ less ls (fst x) s | e => event_ok G ev (fst x) ls ch al e end)
  else sched G ls nobody nobody s2 /\ less ls s2 s.
Proof.
  intros ev FI ls ch al c orc s HGeo HRo HQ t i s1 keep s2 ED EDC.
  pose proof (decide_spec G WF ev s ls ch HGeo HQ orc t i s1 ED) as DC. pose proof (decide_less ev s ls ch HGeo HQ orc t i s1 ED) as DL.
  rewrite EDC in DC, DL.
  destruct DC as ((q & Eq & Nq) & HGeo2 & DC).
  assert (HRo2 : Roles G ev s2 ls ch al c nobody nobody) by (rewrite Eq; eapply (Roles_time G); eauto).
  split; [exact HGeo2|]. split; [exact HRo2|]. destruct keep; [|split; assumption].
  assert (PS : forall f, safe (process_tentative G f NI s2 i) (fun x => still ev s2 (fst x) /\ Geo G ev (fst x) ls ch /\
        match snd x with NoEvent => sched G ls nobody nobody (fst x) | e => event_ok G ev (fst x) ls ch al e end) /\
        safe (process_tentative G f NI s2 i) (fun x => snd x = NoEvent -> less ls (fst x) s)).
    { intros f. destruct i as [v|r]; cbn [process_tentative].
      - destruct DC as (D1 & D2 & D3). split.
        + eapply safe_impl; [apply (look_at_node_spec G WF ev s2 ls ch f HGeo2 v D1 D2 D3)|].
          intros [s3 e] (S1 & S2 & S3 & S4). cbn [fst snd] in *. split; [assumption|]. split; [assumption|]. destruct e; cbn [event_ok]; auto; destruct S4.
        + eapply safe_impl; [apply (look_at_node_stops ev s2 ls ch HGeo2 v D1 D2 D3)|]. cbv beta. intros [s3 e]. cbn [fst snd]. intros H He. specialize (H He).
          destruct DL as (L1 & L2 & L3 & x & q0 & L4 & L5 & L6 & L7). rewrite L4 in H. rewrite mR_sc in H. destruct H as [H|H]; [left; assumption|].
          right. assert (NE : next_event G (set_sc s q0) v = next_event G s v) by reflexivity. rewrite NE in H.
          assert (Late : late s v = 1).
          { unfold late. rewrite L2, L3. destruct H as [[-> _]|(k & t' & -> & Ht & _ & _)]; [reflexivity|]. cbn [sc set_sc] in Ht. rewrite L5 in Ht.
            destruct (Z.eqb_spec t t'); [congruence|reflexivity]. }
          destruct H as [[HN ->]|(k & t' & HN & Ht & Et & ->)].
          * split; [rewrite mR_sc; lia|]. left. apply (total_lt _ _ _ _ v); [|apply in_seq; lia|].
            -- intros y _. unfold late. cbn [sc set_sc]. rewrite L6. unfold upd. destruct (Nat.eqb_spec y v) as [->|]; [rewrite L7; lia|].
               change (next_event G (set_sc s q0) y) with (next_event G s y). lia.
            -- rewrite Late. unfold late. cbn [sc set_sc]. rewrite L6, upd_same, L7. lia.
          * destruct (want_node_eq (set_sc s q0) v t' Et) as (x' & q' & -> & W). cbn [sc set_sc ntr rtr now tick] in *.
            split; [rewrite mR_sc; apply Nat.le_refl|]. left. apply (total_lt _ _ _ _ v); [|apply in_seq; lia|].
            -- intros y _. unfold late. cbn [sc set_sc ntr]. destruct (Nat.eq_dec y v) as [->|Hy].
               ++ rewrite upd_same. change (next_event G (set_sc (set_sc s q0) (mkQ (upd (ntr q0) v x') (rtr q0) q' (now q0) (tick q0))) v) with (next_event G s v).
                  rewrite HN, (w_des _ _ _ _ _ _ W), (w_time _ _ _ _ _ _ W), Z.eqb_refl. lia.
               ++ rewrite upd_other by assumption. rewrite L6, upd_other by assumption. apply Nat.le_refl.
            -- rewrite Late. unfold late. cbn [sc set_sc ntr]. rewrite upd_same.
               change (next_event G (set_sc (set_sc s q0) (mkQ (upd (ntr q0) v x') (rtr q0) q' (now q0) (tick q0))) v) with (next_event G s v).
               rewrite HN, (w_des _ _ _ _ _ _ W), (w_time _ _ _ _ _ _ W), Z.eqb_refl. lia.
      - destruct DC as (D1 & D2 & D3 & D4 & D5 & D6).
        assert (E2 : rg s2 = rg s /\ now (sc s2) = t) by (rewrite Eq; auto). destruct E2 as [E2 E3]. split.
        + apply (region_shrinking_spec G WF ev s2 ls ch f al c HGeo2 HRo2 r D6 D1); rewrite ?E2; auto. congruence.
        + destruct DL as (q0 & L4). assert (EM : mR s2 = mR s) by (rewrite L4; reflexivity).
          assert (RS : safe (region_shrinking G f NI s2 r) (fun x => snd x = NoEvent -> mR (fst x) < mR s2)).
          { apply (region_shrinking_stops ev s2 ls ch al c HGeo2 HRo2 r D6 D1); rewrite ?E2; auto. congruence. }
          eapply safe_impl; [exact RS|]. intros x H He. left. specialize (H He). lia. }
  split.
  - destruct i as [v|r]; cbn [process_tentative].
    + destruct DC as (D1 & D2 & D3). apply (look_at_node_stops ev s2 ls ch HGeo2 v D1 D2 D3).
    + destruct DC as (D1 & D2 & D3 & D4 & D5 & D6).
      assert (E2 : rg s2 = rg s /\ now (sc s2) = t) by (rewrite Eq; auto). destruct E2 as [E2 E3].
      apply (region_shrinking_stops ev s2 ls ch al c HGeo2 HRo2 r D6 D1); rewrite ?E2; auto. congruence.
  - intros f. destruct (PS f) as [A1 A2]. eapply safe_impl; [apply (safe_and _ _ _ _ A1 A2)|]. intros [s3 e] [(S1 & S2 & S3) S4]. cbn [fst snd] in *.
    split; [assumption|]. split; [exact (Roles_still G ev s2 s3 ls ch al c nobody nobody S1 HRo2)|]. destruct e; auto.
Qed.
Lemma run_until_event_stops : forall ev {FI : fine NI G ev} ls ch al c orc s, Geo G ev s ls ch -> Roles G ev s ls ch al c nobody nobody -> sched G ls nobody nobody s ->
  forall d, stops (fun f => run_until_event G f orc NI (f - d) s).
Proof.
  intros ev FI ls ch al c orc s. induction (less_wf ls s) as [s _ IH]. intros HGeo HRo HQ d.
  destruct (dequeue orc s) as [[[t i] s1]|] eqn:ED.
  2:{ apply (stops_ext _ _ (fun _ => Ok (s, NoEvent)) (S d)); [|apply stops_ok]. intros f Hf. destruct (f - d) as [|k] eqn:E; [lia|]. cbn [run_until_event]. now rewrite ED. }
  destruct (decide s1 t i) as [keep s2] eqn:EDC.
  destruct (run_step ev ls ch al c orc s HGeo HRo HQ t i s1 keep s2 ED EDC) as (HGeo2 & HRo2 & RS).
  destruct keep.
  - apply (stops_ext _ _ (fun f => bindO (process_tentative G f NI s2 i) (fun r => match snd r with NoEvent => run_until_event G f orc NI (f - S d) (fst r) | _ => Ok r end)) (S d)).
    { intros f Hf. destruct (f - d) as [|k] eqn:E; [lia|]. cbn [run_until_event]. rewrite ED, EDC. replace (f - S d) with k by lia. reflexivity. }
    eapply stops_bind; [apply RS|apply RS|]. intros [s3 e] (S1 & S2 & S3). cbn [fst snd] in *.
    destruct e; [|apply stops_ok..]. apply (IH s3 (proj2 S3) S1 S2 (proj1 S3) (S d)).
  - eapply (stops_ext _ _ (fun f => run_until_event G f orc NI (f - S d) s2) (S d)); [|apply (IH s2 (proj2 RS) HGeo2 HRo2 (proj1 RS))].
    intros f Hf. destruct (f - d) as [|k] eqn:E; [lia|]. cbn [run_until_event]. rewrite ED, EDC. f_equal. lia.
Qed.
End Run.
