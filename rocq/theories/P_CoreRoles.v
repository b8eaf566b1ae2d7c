(** Invariants of the decoder's core, part 8: the part each region plays (in a tree, or matched). *)
From Coq Require Import ZArith NArith List Bool Arith Lia Permutation.
From Verif Require Import M_Base M_Varying M_Tracker M_Core S_Core S_Tree P_Sum P_Up P_Tree P_CoreGeo P_CoreSched P_CoreArea P_CoreRad P_CoreQueue P_CoreFlood P_CoreStep.
Import ListNotations.
Local Open Scope Z_scope.

(** [al]: tree nodes in use; [c]: their paths to the root.  [M]: tree nodes whose marks and whose inner
    region's back pointer are not up to date; [Lo]: regions about whose role nothing is said. *)
Definition mated (tg : nat -> nat -> cedge -> Prop) (tb : nat -> cedge -> Prop) (ls : list nat) (bp : nat -> option nat) (sl : nat -> Z)
    (m : matchM) (R : nat) : Prop :=
  sl R = 0 /\ alt m R = None /\
  match mreg m R with
  | None => tb R (medge m R)
  | Some Q => Q <> R /\ In Q ls /\ bp Q = None /\ sl Q = 0 /\ mreg m Q = Some R /\ medge m Q = rev_e (medge m R) /\ tg R Q (medge m R)
  end.
Record roles (tg : nat -> nat -> cedge -> Prop) (tb : nat -> cedge -> Prop) (ls : list nat) (bp : nat -> option nat) (sl : nat -> Z)
    (m : matchM) (T : treesM) (a : slots) (al : list nat) (c : nat -> list nat) (M Lo : nat -> Prop) : Prop := {
  b_arena : arena_ok a al;
  b_str : tstr (fun x => In x al) T c tg;
  b_vis : forall x, In x al -> ~ M x -> vis T x = false;
  b_inn : forall x i, In x al -> inn T x = Some i -> In i ls /\ bp i = None /\ sl i = -1 /\ (~ M x -> alt m i = Some x);
  b_out : forall x o, In x al -> out T x = Some o -> In o ls /\ bp o = None /\ (~ Lo o -> sl o = 1) /\ sl o <> -1 /\ alt m o = Some x;
  b_reg : forall R, In R ls -> bp R = None -> ~ Lo R ->
     (exists x, In x al /\ inn T x = Some R) \/ (exists x, In x al /\ out T x = Some R) \/ mated tg tb ls bp sl m R;
  b_sub : forall R, In R ls -> bp R <> None -> alt m R = None }.

(** The slope of a region. *)
Definition sof (s : state) (R : nat) : Z := slp (rad (rg s) R).
Definition tgt (G : graph) (ev : list nat) (s : state) (ch : nat -> list nat) := tight G ev (nd s) ch (rval (rg s) (now (sc s))).
Definition tbt (G : graph) (ev : list nat) (s : state) (ch : nat -> list nat) := tightB G ev (nd s) ch (rval (rg s) (now (sc s))).
Definition Roles (G : graph) (ev : list nat) (s : state) (ls : list nat) (ch : nat -> list nat) (al : list nat) (c : nat -> list nat) (M Lo : nat -> Prop) : Prop :=
  roles (tgt G ev s ch) (tbt G ev s ch) ls (bpar (rg s)) (sof s) (ma s) (tr s) (ta s) al c M Lo.

Lemma tstr_weaken : forall A T c (tg tg' : nat -> nat -> cedge -> Prop), tstr A T c tg ->
  (forall b i o e, A b -> inn T b = Some i -> (out T b = Some o \/ (exists q, par T b = Some q /\ out T q = Some o)) -> tg i o e -> tg' i o e) -> tstr A T c tg'.
Proof.
  intros A T c tg tg' H W. destruct H. split; auto. intros b q Hb Hq. destruct (ts_par b q Hb Hq) as (H1 & i & o & oq & E1 & E2 & E3 & T1 & T2).
  split; [assumption|]. exists i, o, oq. repeat split; auto; eapply W; eauto.
Qed.
Lemma roles_weaken : forall (tg : nat -> nat -> cedge -> Prop) tb (tg' : nat -> nat -> cedge -> Prop) (tb' : nat -> cedge -> Prop) ls bp sl m T a al c M Lo, roles tg tb ls bp sl m T a al c M Lo ->
  (forall R Q e, In R ls -> In Q ls -> bp R = None -> bp Q = None -> (sl R = 0 /\ sl Q = 0) \/ (sl R = -1 /\ (~ Lo Q -> sl Q = 1)) -> tg R Q e -> tg' R Q e) ->
  (forall R e, In R ls -> bp R = None -> sl R = 0 -> tb R e -> tb' R e) ->
  roles tg' tb' ls bp sl m T a al c M Lo.
Proof.
  intros tg tb tg' tb' ls bp sl m T a al c M Lo H W1 W2. destruct H. split; auto.
  - eapply tstr_weaken; [exact b_str0|]. intros b i o e Hb Hi Ho. destruct (b_inn0 b i Hb Hi) as (I1 & I2 & I3 & _).
    assert (O : In o ls /\ bp o = None /\ (~ Lo o -> sl o = 1)).
    { destruct Ho as [Ho|(q & Hq & Ho)].
      - destruct (b_out0 b o Hb Ho) as (O1 & O2 & O3 & _); auto.
      - assert (Aq : In q al) by exact (proj2 (ts_up _ _ _ _ b_str0 b Hb) q Hq). destruct (b_out0 q o Aq Ho) as (O1 & O2 & O3 & _); auto. }
    destruct O as (O1 & O2 & O3). apply W1; auto.
  - intros R HR Hb Hl. destruct (b_reg0 R HR Hb Hl) as [H|[H|H]]; auto. right; right. destruct H as (S1 & S2 & S3). split; [assumption|]. split; [assumption|].
    destruct (mreg m R) as [Q|].
    + destruct S3 as (Q0 & Q1 & Q2 & Q3 & Q4 & Q5 & Q6). repeat split; auto.
    + apply W2; auto.
Qed.

Section Roles.
Variable G : graph.
Context {NI : ints}.
Hypothesis WF : wf_graph G.

Lemma Roles_still : forall ev s s' ls ch al c M Lo, still ev s s' -> Roles G ev s ls ch al c M Lo -> Roles G ev s' ls ch al c M Lo.
Proof.
  intros ev s s' ls ch al c M Lo H HR. pose proof (fun x => still_chn ev s s' ch x H) as SC. unfold Roles, sof in *.
  assert (SY : forall x, In x ev -> Yv (nd s') ch (rval (rg s') (now (sc s'))) x = Yv (nd s) ch (rval (rg s) (now (sc s))) x).
  { intros x Hx. rewrite (still_Y ev s s' ch _ x H Hx). unfold Yv. apply zsum_ext. intros R _. now apply (still_rval ev). }
  destruct H. rewrite l_ma, l_tr, l_ta, l_bpar, l_rad. eapply roles_weaken; [exact HR| |].
  - intros R Q e _ _ _ _ _ (p & p' & E1 & E2 & E3 & E4 & E5 & E6 & W). exists p, p'. rewrite !SC, !SY by assumption. repeat split; auto.
  - intros R e _ _ _ (p & E1 & E2 & E3 & E4 & W). exists p. rewrite !SC, !SY by assumption. repeat split; auto.
Qed.

(** Radii of events at another time. *)
Lemma Yv_time : forall ev s ls ch, Geo G ev s ls ch -> forall R p t, In R ls -> bpar (rg s) R = None -> In p ev -> In R (chn (nd s) ch p) ->
  Yv (nd s) ch (rval (rg s) t) p = Yv (nd s) ch (rval (rg s) (now (sc s))) p + slp (rad (rg s) R) * (t - now (sc s)).
Proof.
  intros ev s ls ch HGeo R p t HR Hb Hp Hin. pose proof (proj1 HGeo) as HG. pose proof (proj2 HGeo) as HS.
  pose proof (g_up _ _ _ _ _ _ _ HG) as U. unfold Yv. unfold chn in *. destruct (arr (nd s) p) as [Q|] eqn:E; [|destruct Hin].
  assert (HQ := g_arr _ _ _ _ _ _ _ HG p Q (ev_lt G _ _ _ _ _ _ HG p Hp) E).
  assert (ER : root ch Q = R) by (symmetry; apply (up_root_only _ _ ch U Q R HQ Hin Hb)).
  rewrite (zsum_chain_move _ _ ch U (rval (rg s) (now (sc s))) (rval (rg s) t)); [|intros X HX HXb|assumption].
  - rewrite ER. unfold rval. rewrite !(vok_distance _ _ (s_vok _ _ _ _ _ _ HS R HR)). lia.
  - unfold rval. rewrite !(vok_distance _ _ (s_vok _ _ _ _ _ _ HS X HX)), (s_frz _ _ _ _ _ _ HS X HX HXb). lia.
Qed.
Lemma Roles_time : forall ev s ls ch al c M q, Geo G ev s ls ch -> Roles G ev s ls ch al c M nobody -> Roles G ev (set_sc s q) ls ch al c M nobody.
Proof.
  intros ev s ls ch al c M q HGeo HR. pose proof (Yv_time ev s ls ch HGeo) as YT. unfold Roles in *. cbn [rg ma tr ta set_sc]. change (sof (set_sc s q)) with (sof s).
  eapply roles_weaken; [exact HR| |].
  - intros R Q e R1 Q1 R2 Q2 S0 (p & p' & E1 & E2 & E3 & E4 & E5 & E6 & W). exists p, p'. repeat split; auto. cbn [nd rg sc set_sc].
    rewrite (YT R p _ R1 R2 E3 E5), (YT Q p' _ Q1 Q2 E4 E6). eapply walk_eq; [exact W| |reflexivity]. fold (sof s R). fold (sof s Q).
    destruct S0 as [[-> ->]|[-> H]]; [lia|]. rewrite H by (intros []). lia.
  - intros R e R1 R2 S0 (p & E1 & E2 & E3 & E4 & W). exists p. repeat split; auto. cbn [nd rg sc set_sc].
    rewrite (YT R p _ R1 R2 E3 E4). fold (sof s R). rewrite S0. rewrite Z.mul_0_l, Z.add_0_r. exact W.
Qed.

(** ** Events *)
Definition leafless (s : state) (b x u : nat) (ch : nat -> list nat) : Prop := In x (chn (nd s) ch u) /\ bpar (rg s) x = Some b.
Definition event_ok (ev : list nat) (s : state) (ls : list nat) (ch : nat -> list nat) (al : list nat) (e : mevent) : Prop :=
  match e with
  | NoEvent => que (sc s) = [] /\ sched G ls nobody nobody s
  | HitRegion r1 r2 _ => hit_ok G ev s ls ch e /\
      (sched G ls nobody nobody s \/
       exists a p i, In a al /\ par (tr s) a = Some p /\ inn (tr s) a = Some i /\ r1 = out (tr s) p /\ r2 = out (tr s) a /\ sched G ls nobody (one i) s)
  | HitBoundary _ _ => hit_ok G ev s ls ch e /\ sched G ls nobody nobody s
  | BlossomShatter b x y => In b ls /\ bpar (rg s) b = None /\ sof s b = -1 /\ rval (rg s) (now (sc s)) b = 0 /\ shl (rg s) b = [] /\
      has_desired (rtr (sc s) b) = false /\ sched G ls nobody (one b) s /\
      exists a u v, In a al /\ inn (tr s) a = Some b /\ alt (ma s) b = Some a /\ efrom (ped (tr s) a) = Some u /\ efrom (i2o (tr s) a) = Some v /\
        leafless s b x u ch /\ leafless s b y v ch
  end.

Lemma heir_loop_spec : forall ev n g ls y ch, geo G ev n g ls y ch -> forall b k r, In r ls -> In b (ch r) -> r <> b -> bpar g b = None ->
  safe (heir_loop k g r (Some b)) (fun x => In x (ch r) /\ bpar g x = Some b).
Proof.
  intros ev n g ls y ch HG b k. pose proof (g_up _ _ _ _ _ _ _ HG) as U. induction k as [|k IH]; intros r Hr Hb Hne Hbb; [exact I|].
  cbn [heir_loop]. destruct (bpar g r) as [p|] eqn:Ep.
  - destruct (Nat.eqb_spec p b) as [->|Hpb].
    + cbn [safe]. split; [apply (up_self _ _ ch U r Hr)|assumption].
    + assert (Hp : In p ls) by exact (proj2 (U r Hr) p Ep).
      assert (Hbp : In b (ch p)). { rewrite (up_eq _ _ ch U r Hr), Ep in Hb. destruct Hb as [E|Hb]; [congruence|assumption]. }
      eapply safe_impl; [apply (IH p Hp Hbp Hpb Hbb)|]. intros x [X1 X2]. split; [|assumption]. rewrite (up_eq _ _ ch U r Hr), Ep. now right.
  - rewrite (up_eq _ _ ch U r Hr), Ep in Hb. destruct Hb as [E|[]]. congruence.
Qed.

(** A region of slope -1 is the inner region of a tree node. *)
Lemma shrinking_inner : forall tg tb ls bp sl m T a al c M Lo, roles tg tb ls bp sl m T a al c M Lo -> forall R, In R ls -> bp R = None -> sl R = -1 -> ~ Lo R ->
  exists x, In x al /\ inn T x = Some R.
Proof.
  intros tg tb ls bp sl m T a al c M Lo H R HR Hb Hs Hl. destruct (b_reg _ _ _ _ _ _ _ _ _ _ _ _ H R HR Hb Hl) as [E|[(x & E1 & E2)|(E & _)]]; [assumption| |lia].
  destruct (b_out _ _ _ _ _ _ _ _ _ _ _ _ H x R E1 E2) as (_ & _ & E & _). specialize (E Hl). lia.
Qed.
Lemma growing_outer : forall tg tb ls bp sl m T a al c M Lo, roles tg tb ls bp sl m T a al c M Lo -> forall R, In R ls -> bp R = None -> sl R = 1 -> ~ Lo R ->
  exists x, In x al /\ out T x = Some R /\ alt m R = Some x.
Proof.
  intros tg tb ls bp sl m T a al c M Lo H R HR Hb Hs Hl. destruct (b_reg _ _ _ _ _ _ _ _ _ _ _ _ H R HR Hb Hl) as [(x & E1 & E2)|[(x & E1 & E2)|(E & _)]]; [| |lia].
  - destruct (b_inn _ _ _ _ _ _ _ _ _ _ _ _ H x R E1 E2) as (_ & _ & E & _). lia.
  - exists x. repeat split; auto. apply (b_out _ _ _ _ _ _ _ _ _ _ _ _ H x R E1 E2).
Qed.
Lemma frozen_mated : forall tg tb ls bp sl m T a al c M Lo, roles tg tb ls bp sl m T a al c M Lo -> forall R, In R ls -> bp R = None -> sl R = 0 -> ~ Lo R ->
  mated tg tb ls bp sl m R.
Proof.
  intros tg tb ls bp sl m T a al c M Lo H R HR Hb Hs Hl. destruct (b_reg _ _ _ _ _ _ _ _ _ _ _ _ H R HR Hb Hl) as [(x & E1 & E2)|[(x & E1 & E2)|E]]; [| |assumption].
  - destruct (b_inn _ _ _ _ _ _ _ _ _ _ _ _ H x R E1 E2) as (_ & _ & E & _). lia.
  - destruct (b_out _ _ _ _ _ _ _ _ _ _ _ _ H x R E1 E2) as (_ & _ & E & _). specialize (E Hl). lia.
Qed.

Lemma region_shrinking_spec : forall ev {FI : fine NI G ev} s ls ch fuel al c, Geo G ev s ls ch -> Roles G ev s ls ch al c nobody nobody -> forall r, sched G ls nobody (one r) s ->
  In r ls -> bpar (rg s) r = None -> slp (rad (rg s) r) = -1 -> shrink_time s r = now (sc s) -> has_desired (rtr (sc s) r) = false ->
  safe (region_shrinking G fuel NI s r) (fun x => still ev s (fst x) /\ Geo G ev (fst x) ls ch /\
    match snd x with NoEvent => sched G ls nobody nobody (fst x) | e => event_ok ev (fst x) ls ch al e end).
Proof.
  intros ev FI s ls ch fuel al c HGeo HRo r HQ Hr Hb Hs Ht Hd. pose proof (proj1 HGeo) as HG. pose proof (g_up _ _ _ _ _ _ _ HG) as U.
  destruct (shrinking_inner _ _ _ _ _ _ _ _ _ _ _ _ HRo r Hr Hb Hs (fun x => x)) as (a & Ha & Hia).
  destruct (b_inn _ _ _ _ _ _ _ _ _ _ _ _ HRo a r Ha Hia) as (_ & _ & _ & Halt). specialize (Halt (fun x => x)).
  pose proof (b_str _ _ _ _ _ _ _ _ _ _ _ _ HRo) as ST.
  destruct (ts_innpar _ _ _ _ a r ST Ha Hia) as (p & Hp).
  assert (Ap : In p al) by exact (proj2 (ts_up _ _ _ _ ST a Ha) p Hp).
  destruct (ts_par _ _ _ _ ST a p Ha Hp) as (_ & i & o & oq & E1 & E2 & E3 & T1 & T2). rewrite Hia in E1. injection E1 as <-.
  pose proof (shrink_time_geo G ev s ls ch HGeo r Hr Hb Hs) as STG.
  assert (Leave : forall v rest, shl (rg s) r = v :: rest -> ~ (rest = [] /\ chl (rg s) r = []) ->
    let n := nd s in
    safe (Ok (schedule_shrink NI (reschedule G NI (set_nd (set_rg s (set_shl (rg s) r rest)) (mkN (upd (arr n) v None) (upd (top n) v None) (upd (wrp n) v 0%Z) (upd (src n) v None)
                               (upd (crs n) v 0%N) (upd (rar n) v 0%Z))) v) r, NoEvent))
      (fun x => still ev s (fst x) /\ Geo G ev (fst x) ls ch /\
    match snd x with NoEvent => sched G ls nobody nobody (fst x) | e => event_ok ev (fst x) ls ch al e end)).
  { intros v rest Hsh Hnt n. cbn [safe fst snd].
    destruct (b_out _ _ _ _ _ _ _ _ _ _ _ _ HRo a o Ha E2) as (_ & O2 & O3 & _). specialize (O3 (fun x => x)).
    assert (Hm : room G ev (nd s) ch r) by (apply (tight_room G ev s ls ch HGeo _ _ r o _ ltac:(intros ->; unfold sof in O3; lia) Hb O2 T1)).
    apply (leave_spec G WF ev s ls ch HGeo r HQ Hr Hb Hs Ht Hd Hm v rest Hsh Hnt); cbn [arr top wrp src crs rar]; try apply upd_same.
    intros x Hx. cbn [arr top wrp src crs rar]. rewrite !upd_other by assumption. repeat split. }
  unfold region_shrinking. destruct (shl (rg s) r) as [|v rest] eqn:Esh.
  - (* shatter *)
    unfold blossom_shattering. rewrite Halt. cbn [deref bindO].
    destruct T2 as (u & u' & P1 & P2 & P3 & P4 & P5 & P6 & _). destruct T1 as (w & w' & Q1 & Q2 & Q3 & Q4 & Q5 & Q6 & _).
    rewrite P1, Q1. cbn [deref bindO].
    assert (Heir : forall z, In z ev -> In r (chn (nd s) ch z) -> safe (heir_region_on_shatter fuel s z) (fun x => leafless s r x z ch)).
    { intros z Hz Hrz. unfold heir_region_on_shatter. unfold leafless, chn in *. destruct (arr (nd s) z) as [Q|] eqn:EQ; [|destruct Hrz]. cbn [deref bindO].
      assert (Hlz := ev_lt G _ _ _ _ _ _ HG z Hz). assert (HQ' := g_arr _ _ _ _ _ _ _ HG z Q Hlz EQ).
      rewrite (g_top _ _ _ _ _ _ _ HG z Q Hlz EQ). rewrite <- (up_root_only _ _ ch U Q r HQ' Hrz Hb).
      apply (heir_loop_spec ev _ _ ls _ ch HG r fuel Q HQ' Hrz); [|assumption]. intros ->.
      assert (Hi : In z (shl (rg s) r)) by (apply (g_shl _ _ _ _ _ _ _ HG r z Hr); auto). rewrite Esh in Hi. destruct Hi. }
    eapply safe_bind.
    { eapply safe_bind; [apply (Heir u P3 P5)|]. intros x Hx. eapply safe_bind; [apply (Heir w Q3 Q5)|]. intros y Hy.
      cbn [safe]. instantiate (1 := fun e => exists x y, e = BlossomShatter r x y /\ leafless s r x u ch /\ leafless s r y w ch). exists x, y. auto. }
    intros e (x & y & -> & Hx & Hy). cbn [safe fst snd event_ok]. split; [apply still_refl|]. split; [assumption|].
    split; [assumption|]. split; [assumption|]. split; [assumption|]. split; [lia|]. split; [assumption|]. split; [assumption|]. split; [assumption|].
    exists a, u, w. repeat (split; [assumption|]). assumption.
  - destruct rest as [|v2 rest]; [|apply (Leave v (v2 :: rest) eq_refl); intros [E _]; discriminate].
    destruct (chl (rg s) r) as [|c0 cs] eqn:Ech; [|apply (Leave v [] eq_refl); intros [_ E]; discriminate].
    (* implosion *)
    clear Leave. unfold degenerate_implosion. rewrite Halt. cbn [deref bindO]. rewrite Hp. cbn [deref bindO safe fst snd event_ok hit_ok].
    split; [apply still_refl|]. split; [assumption|].
    assert (Only : forall z, In z ev -> In r (chn (nd s) ch z) -> z = v /\ Yv (nd s) ch (rval (rg s) (now (sc s))) z = 0).
    { intros z Hz Hrz. unfold Yv. unfold chn in *. destruct (arr (nd s) z) as [Q|] eqn:EQ; [|destruct Hrz].
      assert (Hlz := ev_lt G _ _ _ _ _ _ HG z Hz). assert (HQ' := g_arr _ _ _ _ _ _ _ HG z Q Hlz EQ).
      assert (Q = r).
      { destruct (Nat.eq_dec Q r) as [E|Hne]; [assumption|]. exfalso. destruct (up_child _ _ ch U Q HQ' r Hrz Hne) as (r' & R1 & R2 & R3).
        assert (Hi : In r' (map fst (chl (rg s) r))) by (apply (g_chl _ _ _ _ _ _ _ HG r r' Hr); auto). rewrite Ech in Hi. destruct Hi. }
      subst Q. assert (Hi : In z (shl (rg s) r)) by (apply (g_shl _ _ _ _ _ _ _ HG r z Hr); auto). rewrite Esh in Hi. destruct Hi as [->|[]]. split; [reflexivity|].
      rewrite (up_eq _ _ ch U r Hr), Hb. cbn [zsum]. destruct (g_ev _ _ _ _ _ _ _ HG z Hz) as (_ & Q & _ & _ & _ & R0 & _). rewrite R0 in STG. lia. }
    split.
    + rewrite E3, E2. exists oq, o. destruct (b_out _ _ _ _ _ _ _ _ _ _ _ _ HRo p oq Ap E3) as (O1 & O2 & O3 & _ & O4).
      destruct (b_out _ _ _ _ _ _ _ _ _ _ _ _ HRo a o Ha E2) as (O1' & O2' & O3' & _ & O4'). specialize (O3 (fun x => x)). specialize (O3' (fun x => x)).
      split; [reflexivity|]. split; [reflexivity|]. split.
      { intros ->. rewrite O4 in O4'. injection O4' as ->. pose proof (up_eq _ _ _ (ts_up _ _ _ _ ST) a Ha) as Ua. rewrite Hp in Ua.
        apply (f_equal (@length nat)) in Ua. cbn [length] in Ua. lia. }
      split; [assumption|]. split; [assumption|]. split; [assumption|]. split; [assumption|]. split; [|left; auto].
      destruct T2 as (u & u' & P1 & P2 & P3 & P4 & P5 & P6 & W2). destruct T1 as (w & w' & Q1 & Q2 & Q3 & Q4 & Q5 & Q6 & W1).
      destruct (Only u P3 P5) as [-> Y1]. destruct (Only w Q3 Q5) as [-> _]. rewrite Y1 in W1, W2.
      exists u', w'. cbn [efrom eto eobs]. repeat split; auto. rewrite N.lxor_comm. eapply walk_eq; [|reflexivity|reflexivity].
      eapply walk_eq; [eapply walk_app; [apply (walk_rev G WF); exact W2|exact W1]|lia|reflexivity].
    + right. exists a, p, r. repeat (split; [solve [auto]|]). assumption.
Qed.

(** ** Running until something happens *)
Record kept (ev : list nat) (s s' : state) : Prop := {
  k_ma : ma s' = ma s; k_tr : tr s' = tr s; k_ra : ra s' = ra s; k_ta : ta s' = ta s;
  k_rad : rad (rg s') = rad (rg s); k_arr : forall x, In x ev -> arr (nd s') x = arr (nd s) x }.
Lemma kept_trans : forall ev s1 s2 s3, kept ev s1 s2 -> kept ev s2 s3 -> kept ev s1 s3.
Proof. intros ev s1 s2 s3 H K. destruct H, K. split; try congruence. intros x Hx. rewrite k_arr1, k_arr0; auto. Qed.
Lemma still_kept : forall ev s s', still ev s s' -> kept ev s s'.
Proof. intros ev s s' H. destruct H. now split. Qed.

Lemma run_until_event_spec : forall ev {FI : fine NI G ev} ls ch al c fuel orc k s, Geo G ev s ls ch -> Roles G ev s ls ch al c nobody nobody -> sched G ls nobody nobody s ->
  safe (run_until_event G fuel orc NI k s) (fun x => kept ev s (fst x) /\ Geo G ev (fst x) ls ch /\ Roles G ev (fst x) ls ch al c nobody nobody /\
    event_ok ev (fst x) ls ch al (snd x)).
Proof.
  intros ev FI ls ch al c fuel orc. induction k as [|k IH]; intros s HGeo HRo HQ; [exact I|]. cbn [run_until_event].
  pose proof (dequeue_spec orc s) as DS. destruct (dequeue orc s) as [[[t i] s1]|] eqn:ED.
  2:{ cbn [safe fst snd event_ok]. split; [split; reflexivity|]. auto. }
  pose proof (decide_spec G WF ev s ls ch HGeo HQ orc t i s1 ED) as DC. clear DS. destruct (decide s1 t i) as [keep s2].
  destruct DC as ((q & Eq & Nq) & HGeo2 & DC).
  assert (HRo2 : Roles G ev s2 ls ch al c nobody nobody) by (rewrite Eq; eapply Roles_time; eauto).
  assert (K2 : kept ev s s2) by (rewrite Eq; split; reflexivity).
  destruct keep.
  - eapply safe_bind with (P := fun x => still ev s2 (fst x) /\ Geo G ev (fst x) ls ch /\
        match snd x with NoEvent => sched G ls nobody nobody (fst x) | e => event_ok ev (fst x) ls ch al e end).
    + destruct i as [v|r]; cbn [process_tentative].
      * destruct DC as (D1 & D2 & D3). eapply safe_impl; [apply (look_at_node_spec G WF ev s2 ls ch fuel HGeo2 v D1 D2 D3)|].
        intros [s3 e] (S1 & S2 & S3 & S4). cbn [fst snd] in *. split; [assumption|]. split; [assumption|]. destruct e; cbn [event_ok]; auto; destruct S4.
      * destruct DC as (D1 & D2 & D3 & D4 & D5 & D6).
        assert (E2 : rg s2 = rg s /\ now (sc s2) = t) by (rewrite Eq; auto). destruct E2 as [E2 E3].
        apply (region_shrinking_spec ev s2 ls ch fuel al c HGeo2 HRo2 r D6 D1); rewrite ?E2; auto. congruence.
    + intros [s3 e] (S1 & S2 & S3). cbn [fst snd] in *.
      assert (HRo3 := Roles_still ev s2 s3 ls ch al c nobody nobody S1 HRo2).
      assert (K3 : kept ev s s3) by (eapply kept_trans; [exact K2|]; now apply still_kept).
      destruct e; [|cbn [safe fst snd]; auto..].
      eapply safe_impl; [apply (IH s3 S2 HRo3 S3)|]. intros x (X1 & X2). split; [|assumption]. eapply kept_trans; eassumption.
  - eapply safe_impl; [apply (IH s2 HGeo2 HRo2 DC)|]. intros x (X1 & X2). split; [|assumption]. eapply kept_trans; eassumption.
Qed.
End Roles.
