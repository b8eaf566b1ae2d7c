(** Invariants of the decoder's core, part 1: the geometry of regions, nodes and radii.

    [ev]: the detection events created so far; [ls]: the regions in use; [y]: the radius of each region at the
    current time; [ch R]: R, its blossom parent, and so on. *)
From Coq Require Import ZArith NArith List Bool Arith Lia Permutation Sorting.Sorted.
From Verif Require Import M_Base M_Core S_Core S_Tree P_Sum P_Up P_Tree.
Import ListNotations.
Local Open Scope Z_scope.

(** The regions a node lies in, innermost first. *)
Definition chn (n : nodesM) (ch : nat -> list nat) (v : nat) : list nat :=
  match arr n v with Some R => ch R | None => [] end.
(** Total radius around an event. *)
Definition Yv (n : nodesM) (ch : nat -> list nat) (y : nat -> Z) (s : nat) : Z := zsum y (chn n ch s).
(** How far the regions reach beyond a node. *)
Definition rho (n : nodesM) (ch : nat -> list nat) (y : nat -> Z) (v : nat) : Z :=
  match arr n v with Some R => zsum y (ch R) - rar n v | None => 0 end.
Definition memb (R : nat) (l : list nat) : bool := existsb (Nat.eqb R) l.
Lemma memb_In : forall R l, memb R l = true <-> In R l.
Proof.
  intros. unfold memb. rewrite existsb_exists. split.
  - intros (x & Hx & E). apply Nat.eqb_eq in E. now subst.
  - intros H. exists R. split; [assumption|apply Nat.eqb_refl].
Qed.
Lemma memb_nIn : forall R l, memb R l = false <-> ~ In R l.
Proof. intros. rewrite <- memb_In. destruct (memb R l); split; congruence. Qed.

(** The part of region R's radius used up at a node. *)
Definition phi (n : nodesM) (ch : nat -> list nat) (y : nat -> Z) (R : nat) (x : option nat) : Z :=
  match x with
  | None => y R
  | Some v => if same_opt (arr n v) (Some R) then rar n v else if memb R (chn n ch v) then 0 else y R
  end.

Section Tight.
Variable G : graph.
Variable ev : list nat.
Variable n : nodesM.
Variable ch : nat -> list nat.
Variable y : nat -> Z.

(** The edge connects an event in R to an event in Q by a path as long as the radii around them, less k. *)
Definition tightx (k : Z) (R Q : nat) (e : cedge) : Prop :=
  exists s s', efrom e = Some s /\ eto e = Some s' /\ In s ev /\ In s' ev /\
    In R (chn n ch s) /\ In Q (chn n ch s') /\ walk G s s' (Yv n ch y s + Yv n ch y s' - k) (eobs e).
Definition tight : nat -> nat -> cedge -> Prop := tightx 0.
Definition tightB (R : nat) (e : cedge) : Prop :=
  exists s, efrom e = Some s /\ eto e = None /\ In s ev /\ In R (chn n ch s) /\ path G s None (Yv n ch y s) (eobs e).
End Tight.

Record geo (G : graph) (ev : list nat) (n : nodesM) (g : regionsM) (ls : list nat) (y : nat -> Z)
    (ch : nat -> list nat) : Prop := {
  g_nd : NoDup ls;
  g_up : up_ok (fun R => In R ls) (bpar g) ch;
  g_chl : forall p q, In p ls -> (In q (map fst (chl g p)) <-> In q ls /\ bpar g q = Some p);
  g_chnd : forall p, In p ls -> NoDup (map fst (chl g p));
  g_odd : forall p, In p ls -> chl g p = [] \/ Nat.odd (length (chl g p)) = true;
  g_cyc : forall p i, In p ls -> (i < length (chl g p))%nat ->
     tightx G ev n ch y (2 * zsum y (ch p)) (region_at (chl g p) i) (region_at (chl g p) (S i)) (edge_at (chl g p) i);
  g_btop : forall R, In R ls -> btop g R = Some (root ch R);
  g_y0 : forall R, In R ls -> 0 <= y R;
  g_shl : forall R v, In R ls -> (In v (shl g R) <-> (v < length G)%nat /\ arr n v = Some R);
  g_shnd : forall R, In R ls -> NoDup (shl g R);
  g_arr : forall v R, (v < length G)%nat -> arr n v = Some R -> In R ls;
  g_top : forall v R, (v < length G)%nat -> arr n v = Some R -> top n v = Some (root ch R);
  g_wrp : forall v R, (v < length G)%nat -> arr n v = Some R -> wrp n v = rho n ch y v - y (root ch R);
  g_emp : forall v, (v < length G)%nat -> arr n v = None ->
     top n v = None /\ wrp n v = 0 /\ src n v = None /\ crs n v = 0%N /\ rar n v = 0;
  g_ev : forall s, In s ev -> (s < length G)%nat /\ exists R, arr n s = Some R /\ chl g R = [] /\
     src n s = Some s /\ rar n s = 0 /\ crs n s = 0%N;
  g_evnd : NoDup ev;
  g_leaf : forall R, In R ls -> chl g R = [] -> exists l s, shl g R = l ++ [s] /\ In s ev /\ forall v, In v l -> ~ In v ev;
  g_rar : forall v R, (v < length G)%nat -> arr n v = Some R -> 0 <= rar n v <= y R;
  g_sort : forall R, In R ls -> StronglySorted (fun a b => rar n b <= rar n a) (shl g R);
  g_walk : forall v R, (v < length G)%nat -> arr n v = Some R -> exists s, src n v = Some s /\ In s ev /\ In R (chn n ch s) /\
     walk G s v (Yv n ch y s - rho n ch y v) (crs n v);
  g_dual : forall u x w o, In (x, w, o) (nbrs G u) -> zsum (fun R => Z.abs (phi n ch y R (Some u) - phi n ch y R x)) ls <= w;
  g_evodd : forall R, In R ls -> Nat.odd (length (filter (fun s => memb R (chn n ch s)) ev)) = true;
  g_par : forall s s' R, In s ev -> In s' ev -> In R (chn n ch s) -> In R (chn n ch s') ->
     Z.Even (Yv n ch y s + Yv n ch y s') }.

Lemma same_opt_spec : forall a b, same_opt a b = true <-> a = b.
Proof.
  intros [a|] [b|]; simpl; split; intros H; try discriminate; auto.
  - apply Nat.eqb_eq in H. now subst.
  - injection H as ->. apply Nat.eqb_refl.
Qed.
Lemma same_opt_neq : forall a b, same_opt a b = false <-> a <> b.
Proof. intros a b. rewrite <- same_opt_spec. destruct (same_opt a b); split; congruence. Qed.

Lemma nbr_bound : forall G, wf_graph G -> forall u x w o, In (x, w, o) (nbrs G u) ->
  (u < length G)%nat /\ forall v, x = Some v -> (v < length G)%nat.
Proof.
  intros G WF u x w o H.
  assert (B : forall a b, In b (nbrs G a) -> (a < length G)%nat).
  { intros a b Hb. unfold nbrs in Hb. destruct (Nat.lt_ge_cases a (length G)); [assumption|].
    rewrite nth_overflow in Hb by assumption. destruct Hb. }
  split; [eapply B; eauto|]. intros v ->. eapply B. apply (wf_sym G WF). exact H.
Qed.

Lemma walk_app : forall G a b c l l' o o', walk G a b l o -> walk G b c l' o' -> walk G a c (l + l') (N.lxor o o').
Proof.
  intros G a b c l l' o o' H1 H2. induction H2.
  - rewrite Z.add_0_r, N.lxor_0_r. exact H1.
  - rewrite Z.add_assoc, <- N.lxor_assoc. econstructor; eauto.
Qed.
Lemma walk_one : forall G a b w o, In (Some b, w, o) (nbrs G a) -> walk G a b w o.
Proof. intros G a b w o H. replace w with (0 + w) by lia. replace o with (N.lxor 0 o) by apply N.lxor_0_l. econstructor; [constructor|exact H]. Qed.
Lemma walk_rev : forall G, wf_graph G -> forall a b l o, walk G a b l o -> walk G b a l o.
Proof.
  intros G WF a b l o H. induction H; [constructor|].
  replace (l + w) with (w + l) by lia. rewrite N.lxor_comm. eapply walk_app; [|exact IHwalk].
  apply walk_one. now apply (wf_sym G WF).
Qed.
Lemma walk_even : forall G, wf_graph G -> forall a b l o, walk G a b l o -> Z.Even l.
Proof.
  intros G WF a b l o H. induction H; [now exists 0|].
  destruct (wf_weight G WF _ _ _ _ H0) as [_ E]. apply Z.even_spec in E. destruct IHwalk as [p ->], E as [q ->]. exists (p + q). lia.
Qed.
Lemma walk_eq : forall G a b l l' o o', walk G a b l o -> l = l' -> o = o' -> walk G a b l' o'.
Proof. intros; now subst. Qed.

Lemma tightx_rev : forall G ev n ch y k R Q e, wf_graph G -> tightx G ev n ch y k R Q e -> tightx G ev n ch y k Q R (rev_e e).
Proof.
  intros G ev n ch y k R Q e WF (s & s' & E1 & E2 & H1 & H2 & H3 & H4 & W). exists s', s. cbn [rev_e efrom eto eobs].
  repeat split; auto. apply walk_rev; auto. eapply walk_eq; [exact W| |reflexivity]. lia.
Qed.

(** ** Consequences *)
Section Facts.
Variable G : graph.
Hypothesis WF : wf_graph G.
Variable ev : list nat.
Variable n : nodesM.
Variable g : regionsM.
Variable ls : list nat.
Variable y : nat -> Z.
Variable ch : nat -> list nat.
Hypothesis HG : geo G ev n g ls y ch.
Notation L := (fun R => In R ls).
Let U : up_ok L (bpar g) ch := g_up _ _ _ _ _ _ _ HG.

Lemma chn_incl : forall v, (v < length G)%nat -> incl (chn n ch v) ls.
Proof.
  intros v Hv R HR. unfold chn in HR. destruct (arr n v) as [Q|] eqn:E; [|destruct HR].
  exact (up_all_L L (bpar g) ch U Q (g_arr _ _ _ _ _ _ _ HG v Q Hv E) R HR).
Qed.
Lemma chn_NoDup : forall v, (v < length G)%nat -> NoDup (chn n ch v).
Proof.
  intros v Hv. unfold chn. destruct (arr n v) as [Q|] eqn:E; [|constructor].
  exact (up_NoDup L (bpar g) ch U Q (g_arr _ _ _ _ _ _ _ HG v Q Hv E)).
Qed.
Lemma chn_root : forall v R, (v < length G)%nat -> In R (chn n ch v) -> exists Q, arr n v = Some Q /\ In Q ls /\ root ch R = root ch Q /\
  top n v = Some (root ch R).
Proof.
  intros v R Hv HR. unfold chn in HR. destruct (arr n v) as [Q|] eqn:E; [|destruct HR].
  assert (HQ := g_arr _ _ _ _ _ _ _ HG v Q Hv E). exists Q. repeat split; auto.
  - exact (root_up L (bpar g) ch U Q R HQ HR).
  - rewrite (root_up L (bpar g) ch U Q R HQ HR). exact (g_top _ _ _ _ _ _ _ HG v Q Hv E).
Qed.
Lemma chn_tops : forall u v R, (u < length G)%nat -> (v < length G)%nat -> In R (chn n ch u) -> In R (chn n ch v) -> top n u = top n v.
Proof.
  intros u v R Hu Hv H1 H2. destruct (chn_root u R Hu H1) as (? & _ & _ & _ & ->). destruct (chn_root v R Hv H2) as (? & _ & _ & _ & ->).
  reflexivity.
Qed.
Lemma ev_lt : forall s, In s ev -> (s < length G)%nat.
Proof. intros s Hs. apply (g_ev _ _ _ _ _ _ _ HG s Hs). Qed.

(** The next facts hold for any radii [z] for which no node lies outside its region. *)
Definition radii (z : nat -> Z) : Prop :=
  (forall R, In R ls -> 0 <= z R) /\ (forall v R, (v < length G)%nat -> arr n v = Some R -> 0 <= rar n v <= z R).
Lemma radii_y : radii y.
Proof. split; [apply (g_y0 _ _ _ _ _ _ _ HG)|apply (g_rar _ _ _ _ _ _ _ HG)]. Qed.
Lemma phi_range : forall z R x, radii z -> In R ls -> match x with Some v => (v < length G)%nat | None => True end -> 0 <= phi n ch z R x <= z R.
Proof.
  intros z R x [Hz1 Hz2] HR Hx. pose proof (Hz1 R HR). unfold phi. destruct x as [v|]; [|lia].
  destruct (same_opt (arr n v) (Some R)) eqn:E.
  - apply same_opt_spec in E. exact (Hz2 v R Hx E).
  - destruct (memb R (chn n ch v)); lia.
Qed.
Lemma phi_out : forall z R v, ~ In R (chn n ch v) -> (v < length G)%nat -> phi n ch z R (Some v) = z R.
Proof.
  intros z R v H Hv. unfold phi. destruct (same_opt (arr n v) (Some R)) eqn:E.
  - apply same_opt_spec in E. exfalso. apply H. unfold chn. rewrite E.
    apply (up_self L (bpar g) ch U). exact (g_arr _ _ _ _ _ _ _ HG v R Hv E).
  - apply memb_nIn in H. now rewrite H.
Qed.
Lemma phi_in : forall z z' R v, In R (chn n ch v) -> phi n ch z R (Some v) = phi n ch z' R (Some v).
Proof.
  intros z z' R v H. unfold phi. apply memb_In in H. rewrite H. reflexivity.
Qed.
Lemma phi_sum : forall z v, (v < length G)%nat -> zsum (fun R => z R - phi n ch z R (Some v)) ls = rho n ch z v.
Proof.
  intros z v Hv. rewrite (zsum_support _ ls (chn n ch v)).
  - unfold chn, rho. destruct (arr n v) as [Q|] eqn:E; [|reflexivity].
    assert (HQ := g_arr _ _ _ _ _ _ _ HG v Q Hv E).
    pose proof (up_NoDup L (bpar g) ch U Q HQ) as Hnd.
    rewrite (up_eq L (bpar g) ch U Q HQ) in *. set (r := match bpar g Q with Some q => ch q | None => [] end) in *.
    cbn [zsum]. inversion Hnd; subst.
    assert (E1 : phi n ch z Q (Some v) = rar n v).
    { unfold phi. rewrite E. simpl. now rewrite Nat.eqb_refl. }
    rewrite E1. replace (zsum (fun R => z R - phi n ch z R (Some v)) r) with (zsum z r).
    + lia.
    + apply zsum_ext. intros R HR. unfold phi. rewrite E. simpl.
      destruct (Nat.eqb_spec Q R) as [->|Hne]; [contradiction|].
      replace (memb R (chn n ch v)) with true; [lia|]. symmetry. apply memb_In. unfold chn. rewrite E.
      rewrite (up_eq L (bpar g) ch U Q HQ). now right.
  - exact (g_nd _ _ _ _ _ _ _ HG).
  - now apply chn_NoDup.
  - now apply chn_incl.
  - intros R HR Hn. rewrite phi_out by assumption. lia.
Qed.
Lemma rho_nonneg : forall v, (v < length G)%nat -> 0 <= rho n ch y v.
Proof.
  intros v Hv. rewrite <- phi_sum by assumption. apply zsum_nonneg. intros R HR. pose proof (phi_range y R (Some v) radii_y HR Hv). lia.
Qed.
Definition disjoint_chains (u v : nat) : Prop := forall R, In R (chn n ch u) -> In R (chn n ch v) -> False.
Lemma tops_disjoint : forall u v, (u < length G)%nat -> (v < length G)%nat -> top n u <> top n v -> disjoint_chains u v.
Proof. intros u v Hu Hv H R H1 H2. apply H. eapply chn_tops; eauto. Qed.
Lemma dual_sum : forall z u v, radii z -> (u < length G)%nat -> (v < length G)%nat -> disjoint_chains u v ->
  zsum (fun R => Z.abs (phi n ch z R (Some u) - phi n ch z R (Some v))) ls = rho n ch z u + rho n ch z v.
Proof.
  intros z u v Hz Hu Hv Hd. rewrite <- (phi_sum z u Hu), <- (phi_sum z v Hv), <- zsum_add. apply zsum_ext. intros R HR.
  pose proof (phi_range z R (Some u) Hz HR Hu). pose proof (phi_range z R (Some v) Hz HR Hv).
  destruct (in_dec Nat.eq_dec R (chn n ch u)) as [H1|H1].
  - rewrite (phi_out z R v); [lia| |assumption]. intros H2. exact (Hd R H1 H2).
  - rewrite (phi_out z R u) by assumption. lia.
Qed.
Lemma dual_sum_B : forall z u, radii z -> (u < length G)%nat ->
  zsum (fun R => Z.abs (phi n ch z R (Some u) - phi n ch z R None)) ls = rho n ch z u.
Proof.
  intros z u Hz Hu. rewrite <- (phi_sum z u Hu). apply zsum_ext. intros R HR. pose proof (phi_range z R (Some u) Hz HR Hu).
  cbn [phi] in *. lia.
Qed.
(** No overlap. *)
Lemma slack : forall u v w o, In (Some v, w, o) (nbrs G u) -> top n u <> top n v -> rho n ch y u + rho n ch y v <= w.
Proof.
  intros u v w o H Ht. destruct (nbr_bound G WF _ _ _ _ H) as [Hu Hv]. specialize (Hv v eq_refl).
  rewrite <- (dual_sum y u v radii_y Hu Hv (tops_disjoint u v Hu Hv Ht)). eapply g_dual; eauto.
Qed.
Lemma slack_B : forall u w o, In (None, w, o) (nbrs G u) -> rho n ch y u <= w.
Proof.
  intros u w o H. destruct (nbr_bound G WF _ _ _ _ H) as [Hu _].
  rewrite <- (dual_sum_B y u radii_y Hu). eapply g_dual; eauto.
Qed.

(** Two occupied nodes of different regions that touch: the connection is tight. *)
Lemma touch_tight : forall u v w o, In (Some v, w, o) (nbrs G u) -> rho n ch y u + rho n ch y v = w ->
  forall T T', arr n u <> None -> arr n v <> None -> top n u = Some T -> top n v = Some T' ->
  tight G ev n ch y T T' (mkE (src n u) (src n v) (N.lxor (N.lxor (crs n u) (crs n v)) o)).
Proof.
  intros u v w o Hin Hw T T' Au Av Tu Tv. destruct (nbr_bound G WF _ _ _ _ Hin) as [Hu Hv]. specialize (Hv v eq_refl).
  destruct (arr n u) as [R|] eqn:Eu; [|congruence]. destruct (arr n v) as [Q|] eqn:Ev; [|congruence].
  destruct (g_walk _ _ _ _ _ _ _ HG u R Hu Eu) as (s & S1 & S2 & S3 & S4).
  destruct (g_walk _ _ _ _ _ _ _ HG v Q Hv Ev) as (s' & S1' & S2' & S3' & S4').
  exists s, s'. cbn [efrom eto eobs]. repeat split; auto.
  - destruct (chn_root s R (ev_lt s S2) S3) as (Q0 & E0 & HQ0 & Er & _).
    rewrite (g_top _ _ _ _ _ _ _ HG u R Hu Eu) in Tu. injection Tu as <-. unfold chn. rewrite E0, Er.
    apply (root_spec L (bpar g) ch U Q0 HQ0).
  - destruct (chn_root s' Q (ev_lt s' S2') S3') as (Q0 & E0 & HQ0 & Er & _).
    rewrite (g_top _ _ _ _ _ _ _ HG v Q Hv Ev) in Tv. injection Tv as <-. unfold chn. rewrite E0, Er.
    apply (root_spec L (bpar g) ch U Q0 HQ0).
  - pose proof (walk_app _ _ _ _ _ _ _ _ (walk_app _ _ _ _ _ _ _ _ S4 (walk_one _ _ _ _ _ Hin)) (walk_rev G WF _ _ _ _ S4')) as W.
    eapply walk_eq; [exact W|lia|]. rewrite !N.lxor_assoc. f_equal. apply N.lxor_comm.
Qed.
Lemma touch_tightB : forall u w o, In (None, w, o) (nbrs G u) -> rho n ch y u = w ->
  forall T, top n u = Some T ->
  tightB G ev n ch y T (mkE (src n u) None (N.lxor (crs n u) o)).
Proof.
  intros u w o Hin Hw T Tu. destruct (nbr_bound G WF _ _ _ _ Hin) as [Hu _].
  destruct (arr n u) as [R|] eqn:Eu; [|destruct (g_emp _ _ _ _ _ _ _ HG u Hu Eu); congruence].
  destruct (g_walk _ _ _ _ _ _ _ HG u R Hu Eu) as (s & S1 & S2 & S3 & S4).
  exists s. cbn [efrom eto eobs]. repeat split; auto.
  - destruct (chn_root s R (ev_lt s S2) S3) as (Q0 & E0 & HQ0 & Er & _).
    rewrite (g_top _ _ _ _ _ _ _ HG u R Hu Eu) in Tu. injection Tu as <-. unfold chn. rewrite E0, Er.
    apply (root_spec L (bpar g) ch U Q0 HQ0).
  - exists u, (Yv n ch y s - rho n ch y u), (crs n u), w, o. repeat split; auto. lia.
Qed.
(** Parity of the radius at a node. *)
Lemma rho_parity : forall v R, (v < length G)%nat -> arr n v = Some R ->
  exists s, In s ev /\ In R (chn n ch s) /\ Z.Even (Yv n ch y s - rho n ch y v).
Proof.
  intros v R Hv E. destruct (g_walk _ _ _ _ _ _ _ HG v R Hv E) as (s & _ & H2 & H3 & H4).
  exists s. repeat split; auto. eapply walk_even; eauto.
Qed.

(** An event in each region. *)
Lemma region_event : forall R, In R ls -> exists s, In s ev /\ In R (chn n ch s).
Proof.
  intros R HR. pose proof (g_evodd _ _ _ _ _ _ _ HG R HR) as H.
  destruct (filter _ ev) as [|s l] eqn:E; [discriminate|]. exists s.
  assert (Hs : In s (s :: l)) by now left. rewrite <- E in Hs. apply filter_In in Hs as [H1 H2]. split; auto. now apply memb_In.
Qed.
End Facts.

(** ** Changing radii *)
Lemma zsum_chain_move : forall L p ch, up_ok L p ch -> forall (y y' : nat -> Z), (forall R, L R -> p R <> None -> y' R = y R) ->
  forall R, L R -> zsum y' (ch R) = zsum y (ch R) + (y' (root ch R) - y (root ch R)).
Proof.
  intros L p ch U y y' H. apply (up_ind L p ch U (fun R => zsum y' (ch R) = zsum y (ch R) + (y' (root ch R) - y (root ch R)))).
  - intros b Hb E. rewrite (root_none L p ch U b Hb E), (up_eq L p ch U b Hb), E. cbn [zsum]. lia.
  - intros b q Hb E Hq IH. rewrite (root_step L p ch U b q Hb E), (up_eq L p ch U b Hb), E. cbn [zsum].
    rewrite IH, (H b Hb) by congruence. lia.
Qed.

Lemma geo_move : forall G ev n g ls y y' ch, geo G ev n g ls y ch ->
  (forall R, In R ls -> bpar g R <> None -> y' R = y R) ->
  (forall R, In R ls -> 0 <= y' R) ->
  (forall v R, (v < length G)%nat -> arr n v = Some R -> rar n v <= y' R) ->
  (forall u x w o, In (x, w, o) (nbrs G u) -> zsum (fun R => Z.abs (phi n ch y' R (Some u) - phi n ch y' R x)) ls <= w) ->
  geo G ev n g ls y' ch.
Proof.
  intros G ev n g ls y y' ch H Hy H0 Hr Hd. set (L := fun R => In R ls). pose proof (g_up _ _ _ _ _ _ _ H) as U.
  pose proof (zsum_chain_move L _ ch U y y' Hy) as Z1.
  assert (Yeq : forall s R, (s < length G)%nat -> In R (chn n ch s) -> Yv n ch y' s = Yv n ch y s + (y' (root ch R) - y (root ch R))).
  { intros s R Hs HR. unfold Yv, chn in *. destruct (arr n s) as [Q|] eqn:E; [|destruct HR].
    assert (HQ := g_arr _ _ _ _ _ _ _ H s Q Hs E). rewrite (Z1 Q HQ), (root_up L _ ch U Q R HQ HR). reflexivity. }
  assert (Req : forall v R, (v < length G)%nat -> arr n v = Some R -> rho n ch y' v = rho n ch y v + (y' (root ch R) - y (root ch R))).
  { intros v R Hv E. unfold rho. rewrite E. rewrite (Z1 R (g_arr _ _ _ _ _ _ _ H v R Hv E)). lia. }
  pose proof (fun s Hs => proj1 (g_ev _ _ _ _ _ _ _ H s Hs)) as Elt.
  destruct H. split; auto.
  - intros p i Hp Hi. destruct (g_cyc0 p i Hp Hi) as (s & s' & E1 & E2 & E3 & E4 & E5 & E6 & W).
    exists s, s'. repeat split; auto. eapply walk_eq; [exact W| |reflexivity].
    rewrite (Yeq s _ (Elt s E3) E5), (Yeq s' _ (Elt s' E4) E6), (Z1 p Hp).
    assert (Hr1 : forall j, root ch (region_at (chl g p) j) = root ch p).
    { intros j. assert (Hin : In (region_at (chl g p) j) (map fst (chl g p))).
      { unfold region_at. apply in_map. apply nth_In. apply Nat.mod_upper_bound. lia. }
      apply (g_chl0 p _ Hp) in Hin as [Hin1 Hin2]. exact (root_step L _ ch U _ _ Hin1 Hin2). }
    rewrite !Hr1. lia.
  - intros v R Hv E. rewrite (Req v R Hv E), (g_wrp0 v R Hv E). lia.
  - intros v R Hv E. split; [apply (g_rar0 v R Hv E)|eauto].
  - intros v R Hv E. destruct (g_walk0 v R Hv E) as (s & S1 & S2 & S3 & S4). exists s. repeat split; auto.
    eapply walk_eq; [exact S4| |reflexivity]. rewrite (Yeq s R (Elt s S2) S3), (Req v R Hv E). lia.
  - intros s s' R Hs Hs' HR HR'. destruct (g_par0 s s' R Hs Hs' HR HR') as [k Hk].
    rewrite (Yeq s R (Elt s Hs) HR), (Yeq s' R (Elt s' Hs') HR').
    exists (k + (y' (root ch R) - y (root ch R))). lia.
Qed.

Lemma geo_ext : forall G ev n g ls y y' ch, geo G ev n g ls y ch -> (forall R, y' R = y R) -> geo G ev n g ls y' ch.
Proof.
  intros G ev n g ls y y' ch H E. apply (geo_move _ _ _ _ _ y); auto.
  - intros R HR. rewrite E. now apply (g_y0 _ _ _ _ _ _ _ H).
  - intros v R Hv Ea. rewrite E. now apply (g_rar _ _ _ _ _ _ _ H v R).
  - intros u x w o Hin. rewrite (zsum_ext _ _ (fun R => Z.abs (phi n ch y R (Some u) - phi n ch y R x))); [eapply g_dual; eauto|].
    intros R _. unfold phi. rewrite !E. reflexivity.
Qed.

(** ** Integers wide enough

    [to_time] and [to_i32] (M_Core.v) change nothing when the distance they are given is at most the weight of an edge
    or the radii of a region and those around it, if that region is joined to something outside of it. *)
Existing Class ints.
(** [t] can be asked for at time [m], and requests are compared as they should be. *)
Definition timely (NI : ints) (m t : Z) : Prop := to_time NI m t = t /\ forall a b, later NI a b = (a >? b).
Class wfine (NI : ints) (G : graph) : Prop := wfine_t : forall u x w o m t, In (x, w, o) (nbrs G u) -> m <= t <= m + w -> timely NI m t.
(** An event of region [T] is joined to the boundary or to a node outside of [T]. *)
Definition room (G : graph) (ev : list nat) (n : nodesM) (ch : nat -> list nat) (T : nat) : Prop :=
  exists s x l o, In s ev /\ In T (chn n ch s) /\ path G s x l o /\ match x with Some v => ~ In T (chn n ch v) | None => True end.
Class fine (NI : ints) (G : graph) (ev : list nat) : Prop := {
  fine_w : wfine NI G;
  fine_n : forall m, timely NI m m;
  fine_t : forall n g ls y ch, geo G ev n g ls y ch -> forall R, In R ls -> room G ev n ch (root ch R) -> forall m t, m <= t <= m + zsum y (ch R) -> timely NI m t;
  fine_i : forall n g ls y ch, geo G ev n g ls y ch -> forall R, In R ls -> room G ev n ch (root ch R) -> forall x, - zsum y (ch R) <= x <= zsum y (ch R) -> to_i32 NI x = x }.
#[global] Existing Instance fine_w.
Lemma exact_wfine : forall G, wfine exact_ints G.
Proof. intros G u x w o m t _ _. split; reflexivity. Qed.
Lemma exact_fine : forall G ev, fine exact_ints G ev.
Proof. intros G ev. split; [intros u x w o m t _ _; split; reflexivity|split; reflexivity|intros; split; reflexivity|reflexivity]. Qed.

Lemma zsum_sub : forall (f : nat -> Z) l ls, NoDup l -> (forall x, In x l -> In x ls) -> (forall x, In x ls -> 0 <= f x) -> 0 <= zsum f l <= zsum f ls.
Proof.
  intros f l. induction l as [|a l IH]; intros ls N S P.
  - cbn [zsum]. split; [lia|now apply zsum_nonneg].
  - inversion N as [|? ? Na Nl]; subst. assert (Ha : In a ls) by (apply S; now left). apply in_split in Ha as (l1 & l2 & ->).
    rewrite zsum_app. cbn [zsum]. assert (P' : forall x, In x (l1 ++ l2) -> 0 <= f x) by (intros x Hx; apply P; apply in_app_or in Hx; apply in_or_app; cbn [In]; tauto).
    assert (S' : forall x, In x l -> In x (l1 ++ l2)).
    { intros x Hx. assert (x <> a) by (intros ->; contradiction). specialize (S x (or_intror Hx)). apply in_app_or in S. apply in_or_app. cbn [In] in S. intuition congruence. }
    destruct (IH (l1 ++ l2) Nl S' P') as [I1 I2]. rewrite zsum_app in I2. assert (0 <= f a) by (apply P; apply in_or_app; right; now left). lia.
Qed.
