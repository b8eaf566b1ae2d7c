(** Invariants of the decoder's core, part 3: radii over time, areas of regions. *)
From Coq Require Import ZArith NArith List Bool Arith Lia Permutation Sorting.Sorted.
From Verif Require Import M_Base M_Varying M_Tracker M_Core S_Core S_Tree P_Sum P_Up P_Tree P_CoreGeo P_CoreSched.
Import ListNotations.
Local Open Scope Z_scope.

Definition rval (g : regionsM) (t : Z) (R : nat) : Z := get_distance_at_time (rad g R) t.

Record slo (ev : list nat) (n : nodesM) (g : regionsM) (ls : list nat) (ch : nat -> list nat) (t : Z) : Prop := {
  s_vok : forall R, In R ls -> vok (rad g R);
  s_frz : forall R, In R ls -> bpar g R <> None -> slp (rad g R) = 0;
  s_par : forall s R, In s ev -> arr n s = Some R -> slp (rad g (root ch R)) <> 0 -> Z.Even (Yv n ch (rval g t) s + t) }.

Definition Geo (G : graph) (ev : list nat) (s : state) (ls : list nat) (ch : nat -> list nat) : Prop :=
  geo G ev (nd s) (rg s) ls (rval (rg s) (now (sc s))) ch /\ slo ev (nd s) (rg s) ls ch (now (sc s)).

(** The regions in use, and the free slots. *)
Definition arena_ok (a : slots) (ls : list nat) : Prop := Permutation (ls ++ free a) (seq 0 (next a)).
Lemma arena_NoDup : forall a ls, arena_ok a ls -> NoDup ls.
Proof.
  intros a ls H. assert (N : NoDup (ls ++ free a)) by (eapply Permutation_NoDup; [apply Permutation_sym; exact H|apply seq_NoDup]).
  revert N. clear. induction ls; simpl; intros N; [constructor|]. inversion N; subst. constructor; auto. intros Hin. apply H1. apply in_or_app. now left.
Qed.
Lemma arena_alloc : forall a ls r a', arena_ok a ls -> alloc a = (r, a') -> arena_ok a' (r :: ls) /\ ~ In r ls.
Proof.
  intros a ls r a' H E. unfold arena_ok, alloc in *. destruct (free a) as [|p rest] eqn:F; injection E as <- <-; cbn [free next].
  - rewrite app_nil_r in *. split.
    + rewrite seq_S. cbn [Nat.add]. rewrite <- Permutation_cons_append. now constructor.
    + intros Hin. assert (Hin' : In (next a) (seq 0 (next a))) by (eapply Permutation_in; eauto). apply in_seq in Hin'. lia.
  - split.
    + cbn [app]. eapply perm_trans; [|exact H]. apply Permutation_middle.
    + intros Hin. assert (N : NoDup (ls ++ p :: rest)) by (eapply Permutation_NoDup; [apply Permutation_sym; exact H|apply seq_NoDup]).
      apply NoDup_remove in N as [_ N]. apply N. apply in_or_app. now left.
Qed.
Lemma arena_del : forall a ls ls' r, arena_ok a ls -> Permutation ls (r :: ls') -> arena_ok (del a r) ls'.
Proof.
  intros a ls ls' r H P. unfold arena_ok, del in *. cbn [free next]. eapply perm_trans; [|exact H].
  rewrite <- Permutation_middle. change (r :: ls' ++ free a) with ((r :: ls') ++ free a). apply Permutation_app_tail. now apply Permutation_sym.
Qed.

Section Area.
Variable G : graph.
Hypothesis WF : wf_graph G.

Section One.
Variables (ev : list nat) (s : state) (ls : list nat) (ch : nat -> list nat).
Hypothesis HGeo : Geo G ev s ls ch.
Notation t := (now (sc s)).
Notation y := (rval (rg s) (now (sc s))).
Let HG : geo G ev (nd s) (rg s) ls y ch := proj1 HGeo.
Let HS : slo ev (nd s) (rg s) ls ch t := proj2 HGeo.
Let U : up_ok (fun R => In R ls) (bpar (rg s)) ch := g_up _ _ _ _ _ _ _ HG.

Lemma lr_occ : forall v R, (v < length G)%nat -> arr (nd s) v = Some R ->
  vok (local_radius s v) /\ nsl s v = slp (rad (rg s) (root ch R)) /\ icp s v = rho (nd s) ch y v - nsl s v * t.
Proof.
  intros v R Hv E. pose proof (g_arr _ _ _ _ _ _ _ HG v R Hv E) as HR. pose proof (g_top _ _ _ _ _ _ _ HG v R Hv E) as HT.
  pose proof (g_wrp _ _ _ _ _ _ _ HG v R Hv E) as HW.
  destruct (root_spec _ _ ch U R HR) as (_ & Hroot & _).
  pose proof (s_vok _ _ _ _ _ _ HS (root ch R) Hroot) as K.
  destruct (v_add_ok _ (wrp (nd s) v) K) as (V1 & V2 & V3).
  unfold nsl, icp, local_radius. rewrite HT. repeat split; auto. rewrite V3, V2, HW. unfold rval at 2.
  rewrite (vok_distance _ t K). lia.
Qed.
Lemma lr_emp : forall v, (v < length G)%nat -> arr (nd s) v = None ->
  local_radius s v = 0 /\ nsl s v = 0 /\ icp s v = 0 /\ rho (nd s) ch y v = 0.
Proof.
  intros v Hv E. destruct (g_emp _ _ _ _ _ _ _ HG v Hv E) as (HT & _).
  unfold nsl, icp, local_radius, rho. rewrite HT, E. repeat split.
Qed.
Lemma Geo_lrok : lrok G s.
Proof.
  intros v Hv. destruct (arr (nd s) v) as [R|] eqn:E.
  - apply (lr_occ v R Hv E).
  - destruct (lr_emp v Hv E) as [-> _]. apply zero_ok.
Qed.
Lemma icp_rho : forall v, (v < length G)%nat -> icp s v = rho (nd s) ch y v - nsl s v * t.
Proof.
  intros v Hv. destruct (arr (nd s) v) as [R|] eqn:E.
  - apply (lr_occ v R Hv E).
  - destruct (lr_emp v Hv E) as (_ & -> & -> & ->). lia.
Qed.
Lemma nsl_range : forall v, (v < length G)%nat -> nsl s v = -1 \/ nsl s v = 0 \/ nsl s v = 1.
Proof. intros v Hv. apply vok_slp. now apply Geo_lrok. Qed.
(** The top of a node. *)
Lemma top_spec : forall v T, (v < length G)%nat -> top (nd s) v = Some T -> exists R, arr (nd s) v = Some R /\ T = root ch R /\ In R ls /\
  In T (ch R) /\ In T ls /\ bpar (rg s) T = None.
Proof.
  intros v T Hv E. destruct (arr (nd s) v) as [R|] eqn:Ea.
  - pose proof (g_arr _ _ _ _ _ _ _ HG v R Hv Ea) as HR. rewrite (g_top _ _ _ _ _ _ _ HG v R Hv Ea) in E. injection E as <-.
    destruct (root_spec _ _ ch U R HR) as (E1 & E2 & E3). exists R. repeat split; auto.
  - destruct (g_emp _ _ _ _ _ _ _ HG v Hv Ea) as [E1 _]. congruence.
Qed.
Lemma nsl_top_slope : forall v T, (v < length G)%nat -> top (nd s) v = Some T -> nsl s v = slp (rad (rg s) T).
Proof. intros v T Hv E. destruct (top_spec v T Hv E) as (R & Ea & -> & _). apply (lr_occ v R Hv Ea). Qed.
Lemma nsl_none : forall v, (v < length G)%nat -> top (nd s) v = None -> nsl s v = 0.
Proof. intros v Hv E. unfold nsl, local_radius. now rewrite E. Qed.

(** The meeting times in terms of the distances left. *)
Lemma appr_geo : forall u x w o T, In (x, w, o) (nbrs G u) -> appr s u x w = Some T ->
  match x with
  | None => nsl s u = 1 /\ T = t + (w - rho (nd s) ch y u)
  | Some v => top (nd s) u <> top (nd s) v /\
     ((nsl s u + nsl s v = 1 /\ T = t + (w - rho (nd s) ch y u - rho (nd s) ch y v)) \/
      (nsl s u = 1 /\ nsl s v = 1 /\ T = t + (w - rho (nd s) ch y u - rho (nd s) ch y v) / 2)) /\ nsl s u <> -1 /\ nsl s v <> -1
  end.
Proof.
  intros u x w o T Hin Ha. destruct (nbr_bound G WF _ _ _ _ Hin) as [Hu Hb]. unfold appr in Ha.
  pose proof (icp_rho u Hu) as Iu. pose proof (nsl_range u Hu) as Ru.
  destruct x as [v|].
  - specialize (Hb v eq_refl). pose proof (icp_rho v Hb) as Iv. pose proof (nsl_range v Hb) as Rv.
    destruct (same_opt _ _) eqn:S; [discriminate|]. apply same_opt_neq in S. split; [assumption|].
    destruct Ru as [Ru|[Ru|Ru]], Rv as [Rv|[Rv|Rv]]; rewrite Ru, Rv in *; cbn -[Z.div Z.mul Z.sub icp nsl] in Ha; try discriminate;
      injection Ha as <-; (split; [|lia]).
    + left. lia.
    + left. lia.
    + right. repeat split; auto. rewrite Iu, Iv.
      replace (w - (rho (nd s) ch y u - 1 * t) - (rho (nd s) ch y v - 1 * t)) with ((w - rho (nd s) ch y u - rho (nd s) ch y v) + t * 2) by lia.
      rewrite Z.div_add by lia. lia.
  - destruct Ru as [Ru|[Ru|Ru]]; rewrite Ru in *; cbn -[icp nsl Z.sub] in Ha; try discriminate. injection Ha as <-. lia.
Qed.
Lemma Geo_ontime : ontime G s.
Proof.
  intros u x w o T Hin Ha. pose proof (appr_geo u x w o T Hin Ha) as A. destruct (nbr_bound G WF _ _ _ _ Hin) as [Lu Lv]. pose proof (rho_nonneg G _ _ _ _ _ _ HG u Lu) as Pu. destruct x as [v|].
  - destruct A as (Ht & A & _). pose proof (slack G WF _ _ _ _ _ _ HG u v w o Hin Ht).
    pose proof (rho_nonneg G _ _ _ _ _ _ HG v (Lv v eq_refl)) as Pv. destruct A as [[_ ->]|(_ & _ & ->)]; [lia|].
    assert (0 <= (w - rho (nd s) ch y u - rho (nd s) ch y v) / 2) by (apply Z.div_pos; lia).
    assert ((w - rho (nd s) ch y u - rho (nd s) ch y v) / 2 <= w) by (apply Z.div_le_upper_bound; lia). lia.
  - destruct A as [_ ->]. pose proof (slack_B G WF _ _ _ _ _ _ HG u w o Hin). lia.
Qed.
(** When two growing regions meet, the remaining distance is even. *)
Lemma grow_even : forall u v w o, In (Some v, w, o) (nbrs G u) -> nsl s u = 1 -> nsl s v = 1 ->
  Z.Even (w - rho (nd s) ch y u - rho (nd s) ch y v).
Proof.
  intros u v w o Hin Hu Hv. destruct (nbr_bound G WF _ _ _ _ Hin) as [Lu Lv]. specialize (Lv v eq_refl).
  assert (P : forall z, (z < length G)%nat -> nsl s z = 1 -> Z.Even (rho (nd s) ch y z + t)).
  { intros z Hz E. destruct (arr (nd s) z) as [R|] eqn:Ea.
    2:{ destruct (lr_emp z Hz Ea) as (_ & E0 & _). lia. }
    destruct (rho_parity G WF _ _ _ _ _ _ HG z R Hz Ea) as (p & P1 & P2 & [k P3]).
    destruct (chn_root G _ _ _ _ _ _ HG p R (ev_lt G _ _ _ _ _ _ HG p P1) P2) as (Q & Q1 & Q2 & Q3 & _).
    assert (slp (rad (rg s) (root ch Q)) <> 0).
    { rewrite <- Q3. destruct (lr_occ z R Hz Ea) as (_ & E1 & _). lia. }
    destruct (s_par _ _ _ _ _ _ HS p Q P1 Q1 H) as [j J]. exists (j - k). lia. }
  destruct (P u Lu Hu) as [a Pa], (P v Lv Hv) as [b Pb].
  destruct (wf_weight G WF _ _ _ _ Hin) as [_ Ew]. apply Z.even_spec in Ew as [c Ec]. exists (c - a - b + t). lia.
Qed.

(** The time at which a shrinking region leaves a node or vanishes. *)
Lemma shrink_time_geo : forall r, In r ls -> bpar (rg s) r = None -> slp (rad (rg s) r) = -1 ->
  shrink_time s r = t + y r - match shl (rg s) r with [] => 0 | v :: _ => rar (nd s) v end.
Proof.
  intros r Hr Hp Hs. unfold shrink_time. pose proof (s_vok _ _ _ _ _ _ HS r Hr) as K.
  assert (Yr : y r = y_intercept (rad (rg s) r) - t) by (unfold rval; rewrite (vok_distance _ t K), Hs; lia).
  destruct (shl (rg s) r) as [|v l] eqn:E; [lia|].
  assert (Hv : (v < length G)%nat /\ arr (nd s) v = Some r) by (apply (g_shl _ _ _ _ _ _ _ HG r v Hr); rewrite E; now left).
  destruct Hv as [Hv Ea]. destruct (lr_occ v r Hv Ea) as (_ & N & I). rewrite (root_none _ _ ch U r Hr Hp) in N. rewrite I, N, Hs.
  unfold rho. rewrite Ea, (up_eq _ _ ch U r Hr), Hp. cbn [zsum]. lia.
Qed.
Lemma radius_fits : forall r, In r ls -> 0 <= y r <= zsum y (ch r).
Proof.
  intros r Hr. assert (0 <= zsum y [r] <= zsum y (ch r)) as B.
  { apply zsum_sub; [repeat constructor; auto|intros x [<-|[]]; now apply (up_self _ _ ch U)|intros x Hx; apply (g_y0 _ _ _ _ _ _ _ HG); exact (up_all_L _ _ ch U r Hr x Hx)]. }
  cbn [zsum] in B. lia.
Qed.
Lemma shrink_range : forall r, In r ls -> bpar (rg s) r = None -> slp (rad (rg s) r) = -1 -> t <= shrink_time s r <= t + y r.
Proof.
  intros r Hr Hp Hs. rewrite (shrink_time_geo r Hr Hp Hs). pose proof (g_y0 _ _ _ _ _ _ _ HG r Hr).
  destruct (shl (rg s) r) as [|v l] eqn:E; [lia|].
  assert (Hv : (v < length G)%nat /\ arr (nd s) v = Some r) by (apply (g_shl _ _ _ _ _ _ _ HG r v Hr); rewrite E; now left).
  pose proof (g_rar _ _ _ _ _ _ _ HG v r (proj1 Hv) (proj2 Hv)). lia.
Qed.
Lemma shrink_fits : forall NI {FI : fine NI G ev} r, In r ls -> bpar (rg s) r = None -> slp (rad (rg s) r) = -1 -> room G ev (nd s) ch r -> timely NI t (shrink_time s r).
Proof.
  intros NI FI r Hr Hp Hs Hm. rewrite <- (root_none _ _ ch U r Hr Hp) in Hm. apply (fine_t _ _ _ _ _ HG r Hr Hm). pose proof (shrink_range r Hr Hp Hs). pose proof (radius_fits r Hr). lia.
Qed.
Lemma part_fits : forall NI {FI : fine NI G ev} f d l1 l2, In d ls -> room G ev (nd s) ch (root ch d) -> ch d = l1 ++ l2 -> (forall R, In R l1 -> f R = y R) -> to_i32 NI (zsum f l1) = zsum f l1.
Proof.
  intros NI FI f d l1 l2 Hd Hm E Ef. rewrite (zsum_ext _ f y l1 Ef). apply (fine_i _ _ _ _ _ HG d Hd Hm). rewrite E, zsum_app.
  assert (P : forall R, In R (ch d) -> 0 <= y R) by (intros R HR; apply (g_y0 _ _ _ _ _ _ _ HG); exact (up_all_L _ _ ch U d Hd R HR)). rewrite E in P.
  assert (0 <= zsum y l1) by (apply zsum_nonneg; intros R HR; apply P, in_or_app; now left).
  assert (0 <= zsum y l2) by (apply zsum_nonneg; intros R HR; apply P, in_or_app; now right). lia.
Qed.
Lemma rho_fits : forall NI {FI : fine NI G ev} v z r, (v < length G)%nat -> In r ls -> room G ev (nd s) ch (root ch r) -> (forall d, arr (nd s) v = Some d -> room G ev (nd s) ch (root ch d)) -> 0 <= z <= y r -> to_i32 NI (rho (nd s) ch y v - z) = rho (nd s) ch y v - z.
Proof.
  intros NI FI v z r Hv Hr Hm Hmv Hz. pose proof (rho_nonneg G _ _ _ _ _ _ HG v Hv) as P. pose proof (radius_fits r Hr) as B.
  unfold rho in *. destruct (arr (nd s) v) as [d|] eqn:E; [|apply (fine_i _ _ _ _ _ HG r Hr Hm); lia].
  pose proof (g_arr _ _ _ _ _ _ _ HG v d Hv E) as Hd. pose proof (g_rar _ _ _ _ _ _ _ HG v d Hv E).
  destruct (Z_le_gt_dec 0 (zsum y (ch d) - rar (nd s) v - z)); [apply (fine_i _ _ _ _ _ HG d Hd (Hmv d eq_refl))|apply (fine_i _ _ _ _ _ HG r Hr Hm)]; lia.
Qed.
(** A region that a path joins to another one. *)
Lemma tight_room : forall z k r1 r2 e, r1 <> r2 -> bpar (rg s) r1 = None -> bpar (rg s) r2 = None -> tightx G ev (nd s) ch z k r1 r2 e -> room G ev (nd s) ch r1.
Proof.
  intros z k r1 r2 e Hne H1 H2 (a & b & _ & _ & A & B & C & D & W). eexists a, (Some b), _, _. split; [exact A|]. split; [exact C|]. split; [exact W|]. intros X. apply Hne.
  destruct (g_ev _ _ _ _ _ _ _ HG b B) as (Lb & Q & E & _). unfold chn in D, X. rewrite E in D, X. pose proof (g_arr _ _ _ _ _ _ _ HG b Q Lb E) as HQ.
  rewrite (up_root_only _ _ ch U Q r1 HQ X H1). symmetry. now apply (up_root_only _ _ ch U Q r2 HQ D).
Qed.
Lemma tight_room' : forall z k r1 r2 e, r1 <> r2 -> bpar (rg s) r1 = None -> bpar (rg s) r2 = None -> tightx G ev (nd s) ch z k r1 r2 e -> room G ev (nd s) ch r2.
Proof. intros z k r1 r2 e Hne H1 H2 T. apply (tight_room z k r2 r1 (rev_e e)); auto. apply tightx_rev; assumption. Qed.
End One.

(** ** Time passes *)
Lemma time_advance : forall ev s ls ch t', Geo G ev s ls ch -> now (sc s) <= t' ->
  (forall u x w o T, In (x, w, o) (nbrs G u) -> appr s u x w = Some T -> t' <= T) ->
  (forall r, In r ls -> bpar (rg s) r = None -> slp (rad (rg s) r) = -1 -> t' <= shrink_time s r) ->
  forall q, now q = t' -> Geo G ev (set_sc s q) ls ch.
Proof.
  intros ev s ls ch t' HGeo Hle Hap Hsh q Hq. pose proof (proj1 HGeo) as HG. pose proof (proj2 HGeo) as HS.
  unfold Geo. cbn [nd rg sc set_sc]. rewrite Hq. set (t := now (sc s)) in *.
  set (y := rval (rg s) t) in *. set (y' := rval (rg s) t').
  pose proof (g_up _ _ _ _ _ _ _ HG) as U.
  assert (Dy : forall R, In R ls -> y' R = y R + slp (rad (rg s) R) * (t' - t)).
  { intros R HR. unfold y', y, rval. rewrite !(vok_distance _ _ (s_vok _ _ _ _ _ _ HS R HR)). lia. }
  assert (Hnr : forall R, In R ls -> bpar (rg s) R <> None -> y' R = y R).
  { intros R HR Hp. rewrite (Dy R HR), (s_frz _ _ _ _ _ _ HS R HR Hp). lia. }
  (* shrinking regions keep their nodes *)
  assert (Hin : forall R, In R ls -> 0 <= y' R /\ forall v, (v < length G)%nat -> arr (nd s) v = Some R -> rar (nd s) v <= y' R).
  { intros R HR. pose proof (g_y0 _ _ _ _ _ _ _ HG R HR) as Y0.
    assert (Rr : forall v, (v < length G)%nat -> arr (nd s) v = Some R -> 0 <= rar (nd s) v <= y R) by (intros; now apply (g_rar _ _ _ _ _ _ _ HG)).
    destruct (bpar (rg s) R) as [p|] eqn:Ep.
    { rewrite (Hnr R HR) by congruence. split; [assumption|]. intros v Hv Ea. apply (Rr v Hv Ea). }
    destruct (vok_slp _ (s_vok _ _ _ _ _ _ HS R HR)) as [E|[E|E]].
    - pose proof (Hsh R HR Ep E) as Ht. rewrite (shrink_time_geo ev s ls ch HGeo R HR Ep E) in Ht.
      rewrite (Dy R HR), E. fold t in Ht. fold y in Ht. pose proof (g_sort _ _ _ _ _ _ _ HG R HR) as SS.
      destruct (shl (rg s) R) as [|v0 l] eqn:El.
      + split; [lia|]. intros v Hv Ea. exfalso.
        assert (In v (shl (rg s) R)) by (apply (g_shl _ _ _ _ _ _ _ HG R v HR); auto). rewrite El in H. destruct H.
      + assert (Hv0 : (v0 < length G)%nat /\ arr (nd s) v0 = Some R) by (apply (g_shl _ _ _ _ _ _ _ HG R v0 HR); rewrite El; now left).
        pose proof (Rr v0 (proj1 Hv0) (proj2 Hv0)). split; [lia|]. intros v Hv Ea.
        assert (Hi : In v (v0 :: l)) by (rewrite <- El; apply (g_shl _ _ _ _ _ _ _ HG R v HR); auto).
        destruct Hi as [<-|Hi]; [lia|]. apply StronglySorted_inv in SS as [_ SS]. rewrite Forall_forall in SS. specialize (SS v Hi). lia.
    - rewrite (Dy R HR), E. split; [lia|]. intros v Hv Ea. pose proof (Rr v Hv Ea). lia.
    - rewrite (Dy R HR), E. split; [lia|]. intros v Hv Ea. pose proof (Rr v Hv Ea). lia. }
  assert (RD : radii G (nd s) ls y').
  { split; [intros R HR; apply (Hin R HR)|]. intros v R Hv Ea. split.
    - apply (g_rar _ _ _ _ _ _ _ HG v R Hv Ea).
    - apply (Hin R); auto. exact (g_arr _ _ _ _ _ _ _ HG v R Hv Ea). }
  assert (Drho : forall v, (v < length G)%nat -> rho (nd s) ch y' v = rho (nd s) ch y v + nsl s v * (t' - t)).
  { intros v Hv. destruct (arr (nd s) v) as [R|] eqn:Ea.
    - destruct (lr_occ ev s ls ch HGeo v R Hv Ea) as (_ & -> & _). unfold rho. rewrite Ea.
      pose proof (g_arr _ _ _ _ _ _ _ HG v R Hv Ea) as HR.
      rewrite (zsum_chain_move _ _ ch U y y' Hnr R HR). destruct (root_spec _ _ ch U R HR) as (_ & Hr & _). rewrite (Dy _ Hr). lia.
    - destruct (lr_emp ev s ls ch HGeo v Hv Ea) as (_ & -> & _). unfold rho. rewrite Ea. lia. }
  split.
  - apply (geo_move G ev (nd s) (rg s) ls y y' ch HG Hnr).
    + intros R HR. apply (Hin R HR).
    + intros v R Hv Ea. apply (Hin R); auto. exact (g_arr _ _ _ _ _ _ _ HG v R Hv Ea).
    + intros u x w o Hn. destruct (nbr_bound G WF _ _ _ _ Hn) as [Hu Hb].
      pose proof (nsl_range ev s ls ch HGeo u Hu) as Ru.
      destruct x as [v|].
      * specialize (Hb v eq_refl). pose proof (nsl_range ev s ls ch HGeo v Hb) as Rv.
        destruct (same_opt (top (nd s) u) (top (nd s) v)) eqn:S.
        { (* same top: nothing changes *)
          apply same_opt_spec in S.
          rewrite (zsum_ext _ _ (fun R => Z.abs (phi (nd s) ch y R (Some u) - phi (nd s) ch y R (Some v)))).
          - exact (g_dual _ _ _ _ _ _ _ HG u (Some v) w o Hn).
          - intros R HR. f_equal.
            destruct (in_dec Nat.eq_dec R (chn (nd s) ch u)) as [Iu|Iu], (in_dec Nat.eq_dec R (chn (nd s) ch v)) as [Iv|Iv].
            + rewrite (phi_in (nd s) ch y' y R u Iu), (phi_in (nd s) ch y' y R v Iv). reflexivity.
            + rewrite (phi_in (nd s) ch y' y R u Iu), !(phi_out G _ _ _ _ _ _ HG _ R v Iv Hb). f_equal. apply Hnr; [assumption|].
              intros Hp. destruct (chn_root G _ _ _ _ _ _ HG u R Hu Iu) as (Q & Q1 & Q2 & Q3 & Q4).
              rewrite (root_none _ _ ch U R HR Hp) in Q4. rewrite S in Q4.
              destruct (top_spec ev s ls ch HGeo v R Hb Q4) as (Q' & Z1 & Z2 & Z3 & Z4 & _). apply Iv. unfold chn. now rewrite Z1.
            + rewrite (phi_in (nd s) ch y' y R v Iv), !(phi_out G _ _ _ _ _ _ HG _ R u Iu Hu). f_equal. apply Hnr; [assumption|].
              intros Hp. destruct (chn_root G _ _ _ _ _ _ HG v R Hb Iv) as (Q & Q1 & Q2 & Q3 & Q4).
              rewrite (root_none _ _ ch U R HR Hp) in Q4. rewrite <- S in Q4.
              destruct (top_spec ev s ls ch HGeo u R Hu Q4) as (Q' & Z1 & Z2 & Z3 & Z4 & _). apply Iu. unfold chn. now rewrite Z1.
            + rewrite !(phi_out G _ _ _ _ _ _ HG _ R u Iu Hu), !(phi_out G _ _ _ _ _ _ HG _ R v Iv Hb). lia. }
        assert (S' := S). apply same_opt_neq in S'. rewrite (dual_sum G _ _ _ _ _ _ HG y' u v RD Hu Hb (tops_disjoint G _ _ _ _ _ _ HG u v Hu Hb S')).
        rewrite (Drho u Hu), (Drho v Hb). pose proof (slack G WF _ _ _ _ _ _ HG u v w o Hn S') as SL.
        destruct (appr s u (Some v) w) as [T|] eqn:Ea.
        -- pose proof (Hap _ _ _ _ _ Hn Ea) as HT. destruct (appr_geo ev s ls ch HGeo u (Some v) w o T Hn Ea) as (_ & A & _).
           fold t in A. fold y in A. destruct A as [[E ET]|(E1 & E2 & ET)].
           ++ replace (rho (nd s) ch y u + nsl s u * (t' - t) + (rho (nd s) ch y v + nsl s v * (t' - t))) with
                (rho (nd s) ch y u + rho (nd s) ch y v + (nsl s u + nsl s v) * (t' - t)) by lia. rewrite E. lia.
           ++ rewrite E1, E2. pose proof (Z.mul_div_le (w - rho (nd s) ch y u - rho (nd s) ch y v) 2 ltac:(lia)). lia.
        -- unfold appr in Ea. rewrite S in Ea. destruct Ru as [Ru|[Ru|Ru]], Rv as [Rv|[Rv|Rv]]; rewrite Ru, Rv in *; cbn in Ea; try discriminate; lia.
      * rewrite (dual_sum_B G _ _ _ _ _ _ HG y' u RD Hu), (Drho u Hu). pose proof (slack_B G WF _ _ _ _ _ _ HG u w o Hn) as SL.
        destruct (appr s u None w) as [T|] eqn:Ea.
        -- pose proof (Hap _ _ _ _ _ Hn Ea) as HT. destruct (appr_geo ev s ls ch HGeo u None w o T Hn Ea) as (E & ET). fold t in ET. fold y in ET. rewrite E. lia.
        -- unfold appr in Ea. destruct Ru as [Ru|[Ru|Ru]]; rewrite Ru in *; cbn in Ea; try discriminate; lia.
  - destruct HS. split; auto. intros p R Hp Ea Hsl.
    assert (Hlt := ev_lt G _ _ _ _ _ _ HG p Hp). pose proof (g_arr _ _ _ _ _ _ _ HG p R Hlt Ea) as HR.
    destruct (s_par0 p R Hp Ea Hsl) as [k K]. fold t in K. fold y in K. fold y'.
    unfold Yv, chn in *. rewrite Ea in *. rewrite (zsum_chain_move _ _ ch U y y' Hnr R HR).
    destruct (root_spec _ _ ch U R HR) as (_ & Hr & _). rewrite (Dy _ Hr).
    destruct (vok_slp _ (s_vok0 _ Hr)) as [E|[E|E]]; [|contradiction|]; rewrite E.
    + exists k. lia.
    + exists (k + (t' - t)). lia.
Qed.

(** ** Descendants and areas *)
Lemma descendants_spec : forall (L : nat -> Prop) p c g, up_ok L p c ->
  (forall q d, L q -> (In d (map fst (chl g q)) <-> L d /\ p d = Some q)) -> (forall q, L q -> NoDup (map fst (chl g q))) ->
  forall k r, L r -> safe (descendants k g r) (fun l => NoDup l /\ forall d, In d l <-> L d /\ In r (c d)).
Proof.
  intros L p c g U Hc Hn. induction k; intros r Hr; [exact I|]. cbn [descendants].
  assert (F : forall pre post acc, chl g r = pre ++ post ->
    (NoDup acc /\ forall d, In d acc <-> d = r \/ exists x, In x (map fst pre) /\ L d /\ In x (c d)) ->
    safe (fold_left (fun acc c => bindO acc (fun l => bindO (descendants k g (fst c)) (fun l' => Ok (l ++ l')))) post (Ok acc))
      (fun l => NoDup l /\ forall d, In d l <-> d = r \/ exists x, In x (map fst (chl g r)) /\ L d /\ In x (c d))).
  { intros pre post. revert pre. induction post as [|[x e] post IHp]; intros pre acc E [A1 A2].
    - cbn [fold_left]. rewrite app_nil_r in E. rewrite E. split; auto.
    - cbn [fold_left bindO fst].
      assert (Lx : L x /\ p x = Some r). { apply Hc; auto. rewrite E, map_app. apply in_or_app. right. now left. }
      pose proof (IHk x (proj1 Lx)) as S. destruct (descendants k g x) as [l'| | |] eqn:Ed; simpl in S; try contradiction.
      2:{ cbn [bindO]. clear. induction post as [|a l IH]; [exact I|]. cbn [fold_left bindO]. exact IH. }
      cbn [bindO]. destruct S as [S1 S2]. apply (IHp (pre ++ [(x, e)])).
      + rewrite E, <- app_assoc. reflexivity.
      + split.
        * assert (Dj : forall d, In d acc -> In d l' -> False).
          { intros d H1 H2. apply S2 in H2 as [Ld Hx]. apply A2 in H1 as [->|(z & Z1 & _ & Z3)].
            - pose proof (up_strict L p c U x r x (proj1 Lx) (proj2 Lx) Hx). lia.
            - assert (z = x).
              { apply (up_child_unique L p c U d z x r Ld Z3 Hx); [|apply Lx].
                apply Hc; auto. rewrite E, map_app. apply in_or_app. now left. }
              subst z. pose proof (Hn r Hr) as N. rewrite E, map_app in N. simpl in N. apply NoDup_remove in N as [_ N].
              apply N. apply in_or_app. now left. }
          clear - A1 S1 Dj. induction acc; simpl; [assumption|]. inversion A1; subst. constructor.
          -- intros Hi. apply in_app_or in Hi as [Hi|Hi]; [contradiction|]. apply (Dj a); simpl; auto.
          -- apply IHacc; auto. intros d H1' H2'. apply (Dj d); simpl; auto.
        * intros d. rewrite in_app_iff, A2, S2, map_app. split.
          -- intros [[->|(z & Z1 & Z2)]|[Ld Hx]].
             ++ now left.
             ++ right. exists z. split; [apply in_or_app; now left|assumption].
             ++ right. exists x. split; [apply in_or_app; right; now left|auto].
          -- intros [->|(z & Z1 & Z2)]; [left; now left|]. apply in_app_or in Z1 as [Z1|[<-|[]]].
             ++ left. right. now exists z.
             ++ right. assumption. }
  eapply safe_impl; [apply (F [] (chl g r) [r] eq_refl)|].
  - split; [repeat constructor; intros []|]. intros d. split.
    + intros [<-|[]]. now left.
    + intros [->|(z & [] & _)]. now left.
  - intros l [N1 N2]. split; [assumption|]. intros d. rewrite N2. split.
    + intros [->|(z & Z1 & Z2 & Z3)]; [split; [assumption|now apply (up_self L p c U)]|]. split; [assumption|].
      apply Hc in Z1 as [Lz Pz]; auto. apply (up_trans L p c U d z r Z2 Z3). rewrite (up_eq L p c U z Lz), Pz. right. now apply (up_self L p c U).
    + intros [Ld Hd]. destruct (Nat.eq_dec d r) as [->|Hne]; [now left|]. right.
      destruct (up_child L p c U d Ld r Hd Hne) as (z & Z1 & Z2 & Z3). exists z. repeat split; auto. apply Hc; auto.
Qed.

Lemma area_spec : forall ev n g ls y ch, geo G ev n g ls y ch -> forall s fuel r, In r ls -> shl (rg s) = shl g -> chl (rg s) = chl g ->
  safe (total_area fuel s r) (fun l => forall v, In v l <-> (v < length G)%nat /\ In r (chn n ch v)).
Proof.
  intros ev n g ls y ch HG s fuel r Hr Es Ec. unfold total_area. eapply safe_bind.
  - apply (descendants_spec (fun R => In R ls) (bpar g) ch (rg s)).
    + exact (g_up _ _ _ _ _ _ _ HG).
    + rewrite Ec. apply (g_chl _ _ _ _ _ _ _ HG).
    + rewrite Ec. apply (g_chnd _ _ _ _ _ _ _ HG).
    + exact Hr.
  - intros l [_ Hl]. cbn [safe]. intros v. rewrite in_flat_map. rewrite Es. split.
    + intros (R & H1 & H2). apply Hl in H1 as [H1 H3]. apply (g_shl _ _ _ _ _ _ _ HG R v H1) in H2 as [H2 H4].
      split; [assumption|]. unfold chn. now rewrite H4.
    + intros [Hv H]. unfold chn in H. destruct (arr n v) as [R|] eqn:E; [|destruct H].
      exists R. assert (HR := g_arr _ _ _ _ _ _ _ HG v R Hv E). split; [apply Hl; auto|]. apply (g_shl _ _ _ _ _ _ _ HG R v HR). auto.
Qed.
Lemma area_top : forall ev s ls ch, Geo G ev s ls ch -> forall r v, In r ls -> bpar (rg s) r = None -> (v < length G)%nat ->
  (In r (chn (nd s) ch v) <-> top (nd s) v = Some r).
Proof.
  intros ev s ls ch HGeo r v Hr Hp Hv. split; intros H.
  - destruct (chn_root G _ _ _ _ _ _ (proj1 HGeo) v r Hv H) as (_ & _ & _ & _ & E). rewrite E. f_equal.
    exact (root_none _ _ ch (g_up _ _ _ _ _ _ _ (proj1 HGeo)) r Hr Hp).
  - destruct (top_spec ev s ls ch HGeo v r Hv H) as (R & E & -> & _ & H1 & _). unfold chn. now rewrite E.
Qed.
End Area.
