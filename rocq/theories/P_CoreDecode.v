(** Invariants of the decoder's core, part 26: a whole decode. *)
From Coq Require Import ZArith NArith List Bool Arith Lia Permutation Sorting.Sorted.
From Verif Require Import M_Base M_Varying M_Tracker M_Core S_Core S_Session S_Decode S_Tree P_Sum P_Dual P_Up P_Tree P_Tree2 P_Cycle P_CoreGeo P_CoreSched P_CoreArea P_CoreRoles P_CoreSelf P_CoreSelf2 P_CoreHit P_CoreHit2 P_CoreShat P_CoreEvent P_CoreAdd P_CoreEnd P_CoreExt1 P_CoreExt2 P_CoreExt3 P_CorePath P_Ends P_CoreCount.
Import ListNotations.
Local Open Scope Z_scope.

(** The integers [NI] are wide enough for decoding [evs]. *)
Class able (NI : ints) (G : graph) (I : neg_info) (evs : list nat) : Prop := {
  able_w : wfine NI G;
  able_ev : forall ev, NoDup ev -> (forall v, In v ev <-> effective I evs v) -> fine NI G ev }.
#[global] Instance exact_able : forall G I evs, able exact_ints G I evs.
Proof. intros G I evs. split; [exact (fine_w (fine := exact_fine G []))|]. intros ev _ _. apply exact_fine. Qed.

Section Decode.
Variable G : graph.
Hypothesis WF : wf_graph G.

(** The duals bound the weight of every correction. *)
Lemma dual_bound : forall ev n g ls y ch, geo G ev n g ls y ch -> forall F, explains G F ev -> zsum y ls <= weight_of F.
Proof.
  intros ev n g ls y ch HG F [HF Hdeg].
  set (ph := fun R x => match x with Some v => if (v <? length G)%nat then phi n ch y R (Some v) else 0 | None => y R end).
  assert (Rn : forall R x, In R ls -> 0 <= ph R x <= y R).
  { intros R x HR. pose proof (g_y0 _ _ _ _ _ _ _ HG R HR). destruct x as [v|]; cbn [ph]; [|lia]. destruct (Nat.ltb_spec v (length G)); [|lia].
    unfold phi. destruct (same_opt (arr n v) (Some R)) eqn:E; [apply same_opt_spec in E; apply (g_rar _ _ _ _ _ _ _ HG v R H0 E)|]. destruct (memb R (chn n ch v)); lia. }
  apply (weak_duality ls ph y (fun R v => memb R (chn n ch v)) F ev (g_evnd _ _ _ _ _ _ _ HG) Hdeg).
  - intros R HR x. apply Rn; assumption.
  - reflexivity.
  - intros R HR s Hs. destruct (g_ev _ _ _ _ _ _ _ HG s Hs) as (Hl & Q & E1 & _ & _ & E2 & _). cbn [ph]. rewrite (proj2 (Nat.ltb_lt _ _) Hl). unfold phi. destruct (same_opt (arr n s) (Some R)) eqn:E.
    + apply same_opt_spec in E. unfold chn. rewrite E. assert (Hin : In R (ch R)) by (apply (up_self _ _ ch (g_up _ _ _ _ _ _ _ HG)); assumption). apply memb_In in Hin. now rewrite Hin.
    + reflexivity.
  - intros R HR. apply (g_evodd _ _ _ _ _ _ _ HG R HR).
  - intros u x w o Hin. rewrite Forall_forall in HF. destruct (HF _ Hin) as [Hn _]. destruct (nbr_bound G WF _ _ _ _ Hn) as [Hu Hx].
    etransitivity; [|exact (g_dual _ _ _ _ _ _ _ HG u x w o Hn)]. apply Z.eq_le_incl. apply zsum_ext. intros R HR. f_equal. cbn [ph]. rewrite (proj2 (Nat.ltb_lt _ _) Hu). f_equal.
    destruct x as [v|]; [|reflexivity]. cbn [ph]. rewrite (proj2 (Nat.ltb_lt _ _) (Hx v eq_refl)). reflexivity.
Qed.

(** The state in which the matches are read off. *)
Lemma end_rest : forall ev s ls ch al c, arena_ok (ra s) ls -> Core G ev ls ch s al c -> que (sc s) = [] ->
  (forall R, In R ls -> bpar (rg s) R = None -> mated (tgt G ev s ch) (tbt G ev s ch) ls (bpar (rg s)) (sof s) (ma s) R) ->
  let tops := filter (fun R => match bpar (rg s) R with None => true | _ => false end) ls in
  rest G ev s ls (rval (rg s) (now (sc s))) ch tops s /\ Permutation (flat_map (D ls ch) tops) ls /\ Permutation (flat_map (E ev (nd s) ch) tops) ev.
Proof.
  intros ev s ls ch al c AO HC Q0 HM tops. pose proof HC as (HGeo & HQ & HR). pose proof (proj1 HGeo) as HG. pose proof (g_up _ _ _ _ _ _ _ HG) as U. set (y := rval (rg s) (now (sc s))) in *.
  assert (Tp : forall T, In T tops <-> In T ls /\ bpar (rg s) T = None).
  { intros T. unfold tops. rewrite filter_In. destruct (bpar (rg s) T); split; intros [? ?]; split; auto; discriminate. }
  assert (NDt : NoDup tops) by (apply NoDup_filter, (g_nd _ _ _ _ _ _ _ HG)).
  assert (PD : Permutation (flat_map (D ls ch) tops) ls).
  { apply NoDup_Permutation.
    - apply NoDup_flat; [assumption|intros T _; apply (D_NoDup G ev (nd s) (rg s) ls y ch HG)|]. intros T T' Q H1 H2 H3 H4. apply Tp in H1 as [? ?], H2 as [? ?].
      apply (D_root G ev s ls y ch HG) in H3; [|assumption|assumption]. apply (D_root G ev s ls y ch HG) in H4; [|assumption|assumption]. destruct H3, H4. congruence.
    - apply (g_nd _ _ _ _ _ _ _ HG).
    - intros Q. rewrite in_flat_map. split.
      + intros (T & H1 & H2). apply D_In in H2. tauto.
      + intros HQ'. destruct (root_spec _ _ ch U Q HQ') as (R1 & R2 & R3). exists (root ch Q). split; [apply Tp; now split|]. apply D_In. now split. }
  assert (PE : Permutation (flat_map (E ev (nd s) ch) tops) ev).
  { apply NoDup_Permutation.
    - apply NoDup_flat; [assumption|intros T _; apply (E_NoDup G ev (nd s) (rg s) ls y ch HG)|]. intros T T' Q H1 H2 H3 H4. apply Tp in H1 as [? ?], H2 as [? ?].
      apply (E_arr G ev (nd s) (rg s) ls y ch HG) in H3 as (_ & R & X1 & X2). apply (E_arr G ev (nd s) (rg s) ls y ch HG) in H4 as (_ & R' & X1' & X2'). assert (R' = R) by congruence. subst R'.
      apply (D_root G ev s ls y ch HG) in X2; [|assumption|assumption]. apply (D_root G ev s ls y ch HG) in X2'; [|assumption|assumption]. destruct X2, X2'. congruence.
    - apply (g_evnd _ _ _ _ _ _ _ HG).
    - intros v. rewrite in_flat_map. split.
      + intros (T & H1 & H2). apply E_In in H2. tauto.
      + intros Hv. destruct (g_ev _ _ _ _ _ _ _ HG v Hv) as (Hl & R & E1 & _). pose proof (g_arr _ _ _ _ _ _ _ HG v R Hl E1) as HR'. destruct (root_spec _ _ ch U R HR') as (R1 & R2 & R3).
        exists (root ch R). split; [apply Tp; now split|]. apply (E_arr G ev (nd s) (rg s) ls y ch HG). split; [assumption|]. exists R. split; [assumption|]. apply D_In. now split. }
  split; [|split; assumption]. split.
  - split; [reflexivity|]. split; [reflexivity|]. intros R HR'. unfold y, rval. rewrite (vok_distance _ _ (s_vok _ _ _ _ _ _ (proj2 HGeo) R HR')).
    assert (Sl : slp (rad (rg s) R) = 0).
    { destruct (bpar (rg s) R) eqn:Eb; [apply (s_frz _ _ _ _ _ _ (proj2 HGeo) R HR'); congruence|]. apply (HM R HR' Eb). }
    rewrite Sl. lia.
  - assumption.
  - intros T HT. apply Tp in HT as [HTl HTb]. split; [assumption|]. split; [assumption|]. destruct (HM T HTl HTb) as (_ & _ & M).
    assert (Ab : forall T, In T ls -> bpar (rg s) T = None -> above y ch T = 0) by (intros; apply (above_top G ev (nd s) (rg s) ls y ch HG); assumption).
    unfold linked. destruct (mreg (ma s) T) as [q|] eqn:Eq.
    + destruct M as (M1 & M2 & M3 & _ & M4 & M5 & (a & b & A1 & B1 & A2 & B2 & A3 & B3 & W)). exists a. split; [assumption|]. split; [apply E_In; now split|]. split; [assumption|]. split.
      * intros Q H1 H2. apply (D_root G ev s ls y ch HG) in H1; [|assumption|assumption]. apply (D_root G ev s ls y ch HG) in H2; [|assumption|assumption]. destruct H1, H2. congruence.
      * split; [assumption|]. split; [assumption|]. exists b. split; [assumption|]. split; [apply E_In; now split|]. rewrite !Ab by assumption. fold y in W.
        match goal with |- walk _ _ _ ?z _ => replace z with (Yv (nd s) ch y a + Yv (nd s) ch y b - 0) by lia end. exact W.
    + destruct M as (a & A1 & B1 & A2 & A3 & W). exists a. split; [assumption|]. split; [apply E_In; now split|]. split; [assumption|]. rewrite Ab by assumption. rewrite Z.sub_0_r, Z.add_0_r. exact W.
  - intros T q HT Eq. apply Tp in HT as [HTl HTb]. destruct (HM T HTl HTb) as (_ & _ & M). rewrite Eq in M. apply Tp. tauto.
  - apply (arena_perm _ _ _ AO). now symmetry.
  - intros v _ _. repeat split.
  - intros R HR' HN. exfalso. apply HN, Tp. destruct (root_spec _ _ ch U R HR') as (R1 & R2 & R3). now split.
  - reflexivity.
  - reflexivity.
Qed.

Lemma rest_idle : forall ev s ls ch al c, Core G ev ls ch s al c -> que (sc s) = [] -> al = [] ->
  forall s', rest G ev s ls (rval (rg s) (now (sc s))) ch [] s' -> idle G s'.
Proof.
  intros ev s ls ch al c HC Q0 -> s' H. pose proof HC as (HGeo & HQ & HR). pose proof (proj1 HGeo) as HG. split.
  - rewrite (e_que _ _ _ _ _ _ _ _ H). exact Q0.
  - intros v Hv. destruct (arr (nd s) v) as [R|] eqn:Ea.
    + pose proof (g_arr _ _ _ _ _ _ _ HG v R Hv Ea) as HR'. apply (e_clean _ _ _ _ _ _ _ _ H R HR' (fun X => X)). apply (g_shl _ _ _ _ _ _ _ HG R v HR'). now split.
    + assert (X : nodeq s s' v) by (apply (e_keep _ _ _ _ _ _ _ _ H v Hv); rewrite Ea; exact I). destruct X as (A1 & A2 & A3 & A4 & A5 & A6 & A7). rewrite A1, A2, A3, A4, A5, A6, A7.
      destruct (g_emp _ _ _ _ _ _ _ HG v Hv Ea) as (B1 & B2 & B3 & B4 & B5). rewrite Ea. repeat (split; [assumption || reflexivity|]). split.
      * destruct (has_desired (ntr (sc s) v)) eqn:Ed; [|reflexivity]. destruct (q_nd _ _ _ _ _ HQ v Hv Ed) as [E' _]. apply (q_nq _ _ _ _ _ HQ v Hv) in E'. rewrite Q0 in E'. destruct E'.
      * destruct (has_queued (ntr (sc s) v)) eqn:Ed; [|reflexivity]. apply (q_nq _ _ _ _ _ HQ v Hv) in Ed. rewrite Q0 in Ed. destruct Ed.
  - exact (e_arena _ _ _ _ _ _ _ _ H).
  - rewrite (e_ta _ _ _ _ _ _ _ _ H). exact (b_arena _ _ _ _ _ _ _ _ _ _ _ _ HR).
Qed.

Theorem decode_spec : forall {NI : ints} fuel orc I s evs {AB : able NI G I evs}, idle G s -> NoDup evs -> (forall v, In v evs -> (v < length G)%nat) ->
  NoDup (neg_events I) -> (forall v, In v (neg_events I) -> (v < length G)%nat) ->
  exists ev, NoDup ev /\ (forall v, In v ev <-> effective I evs v) /\
  match decode G fuel orc NI I s evs with
  | Ok (s', (o, w, l)) => idle G s' /\ o = N.lxor (xorl l) (neg_obs I) /\ paths G l (w - neg_sum I) /\ Permutation (tips l) ev /\
      forall F, explains G F ev -> w - neg_sum I <= weight_of F
  | Throw => forall F, ~ explains G F ev
  | Fuel => True
  | UB => False
  end.
Proof.
  intros NI fuel orc I s evs AB HI N1 B1 N2 B2. pose proof (able_w (able := AB)) as WI. destruct (add_events_spec G WF I s evs HI N1 B1 N2 B2) as (s1 & ev & E1 & HInv & Hev).
  exists ev. assert (NDev : NoDup ev) by (destruct HInv as (ls & ch & al & c & _ & (HGeo & _)); apply (g_evnd _ _ _ _ _ _ _ (proj1 HGeo))).
  split; [assumption|]. split; [exact Hev|]. pose proof (able_ev ev NDev Hev) as FI.
  unfold decode, process_timeline. rewrite (idle_queue _ _ HI), E1. cbn [bindO].
  pose proof (main_loop_spec G WF ev fuel orc fuel s1 HInv) as ML. destruct (main_loop G fuel orc NI fuel s1) as [s2| | |]; cbn [safe] in ML; try contradiction; [|exact Logic.I].
  destruct ML as (Q0 & ls & ch & al & c & AO & HC). cbn [bindO]. pose proof (end_spec G WF ev s2 ls ch al c HC Q0) as ES.
  destruct (next (ta s2) =? length (free (ta s2)))%nat; [|exact ES]. destruct ES as [Ea HM]. cbn [bindO].
  destruct (end_rest ev s2 ls ch al c AO HC Q0 HM) as (R0 & PD & PE). set (tops := filter _ ls) in *. set (y := rval (rg s2) (now (sc s2))) in *.
  pose proof HC as (HGeo & HQ & HR). pose proof (proj1 HGeo) as HG. fold y in HG.
  pose proof (proj2 (extract_all_spec G ev s2 ls y ch WF HG evs tops s2 R0 B1) fuel) as X1. cbv beta in X1.
  destruct (extract_all fuel NI s2 evs) as [[s3 r3]| | |]; cbn [safe bindO] in *; try contradiction; [|exact Logic.I].
  destruct X1 as (dn & TL & P1 & R1 & RO1 & Dn1). cbn [fst snd] in *.
  assert (FIN : forall s4 r4, (exists dn' TL', Permutation TL (dn' ++ TL') /\ rest G ev s2 ls y ch TL' s4 /\
      res_ok G r4 (zsum y (flat_map (D ls ch) dn')) (zsum y (flat_map (D ls ch) dn')) (flat_map (E ev (nd s2) ch) dn') /\
      (forall v R, In v (neg_events I) -> arr (nd s2) v = Some R -> ~ In (root ch R) TL')) ->
    let '(o, w, l) := res_add r3 r4 in idle G s4 /\ N.lxor o (neg_obs I) = N.lxor (xorl l) (neg_obs I) /\ paths G l (w + neg_sum I - neg_sum I) /\ Permutation (tips l) ev /\
      forall F, explains G F ev -> w + neg_sum I - neg_sum I <= weight_of F).
  { intros s4 r4 (dn' & TL' & P2 & R2 & RO2 & Dn2).
    assert (TL' = []).
    { destruct TL' as [|T TL']; [reflexivity|]. exfalso. destruct (e_top _ _ _ _ _ _ _ _ R2 T (or_introl eq_refl)) as (HT & HTb & (a & A1 & A2 & _)).
      apply E_In in A2 as [A2 A3]. unfold chn in A3. destruct (arr (nd s2) a) as [R|] eqn:Ea'; [|destruct A3]. pose proof (ev_lt G _ _ _ _ _ _ HG a A2) as Hl. pose proof (g_arr _ _ _ _ _ _ _ HG a R Hl Ea') as HR'.
      assert (Er : root ch R = T) by (symmetry; apply (up_root_only _ _ ch (g_up _ _ _ _ _ _ _ HG) R T HR' A3 HTb)).
      assert (Hin : In a evs \/ In a (neg_events I)) by (apply Hev in A2; tauto). destruct Hin as [Hin|Hin].
      - apply (Dn1 a R Hin Ea'). rewrite Er. apply (Permutation_in _ (Permutation_sym P2)). apply in_or_app. right. now left.
      - apply (Dn2 a R Hin Ea'). rewrite Er. now left. }
    subst TL'. rewrite app_nil_r in P2.
    assert (Pt : Permutation (dn ++ dn') tops) by (symmetry; etransitivity; [exact P1|]; apply Permutation_app_head; exact P2).
    pose proof (res_ok_add G _ _ _ _ _ _ _ _ RO1 RO2) as RO. destruct (res_add r3 r4) as [[o w] l]. destruct RO as (O1 & O2 & O3 & O4).
    assert (Sm : zsum y (flat_map (D ls ch) dn) + zsum y (flat_map (D ls ch) dn') = zsum y ls).
    { rewrite <- zsum_app, <- flat_map_app. apply zsum_perm. etransitivity; [apply Perm_flat; exact Pt|exact PD]. }
    rewrite Sm in O2, O3. replace (w + neg_sum I - neg_sum I) with w by lia. subst w.
    split; [apply (rest_idle ev s2 ls ch al c HC Q0 Ea s4 R2)|]. split; [congruence|]. split; [assumption|]. split.
    - etransitivity; [exact O4|]. rewrite <- flat_map_app. etransitivity; [apply Perm_flat; exact Pt|exact PE].
    - intros F HF. apply (dual_bound ev _ _ ls y ch HG F HF). }
  destruct (neg_events I) as [|z0 nl] eqn:En.
  - cbn [bindO]. specialize (FIN s3 (0%N, 0, [])). cbn [fst snd]. destruct (res_add r3 (0%N, 0, [])) as [[o w] l]. apply FIN. exists [], TL. split; [reflexivity|]. split; [assumption|]. split; [apply res_ok_nil|]. intros v R [].
  - pose proof (proj2 (extract_all_spec G ev s2 ls y ch WF HG (z0 :: nl) TL s3 R1 B2) fuel) as X2. cbv beta in X2. cbn [fst snd].
    destruct (extract_all fuel NI s3 (z0 :: nl)) as [[s4 r4]| | |]; cbn [safe bindO] in *; try contradiction; [|exact Logic.I].
    specialize (FIN s4 r4 X2). cbn [fst snd]. destruct (res_add r3 r4) as [[o w] l]. exact FIN.
Qed.

(** A decode ends: with enough fuel its outcome no longer depends on the fuel and is not running out of it. *)
Theorem decode_stops : forall {NI : ints} orc I s evs {AB : able NI G I evs}, idle G s -> NoDup evs -> (forall v, In v evs -> (v < length G)%nat) ->
  NoDup (neg_events I) -> (forall v, In v (neg_events I) -> (v < length G)%nat) -> stops (fun fuel => decode G fuel orc NI I s evs).
Proof.
  intros NI orc I s evs AB HI N1 B1 N2 B2. pose proof (able_w (able := AB)) as WI. destruct (add_events_spec G WF I s evs HI N1 B1 N2 B2) as (s1 & ev & E1 & HInv & Hev).
  assert (NDev : NoDup ev) by (destruct HInv as (ls & ch & al & c & _ & (HGeo & _)); apply (g_evnd _ _ _ _ _ _ _ (proj1 HGeo))).
  pose proof (able_ev ev NDev Hev) as FI.
  assert (PT : stops (fun fuel => process_timeline G fuel orc NI I s evs)).
  { unfold process_timeline. rewrite (idle_queue _ _ HI), E1. cbn [bindO].
    apply stops_bind with (P := fun _ => True).
    - apply (stops_ext _ _ (fun fuel => main_loop G fuel orc NI (fuel - 0) s1) 0); [intros f _; now rewrite Nat.sub_0_r|apply (main_loop_stops G WF ev orc s1 HInv)].
    - intros f. pose proof (main_loop_spec G WF ev f orc f s1 HInv) as ML. destruct (main_loop G f orc NI f s1); cbn [safe] in *; auto.
    - intros s2 _. destruct (_ =? _)%nat; apply stops_ret; discriminate. }
  unfold decode. apply stops_bind_any; [exact PT|]. intros s2 [f E2]. specialize (E2 f (le_n f)).
  unfold process_timeline in E2. rewrite (idle_queue _ _ HI), E1 in E2. cbn [bindO] in E2.
  pose proof (main_loop_spec G WF ev f orc f s1 HInv) as ML. destruct (main_loop G f orc NI f s1) as [s2'| | |]; cbn [safe bindO] in *; try discriminate.
  destruct ML as (Q0 & ls & ch & al & c & AO & HC). pose proof (end_spec G WF ev s2' ls ch al c HC Q0) as ES.
  destruct (next (ta s2') =? length (free (ta s2')))%nat; [|discriminate]. injection E2 as ->. destruct ES as [Ea HM].
  destruct (end_rest ev s2 ls ch al c AO HC Q0 HM) as (R0 & PD & PE). set (tops := filter _ ls) in *. set (y := rval (rg s2) (now (sc s2))) in *.
  pose proof HC as (HGeo & HQ & HR). pose proof (proj1 HGeo) as HG. fold y in HG.
  destruct (extract_all_spec G ev s2 ls y ch WF HG evs tops s2 R0 B1) as [X1 X2]. eapply stops_bind; [exact X1|exact X2|]. clear X1 X2.
  intros [s3 r3] (dn & TL & P1 & R1 & RO1 & Dn1). cbn [fst snd] in *.
  destruct (neg_events I) as [|z0 nl] eqn:En.
  - cbn [bindO fst snd]. destruct (res_add r3 (0%N, 0, [])) as [[o w] l]. apply stops_ok.
  - destruct (extract_all_spec G ev s2 ls y ch WF HG (z0 :: nl) TL s3 R1 B2) as [X1 X2]. eapply stops_bind; [exact X1|exact X2|].
    intros [s4 r4] _. cbn [fst snd]. destruct (res_add r3 r4) as [[o w] l]. apply stops_ok.
Qed.
End Decode.
#[global] Existing Instance exact_ints | 100.
#[global] Existing Instance exact_fine.
#[global] Existing Instance exact_wfine | 0.
