(** Invariants of the decoder's core, part 25: all matches are read off, and the decoder is idle again. *)
From Coq Require Import ZArith NArith List Bool Arith Lia Permutation Sorting.Sorted.
From Verif Require Import M_Base M_Varying M_Tracker M_Core S_Core S_Session S_Tree P_Sum P_Dual P_Up P_Tree P_Tree2 P_Cycle P_CoreGeo P_CoreSched P_CoreArea P_CoreRoles P_CoreSelf2 P_CoreEnd P_CoreTops P_CoreHit2 P_CoreExt1 P_CoreExt2 P_Ends P_CoreHalt.
Import ListNotations.
Local Open Scope Z_scope.

Section All.
Context {NI : ints}.
Variables (G : graph) (ev : list nat) (s0 : state) (ls : list nat) (y : nat -> Z) (ch : nat -> list nat).
Hypothesis WF : wf_graph G.
Notation n0 := (nd s0).
Notation g0 := (rg s0).
Hypothesis HG : geo G ev n0 g0 ls y ch.
Let U : up_ok (fun R => In R ls) (bpar g0) ch := g_up _ _ _ _ _ _ _ HG.
Notation D := (D ls ch).
Notation E := (E ev n0 ch).
Notation linked := (linked G ev n0 ls y ch).
Notation clean := (clean g0).
Notation intact := (intact g0 ls y).

Lemma D_root : forall T Q, In T ls -> bpar g0 T = None -> (In Q (D T) <-> In Q ls /\ root ch Q = T).
Proof.
  intros T Q HT Hb. rewrite D_In. split; intros [H1 H2]; split; auto.
  - symmetry. apply (up_root_only _ _ ch U Q T H1 H2 Hb).
  - rewrite <- H2. apply (root_spec _ _ ch U Q H1).
Qed.

(** The state while the matches of the top regions [TL] are still to be read off. *)
Record rest (TL : list nat) (s : state) : Prop := {
  e_int : intact s;
  e_nd : NoDup TL;
  e_top : forall T, In T TL -> In T ls /\ bpar g0 T = None /\ linked s T 0;
  e_pair : forall T q, In T TL -> mreg (ma s) T = Some q -> In q TL;
  e_arena : arena_ok (ra s) (flat_map D TL);
  e_keep : forall v, (v < length G)%nat -> match arr n0 v with Some R => In (root ch R) TL | None => True end -> nodeq s0 s v;
  e_clean : forall R, In R ls -> ~ In (root ch R) TL -> clean s R;
  e_ta : ta s = ta s0;
  e_que : que (sc s) = que (sc s0) }.

Lemma rest_step : forall TL s v T, rest TL s -> (v < length G)%nat -> arr (nd s) v <> None -> top (nd s) v = Some T -> In T TL ->
  ends (fun fuel => extract fuel NI fuel s T) (fun z => exists pt TL', Permutation TL (pt ++ TL') /\ In T pt /\ rest TL' (fst z) /\
    res_ok G (snd z) (zsum y (flat_map D pt)) (zsum y (flat_map D pt)) (flat_map E pt)).
Proof.
  intros TL s v T H Hv Ha Ht HT. destruct (e_top _ _ H T HT) as (HTl & HTb & HL).
  assert (PT : exists TL', Permutation TL ((T :: opt (mreg (ma s) T)) ++ TL')).
  { destruct (in_split T TL HT) as (l1 & l2 & E1). destruct (mreg (ma s) T) as [q|] eqn:Eq; cbn [opt].
    - assert (Hq : In q (l1 ++ l2)).
      { pose proof (e_pair _ _ H T q HT Eq) as Hq. rewrite E1 in Hq. apply in_app_or in Hq as [Hq|[<-|Hq]]; try (apply in_or_app; tauto). exfalso.
        destruct HL as (a & _ & _ & HL). rewrite Eq in HL. destruct HL as (_ & X & _). apply (X T); apply (D_self G ev n0 g0 ls y ch HG T HTl). }
      destruct (in_split q _ Hq) as (l3 & l4 & E2). exists (l3 ++ l4). rewrite E1. etransitivity; [symmetry; apply Permutation_middle|]. cbn [app]. constructor. rewrite E2. symmetry. apply Permutation_middle.
    - exists (l1 ++ l2). rewrite E1. cbn [app]. symmetry. apply Permutation_middle. }
  destruct PT as (TL' & PT). set (pt := T :: opt (mreg (ma s) T)) in *.
  assert (Dpt : flat_map D pt = D T ++ pd ls ch s T) by (unfold pt, pd; cbn [flat_map]; destruct (mreg (ma s) T); cbn [opt flat_map]; rewrite ?app_nil_r; reflexivity).
  assert (Ept : flat_map E pt = E T ++ pe ev n0 ch s T) by (unfold pt, pe; cbn [flat_map]; destruct (mreg (ma s) T); cbn [opt flat_map]; rewrite ?app_nil_r; reflexivity).
  assert (ND : NoDup (pt ++ TL')) by (apply (Permutation_NoDup PT), (e_nd _ _ H)).
  assert (Dis : forall a, In a pt -> ~ In a TL').
  { clear -ND. induction pt as [|b pt IH]; [intros ? []|]. cbn [app] in ND. apply NoDup_cons_iff in ND as [N1 N2]. intros a [<-|Ha]; [intros X; apply N1, in_or_app; now right|]. apply IH; assumption. }
  assert (Ptl : forall a, In a pt -> In a TL) by (intros a Hx; apply (Permutation_in _ (Permutation_sym PT)), in_or_app; now left).
  assert (Ttl : forall a, In a TL' -> In a TL) by (intros a Hx; apply (Permutation_in _ (Permutation_sym PT)), in_or_app; now right).
  assert (AO : arena_ok (ra s) (D T ++ pd ls ch s T ++ flat_map D TL')).
  { apply (arena_perm _ _ _ (e_arena _ _ H)). rewrite app_assoc, <- Dpt, <- flat_map_app. apply Perm_flat. exact PT. }
  apply (ends_ext _ _ (fun fuel => extract fuel NI (fuel - 0) s T)); [intros fuel; now rewrite Nat.sub_0_r|].
  eapply ends_impl; [apply (extract_spec G ev n0 g0 ls y ch WF HG (S (length (D T ++ pd ls ch s T))) 0 s T 0 _ (Nat.lt_succ_diag_r _) HTl (e_int _ _ H) HL AO)|]. cbv beta. intros z (Z1 & Z2 & Z3 & Z4).
  exists pt, TL'. rewrite Dpt, Ept. split; [assumption|]. split; [now left|]. split; [|eapply res_ok_eq; [exact Z4|lia|lia|reflexivity]]. rewrite <- Dpt in Z1, Z2.
  assert (Xpt : forall R, In R ls -> (In R (flat_map D pt) <-> In (root ch R) pt)).
  { intros R HR. rewrite in_flat_map. split.
    - intros (t & T1 & T2). destruct (e_top _ _ H t (Ptl t T1)) as (X1 & X2 & _). apply (D_root t R X1 X2) in T2 as [_ T2]. now rewrite T2.
    - intros X. exists (root ch R). split; [assumption|]. destruct (e_top _ _ H _ (Ptl _ X)) as (X1 & X2 & _). apply D_root; auto. }
  assert (Keep : forall T', In T' TL' -> linked (fst z) T' 0 /\ mreg (ma (fst z)) T' = mreg (ma s) T').
  { intros T' HT'. destruct (e_top _ _ H T' (Ttl T' HT')) as (X1 & X2 & X3). apply (linked_frame G ev n0 ls y ch s (fst z) T' 0 X3).
    assert (Fm : forall R, In R TL' -> mreg (ma (fst z)) R = mreg (ma s) R /\ medge (ma (fst z)) R = medge (ma s) R).
    { intros R HR. apply (fr_ma _ _ _ _ _ _ Z1). cbv beta. destruct (e_top _ _ H R (Ttl R HR)) as (Y1 & Y2 & _). rewrite (Xpt R Y1). rewrite (root_none _ _ ch U R Y1 Y2). intros X. apply (Dis R X HR). }
    intros R [->|HR]; [apply Fm; assumption|]. apply Fm. pose proof (e_pair _ _ H T' R (Ttl _ HT') HR) as HR'. apply (Permutation_in _ PT) in HR'. apply in_app_or in HR' as [HR'|HR']; [|assumption]. exfalso.
    (* the partner of a region of [pt] is in [pt] *)
    assert (MR : mreg (ma s) R = Some T') by (destruct X3 as (a & _ & _ & X3); rewrite HR in X3; tauto).
    apply (Dis T'); [|assumption]. destruct HR' as [<-|HR'].
    - right. rewrite MR. now left.
    - destruct (mreg (ma s) T) as [q|] eqn:Eq; [|destruct HR']. destruct HR' as [<-|[]]. destruct HL as (a & _ & _ & HL). rewrite Eq in HL. destruct HL as (_ & _ & X & _). assert (T = T') by congruence. subst. now left. }
  split.
  - exact (fr_intact _ _ _ _ _ _ _ Z1 (e_int _ _ H)).
  - clear -ND. induction pt as [|b pt IH]; [exact ND|]. apply IH. now apply NoDup_cons_iff in ND.
  - intros T' HT'. destruct (e_top _ _ H T' (Ttl T' HT')) as (X1 & X2 & X3). split; [assumption|]. split; [assumption|]. apply Keep; assumption.
  - intros T' q HT' Eq. rewrite (proj2 (Keep T' HT')) in Eq. pose proof (e_pair _ _ H T' q (Ttl _ HT') Eq) as HR'. apply (Permutation_in _ PT) in HR'. apply in_app_or in HR' as [HR'|HR']; [|assumption]. exfalso.
    destruct (e_top _ _ H T' (Ttl T' HT')) as (X1 & X2 & X3). assert (MR : mreg (ma s) q = Some T') by (destruct X3 as (a & _ & _ & X3); rewrite Eq in X3; tauto).
    apply (Dis T'); [|assumption]. destruct HR' as [<-|HR'].
    + right. rewrite MR. now left.
    + destruct (mreg (ma s) T) as [q'|] eqn:Eq'; [|destruct HR']. destruct HR' as [<-|[]]. destruct HL as (a & _ & _ & HL). rewrite Eq' in HL. destruct HL as (_ & _ & X & _). assert (T = T') by congruence. subst. now left.
  - exact Z3.
  - intros u Hu Hk. assert (X1 : nodeq s0 s u) by (apply (e_keep _ _ H u Hu); destruct (arr n0 u); auto).
    assert (X2 : nodeq s (fst z) u).
    { apply (fr_nd _ _ _ _ _ _ Z1). intros R HR HRl Hin. destruct (shl_arr G ev n0 g0 ls y ch HG R u HRl Hin) as [_ A2]. rewrite A2 in Hk. apply (Xpt R HRl) in HR. apply (Dis _ HR Hk). }
    destruct X1 as (A1 & A2 & A3 & A4 & A5 & A6 & A7), X2 as (B1 & B2 & B3 & B4 & B5 & B6 & B7). repeat split; congruence.
  - intros R HR HN. destruct (in_dec Nat.eq_dec R (flat_map D pt)) as [X|X]; [apply Z2; assumption|].
    apply (fr_clean G ev n0 g0 ls y ch HG _ _ s (fst z) R Z1 HR X). apply (e_clean _ _ H R HR). intros X'. apply (Permutation_in _ PT) in X'. apply in_app_or in X' as [X'|X']; [|contradiction]. apply X, Xpt; assumption.
  - rewrite (fr_ta _ _ _ _ _ _ Z1). apply (e_ta _ _ H).
  - rewrite (fr_que _ _ _ _ _ _ Z1). apply (e_que _ _ H).
Qed.

Lemma extract_all_spec : forall evs TL s, rest TL s -> (forall v, In v evs -> (v < length G)%nat) ->
  ends (fun fuel => extract_all fuel NI s evs) (fun z => exists dn TL', Permutation TL (dn ++ TL') /\ rest TL' (fst z) /\
    res_ok G (snd z) (zsum y (flat_map D dn)) (zsum y (flat_map D dn)) (flat_map E dn) /\
    (forall v R, In v evs -> arr n0 v = Some R -> ~ In (root ch R) TL')).
Proof.
  intros evs TL s H Bd. unfold extract_all.
  refine (ends_fold _ _ (fun fuel st v => let '(s, res) := st in match arr (nd s) v with None => Ok (s, res) | Some _ => bindO (deref (top (nd s) v)) (fun r => bindO (extract fuel NI fuel s r) (fun y0 => Ok (fst y0, res_add res (snd y0)))) end) evs
    (fun don z => exists dn TL', Permutation TL (dn ++ TL') /\ rest TL' (fst z) /\
    res_ok G (snd z) (zsum y (flat_map D dn)) (zsum y (flat_map D dn)) (flat_map E dn) /\
    (forall v R, In v don -> arr n0 v = Some R -> ~ In (root ch R) TL')) _ _ _).
  - exists [], TL. split; [reflexivity|]. split; [exact H|]. split; [apply res_ok_nil|]. intros v R [].
  - intros don v rst [s1 res] El (dn & TL' & P & R & RO & Dn). cbn [fst snd] in *.
    assert (Hv : (v < length G)%nat) by (apply Bd; rewrite El; apply in_or_app; right; now left).
    destruct (arr (nd s1) v) as [R1|] eqn:Ea.
    + destruct (arr n0 v) as [R0|] eqn:E0.
      2:{ exfalso. pose proof (e_keep _ _ R v Hv) as X. rewrite E0 in X. destruct (X Logic.I) as (X1 & _). rewrite Ea, E0 in X1. discriminate. }
      pose proof (g_arr _ _ _ _ _ _ _ HG v R0 Hv E0) as HR0.
      assert (HT : In (root ch R0) TL').
      { destruct (in_dec Nat.eq_dec (root ch R0) TL') as [X|X]; [assumption|]. exfalso. pose proof (e_clean _ _ R R0 HR0 X v) as X'. destruct X' as (X1 & _); [apply (g_shl _ _ _ _ _ _ _ HG R0 v HR0); now split|]. congruence. }
      assert (Et : top (nd s1) v = Some (root ch R0)).
      { pose proof (e_keep _ _ R v Hv) as X. rewrite E0 in X. destruct (X HT) as (_ & X2 & _). rewrite X2. apply (g_top _ _ _ _ _ _ _ HG v R0 Hv E0). }
      rewrite Et. cbn [deref bindO]. eapply ends_bind; [apply (rest_step TL' s1 v (root ch R0) R Hv); [congruence|assumption|assumption]|]. cbv beta. intros z (pt & TL'' & P' & Hin & R' & RO'). apply ends_ok. cbn [fst snd].
      exists (dn ++ pt), TL''. split; [|split; [|split]].
      * etransitivity; [exact P|]. rewrite <- app_assoc. apply Permutation_app_head. exact P'.
      * exact R'.
      * rewrite !flat_map_app, zsum_app. apply (res_ok_add G _ _ _ _ _ _ _ _ RO RO').
      * intros u Q Hu Eu X. apply in_app_or in Hu as [Hu|[<-|[]]].
        -- apply (Dn u Q Hu Eu). apply (Permutation_in _ (Permutation_sym P')). apply in_or_app. now right.
        -- assert (Q = R0) by congruence. subst Q. assert (ND : NoDup (pt ++ TL'')) by (apply (Permutation_NoDup P'), (e_nd _ _ R)).
           clear -ND Hin X. induction pt as [|b pt IH]; [destruct Hin|]. cbn [app] in ND. apply NoDup_cons_iff in ND as [N1 N2]. destruct Hin as [Hb|Hin]; [rewrite <- Hb in X; apply N1, in_or_app; now right|now apply IH].
    + apply ends_ok. cbn [fst snd]. exists dn, TL'. split; [assumption|]. split; [assumption|]. split; [assumption|]. intros u Q Hu Eu X. apply in_app_or in Hu as [Hu|[<-|[]]]; [apply (Dn u Q Hu Eu X)|].
      pose proof (e_keep _ _ R v Hv) as X0. rewrite Eu in X0. destruct (X0 X) as (X1 & _). congruence.
Qed.
End All.
