(** Decoding graphs made by calls, with exact and with 32-bit integers. *)
From Coq Require Import Reals ZArith NArith List Bool Arith Lia Lra Permutation.
From Verif Require Import M_Base M_Core M_Session S_Core S_Session S_Decode S_Reach M_Build S_Build P_Tree P_Build P_Convert P_Convert2 P_UserCorr
  M_Flip S_Flip P_Flip M_Search S_Search M_ToEdges S_ToEdges P_ToEdges P_ToEdges2 P_CoreGeo P_CoreDecode P_Signed P_Decode P_Halt P_Halt2 P_Machine
  M_Discretise P_Discretise M_Merge P_Merge M_Pipeline M_UserGraph S_UserGraph P_UserGraph S_Spread S_Pipeline P_Pipeline P_Pipeline2.
Import ListNotations.
Local Open Scope nat_scope.

(** ** 32-bit integers *)
Lemma discretise_neg : forall c x, (0 <= c)%R -> (discretise c x < 0)%Z -> (x < 0)%R.
Proof. intros c x Hc H. apply Rnot_le_lt. intros H0. pose proof (discretise_pos c x Hc H0). lia. Qed.
Lemma total_bound : forall m L, (forall e, In e L -> Z.abs (s_weight e) <= m)%Z -> (s_abs L <= Z.of_nat (length L) * m)%Z /\ (s_total L <= Z.of_nat (length L) * m)%Z.
Proof.
  intros m L. induction L as [|e L IH]; intros H; [split; reflexivity|]. destruct IH as [I1 I2]; [intros x Hx; apply H; now right|]. pose proof (H e (or_introl eq_refl)) as He.
  rewrite s_abs_cons. unfold s_total in *. cbn [fold_right length] in *. rewrite Nat2Z.inj_succ. lia.
Qed.
Section Machine.
Variable g : ugraph RN.
Hypothesis INV : Inv g.
Hypothesis FL : flags_ok RN g.
Hypothesis WR : forall e, In e (edges g) -> w_exceeds RN (weight e) = false.
Variables (d : decoder) (c : R) (sg : sgraph).
Hypothesis DO : decoder_of g d c sg.
Hypothesis HARM : conversion_harmless g.
Let n := num_nodes g.
Let B := fun v => is_boundary_node g (Some v).
Let E := map (discretised_edge c) (edges g).
Let C := convert_all n B E.
Lemma negs_few : forall N, (forall e, In e (edges g) -> (weight e < 0)%R -> In e N) -> length (negs C) <= length N.
Proof.
  intros N HN. assert (ND : NoDup (negs C)) by (apply NoDup_filter; exact (conv_NoDup n B E (E_fop g INV c))).
  destruct (origs n B E (E_below g INV c) (negs C) (incl_filter _ _) ND) as [F HF].
  assert (L : length (negs C) = length F) by (clear - HF; induction HF; cbn; congruence). rewrite L.
  assert (NF : NoDup F) by exact (origs_NoDup n B E (E_below g INV c) _ _ HF (incl_filter _ _) ND).
  rewrite <- (map_length (discretised_edge c) N). apply NoDup_incl_length; [exact NF|].
  assert (W : forall y, In y F -> In y E /\ (s_weight y < 0)%Z).
  { clear - HF. assert (X : forall e, In e (negs C) -> (s_weight e < 0)%Z) by (intros e He; apply filter_In in He as [_ He]; now apply Z.ltb_lt in He).
    revert X. induction HF as [|a b l l' H HF IH]; intros X y Hy; [destruct Hy|]. destruct Hy as [<-|Hy]; [|apply IH; [intros e He; apply X; now right|exact Hy]].
    destruct H as (H1 & H2 & _). split; [exact H1|]. rewrite H2. apply X. now left. }
  intros y Hy. destruct (W y Hy) as [H1 H2]. apply in_map_iff in H1 as (e & <- & He). apply in_map. apply HN; [exact He|]. apply (discretise_neg c); [left; exact (c_pos g c (do_c _ _ _ _ DO))|exact H2].
Qed.
Lemma s_abs_app : forall l l', s_abs (l ++ l') = (s_abs l + s_abs l')%Z.
Proof. clear. induction l as [|e l IH]; intros l'; [reflexivity|]. cbn [app]. rewrite !s_abs_cons, IH. lia. Qed.
Lemma abs_sub : forall L L', NoDup L -> incl L L' -> (s_abs L <= s_abs L')%Z.
Proof.
  clear. induction L as [|e L IH]; intros L' ND HI.
  - clear ND HI. unfold s_abs. cbn. induction L'; cbn; lia.
  - apply NoDup_cons_iff in ND as [N1 N2]. destruct (in_split e L' (HI e (or_introl eq_refl))) as (A & A' & ->). specialize (IH (A ++ A') N2).
    assert (HI' : incl L (A ++ A')). { intros x Hx. specialize (HI x (or_intror Hx)). apply in_app_or in HI. apply in_or_app. destruct HI as [?|[<-|?]]; [now left|contradiction|now right]. }
    specialize (IH HI'). rewrite s_abs_cons, !s_abs_app in *. rewrite s_abs_cons. lia.
Qed.
Lemma negs_part : forall N, (forall e, In e (edges g) -> (weight e < 0)%R -> In e N) -> (s_abs (negs C) <= s_abs (map (discretised_edge c) N))%Z.
Proof.
  intros N HN. assert (ND : NoDup (negs C)) by (apply NoDup_filter; exact (conv_NoDup n B E (E_fop g INV c))).
  destruct (origs n B E (E_below g INV c) (negs C) (incl_filter _ _) ND) as [F HF].
  assert (NF : NoDup F) by exact (origs_NoDup n B E (E_below g INV c) _ _ HF (incl_filter _ _) ND).
  assert (L : s_abs (negs C) = s_abs F) by (clear - HF; induction HF as [|a b l l' H HF IH]; [reflexivity|]; rewrite !s_abs_cons, IH; destruct H as (_ & -> & _); reflexivity). rewrite L.
  apply abs_sub; [exact NF|].
  assert (W : forall y, In y F -> In y E /\ (s_weight y < 0)%Z).
  { clear - HF. assert (X : forall e, In e (negs C) -> (s_weight e < 0)%Z) by (intros e He; apply filter_In in He as [_ He]; now apply Z.ltb_lt in He).
    revert X. induction HF as [|a b l l' H HF IH]; intros X y Hy; [destruct Hy|]. destruct Hy as [<-|Hy]; [|apply IH; [intros e He; apply X; now right|exact Hy]].
    destruct H as (H1 & H2 & _). split; [exact H1|]. rewrite H2. apply X. now left. }
  intros y Hy. destruct (W y Hy) as [H1 H2]. apply in_map_iff in H1 as (e & <- & He). apply in_map. apply HN; [exact He|]. apply (discretise_neg c); [left; exact (c_pos g c (do_c _ _ _ _ DO))|exact H2].
Qed.
(** Integer weights are doubled. *)
Lemma disc_integer : integer_weights g -> forall e, In e (edges g) -> IZR (Z.abs (s_weight (discretised_edge c e))) = (2 * Rabs (weight e))%R.
Proof.
  intros HI e He. destruct (HI e He) as [k Ek]. assert (HW : forall w, In w (map weight (edges g)) -> exists k, w = IZR k) by (intros w Hw; apply in_map_iff in Hw as (e' & <- & He'); now apply HI).
  cbn [discretised_edge s_weight]. rewrite (discretise_integral _ c (do_c _ _ _ _ DO) HW (weight e) k (in_map weight _ _ He) Ek), Ek, abs_IZR, mult_IZR, Rabs_mult, (Rabs_pos_eq 2) by lra. reflexivity.
Qed.
Lemma abs_integer : integer_weights g -> forall F, incl F (edges g) -> IZR (s_abs (map (discretised_edge c) F)) = (2 * absolute_weight F)%R.
Proof.
  intros HI F. induction F as [|e F IH]; intros HF; [cbn; lra|]. cbn [map]. rewrite s_abs_cons, plus_IZR, IH by (intros x Hx; apply HF; now right). rewrite (disc_integer HI e) by (apply HF; now left).
  cbn [absolute_weight fold_right]. change (fold_right (fun (e : uedge RN) (x : R) => (Rabs (weight e) + x)%R) 0%R F) with (absolute_weight F). lra.
Qed.
Lemma total_abs : forall L, (s_total L <= s_abs L)%Z.
Proof. clear. induction L as [|e L IH]; [reflexivity|]. rewrite s_abs_cons. unfold s_total in *. cbn [fold_right]. lia. Qed.

(** ** Chains of edges and paths *)
Let step (p : nat * option nat) (e : uedge RN) : Prop := In e (edges g) /\ shows g p e.
Lemma path_chain : forall (S : nat * option nat -> R -> Prop), (forall p e, step p e -> exists w, S p w) -> forall a x l, s_path C a x l -> exists w, chain S a x w.
Proof.
  intros S HS a x l H. induction H as [|v l x u y w o H IH Hin Hx]; [exists 0%R; constructor|]. destruct IH as (w0 & IH).
  destruct (orig n B E (E_below g INV c) _ Hin) as (e' & He'). destruct (proj1 (in_map_iff _ _ _) (proj1 He')) as (e & Ee & He). subst e'.
  assert (SP : shows g (v, x) e).
  { apply (shows_pair g INV FL c (v, x) (u, y, w, o) e He Hin); [|exact He']. apply same_edge_spec. cbn [s_pair fst snd]. destruct Hx as [[-> ->]|[-> ->]]; [now left|right; split; reflexivity]. }
  destruct (HS (v, x) e (conj He SP)) as (w1 & H1). exists (w0 + w1)%R. apply (chain_step S a v x w0 w1 IH). now left.
Qed.
Lemma bkey_of_boundary : forall e k, boundary_edge_of g k e -> exists w o, convert_edge B (discretised_edge c e) = BoundaryEdge k w o.
Proof.
  intros e k [Hk H]. unfold discretised_edge, convert_edge. assert (Bk : B k = false) by now apply (bd_false g FL). destruct H as [[H1 H2]|[H1 H2]].
  - rewrite H1, Bk. assert (Hb : is_bnd_node B (node2 e) = true) by (destruct (node2 e) as [v|]; [now apply (bd_bnodes g FL)|reflexivity]). rewrite Hb. cbn [andb negb]. eauto.
  - rewrite H1. cbn [is_bnd_node]. rewrite Bk. apply (bd_bnodes g FL) in H2. fold (B (node1 e)) in H2. rewrite H2. cbn [andb negb]. eauto.
Qed.
Lemma step_path : forall v x e, step (v, x) e -> exists u y w o, In (u, y, w, o) C /\ ((u = v /\ y = x) \/ (y = Some v /\ x = Some u)) /\ (x <> None -> w = s_weight (discretised_edge c e)).
Proof.
  intros v [u|] e [He H]; unfold shows in H; cbn [fst snd] in H.
  - destruct H as (H1 & H2 & H3). assert (Bv : B v = false) by now apply (bd_false g FL). assert (Bu : B u = false) by now apply (bd_false g FL).
    assert (In (discretised_edge c e) E) as HE by now apply in_map. destruct H3 as [[H3 H4]|[H3 H4]].
    + exists v, (Some u), (discretise c (weight e)), (obs e). split; [|split; [left; auto|reflexivity]]. apply (conv_plain n B E (E_below g INV c)). split; [|auto]. unfold discretised_edge in HE. rewrite H3, H4 in HE. exact HE.
    + exists u, (Some v), (discretise c (weight e)), (obs e). split; [|split; [right; auto|reflexivity]]. apply (conv_plain n B E (E_below g INV c)). split; [|auto]. unfold discretised_edge in HE. rewrite H3, H4 in HE. exact HE.
  - destruct (bkey_of_boundary e v H) as (w & o & Ec). assert (In (discretised_edge c e) E) as HE by now apply in_map.
    destruct (keep n B E (E_below g INV c) (discretised_edge c e) HE ltac:(congruence)) as ([[[u y] w'] o'] & K1 & _ & _ & K4). rewrite Ec in K4. cbn [fst snd] in K4. destruct K4 as [-> ->].
    exists v, None, w', o'. split; [exact K1|]. split; [now left|congruence].
Qed.
Lemma step_sym : forall u v e, step (u, Some v) e -> step (v, Some u) e.
Proof. intros u v e [He H]. split; [exact He|]. unfold shows in *. cbn [fst snd] in *. tauto. Qed.
Lemma chain_path : forall (S : nat * option nat -> R -> Prop) k, (forall p w, S p w -> exists e, step p e /\ (snd p <> None -> IZR (Z.abs (s_weight (discretised_edge c e))) <= k * w)%R /\ (0 <= k * w)%R) ->
  forall a x w, chain S a x w -> exists l, s_path C a x l /\ (IZR l <= k * w + match x with None => IZR max_weight | Some _ => 0 end)%R.
Proof.
  intros S k HS a x w H. induction H as [|v x w w1 H IH H1]; [exists 0%Z; split; [constructor|rewrite Rmult_0_r; lra]|]. destruct IH as (l & P & L).
  assert (X : exists e, step (v, x) e /\ (x <> None -> IZR (Z.abs (s_weight (discretised_edge c e))) <= k * w1)%R /\ (0 <= k * w1)%R).
  { destruct H1 as [H1|(u & -> & H1)]; [exact (HS _ _ H1)|]. destruct (HS _ _ H1) as (e & S1 & S2 & S3). exists e. split; [now apply step_sym|]. split; [intros _; apply S2; discriminate|exact S3]. }
  destruct X as (e & S1 & S2 & S3). destruct (step_path v x e S1) as (u & y & z & o & Hin & Hx & Hz). exists (l + Z.abs z)%Z. split; [exact (s_path_step C a v l x u y z o P Hin Hx)|].
  rewrite plus_IZR. pose proof (proj2 (C_even g INV d c sg DO _ Hin)) as B1. cbn [s_weight] in B1. apply IZR_le in B1. destruct x as [x|].
  - rewrite (Hz ltac:(discriminate)) in *. specialize (S2 ltac:(discriminate)). lra.
  - lra.
Qed.
Lemma compact_within : compact g -> s_within C 2147483648.
Proof.
  intros [H|[HI H]] a x l P.
  - destruct (path_chain (fun p w => (exists e, In e (edges g) /\ shows g p e) /\ w = 1%R)) with (a := a) (x := x) (l := l) as (w & W); [intros p e Hp; exists 1%R; split; [exists e; exact Hp|reflexivity]|exact P|].
    destruct (H a x w W) as (w' & W' & LW).
    assert (X : exists l', s_path C a x l' /\ (IZR l' <= IZR max_weight * w')%R).
    { clear P W H LW l w. induction W' as [|v x w w1 H IH H1]; [exists 0%Z; split; [constructor|rewrite Rmult_0_r; lra]|]. destruct IH as (l & P & L).
      assert (X : exists e, step (v, x) e /\ w1 = 1%R).
      { destruct H1 as [[(e & H1) ->]|(u & -> & (e & H1) & ->)]; exists e; (split; [|reflexivity]); [exact H1|now apply step_sym]. }
      destruct X as (e & S1 & ->). destruct (step_path v x e S1) as (u & y & z & o & Hin & Hx & _). exists (l + Z.abs z)%Z. split; [exact (s_path_step C a v l x u y z o P Hin Hx)|].
      pose proof (proj2 (C_even g INV d c sg DO _ Hin)) as B1. cbn [s_weight] in B1. apply IZR_le in B1. rewrite plus_IZR. lra. }
    destruct X as (l' & P' & L'). exists l'. split; [exact P'|]. apply lt_IZR. unfold max_weight in L'. lra.
  - destruct (path_chain (fun p w => exists e, In e (edges g) /\ shows g p e /\ w = Rabs (weight e))) with (a := a) (x := x) (l := l) as (w & W); [intros p e [H1 H2]; exists (Rabs (weight e)), e; auto|exact P|].
    destruct (H a x w W) as (w' & W' & LW).
    destruct (chain_path (fun p w => exists e, In e (edges g) /\ shows g p e /\ w = Rabs (weight e)) 2) with (a := a) (x := x) (w := w') as (l' & P' & L'); [|exact W'|].
    { intros p w0 (e & H1 & H2 & ->). exists e. split; [split; assumption|]. split; [intros _; rewrite (disc_integer HI e H1); lra|]. pose proof (Rabs_pos (weight e)). lra. }
    exists l'. split; [exact P'|]. apply lt_IZR. unfold max_weight in L'. destruct x; lra.
Qed.

Lemma absolute_app : forall l l', absolute_weight (l ++ l') = (absolute_weight l + absolute_weight l')%R.
Proof. clear. induction l as [|z l IH]; intros l'; [change (absolute_weight l' = 0 + absolute_weight l')%R; lra|]. cbn [app]. change (Rabs (weight z) + absolute_weight (l ++ l') = (Rabs (weight z) + absolute_weight l) + absolute_weight l')%R. rewrite IH. lra. Qed.
Lemma absolute_pos : forall l, (0 <= absolute_weight l)%R.
Proof. clear. induction l as [|z l IH]; [apply Rle_refl|]. change (0 <= Rabs (weight z) + absolute_weight l)%R. pose proof (Rabs_pos (weight z)). lra. Qed.
Lemma absolute_sub : forall l l', NoDup l -> incl l l' -> (absolute_weight l <= absolute_weight l')%R.
Proof.
  clear. induction l as [|e L IH]; intros N ND HI; [apply absolute_pos|].
  apply NoDup_cons_iff in ND as [N1 N2]. destruct (in_split e N (HI e (or_introl eq_refl))) as (A & A' & ->). specialize (IH (A ++ A') N2).
  assert (HI' : incl L (A ++ A')). { intros x Hx. specialize (HI x (or_intror Hx)). apply in_app_or in HI. apply in_or_app. destruct HI as [?|[<-|?]]; [now left|contradiction|now right]. }
  specialize (IH HI'). rewrite absolute_app in *. change (Rabs (weight e) + absolute_weight L <= absolute_weight A + (Rabs (weight e) + absolute_weight A'))%R. lra.
Qed.

Lemma pipeline_light : forall evs F, corrects g F evs -> manageable g F -> light (adj (d_graph d)) (d_neg d) evs.
Proof.
  intros evs F HF HM. rewrite (neg_eta g d c sg DO). destruct (corr_solves g INV FL d c sg DO HARM evs F HF) as (Y & HY & LY).
  apply (signed_light (nobs g) n C (d_graph d) (boundary_flags g) (do_mg _ _ _ _ DO) (convert_all_fop n B E (E_fop g INV c)) (fun e He => proj1 (C_even g INV d c sg DO e He)) (C_bare g INV FL c)
           (fun e He => proj2 (C_even g INV d c sg DO e He)) evs Y HY).
  fold n B E C in LY. destruct HM as [(N & HN & HL)|HM]; [left|right; exact (compact_within HM)].
  assert (T1 : (s_total (map (discretised_edge c) F) <= Z.of_nat (length F) * max_weight)%Z).
  { rewrite <- (map_length (discretised_edge c) F). apply total_bound. intros y Hy. apply in_map_iff in Hy as (e & <- & He). destruct HF as (_ & HF & _). apply (E_spec g c (do_c _ _ _ _ DO)). apply in_map. now apply HF. }
  assert (T2 : (s_abs (negs C) <= Z.of_nat (length (negs C)) * max_weight)%Z).
  { apply total_bound. intros y Hy. apply filter_In in Hy as [Hy _]. exact (proj2 (C_even g INV d c sg DO y Hy)). }
  destruct HL as [HL|[HI HL]].
  - rewrite app_length in HL. pose proof (negs_few N HN) as L. unfold max_weight in *. unfold C, E, B, n in *. lia.
  - set (N' := filter (fun e : uedge RN => if Rlt_dec (weight e) 0 then true else false) (edges g)).
    assert (HN' : forall e, In e (edges g) -> (weight e < 0)%R -> In e N') by (intros e H1 H2; apply filter_In; split; [exact H1|]; destruct (Rlt_dec (weight e) 0); [reflexivity|contradiction]).
    assert (SN : (absolute_weight N' <= absolute_weight N)%R).
    { assert (NDN : NoDup N') by (apply NoDup_filter; exact (edges_NoDup g INV)).
      assert (IN : incl N' N) by (intros e He; apply filter_In in He as [H1 H2]; destruct (Rlt_dec (weight e) 0); [now apply HN|discriminate]).
      exact (absolute_sub N' N NDN IN). }
    rewrite absolute_app in HL. pose proof (negs_part N' HN') as L1. pose proof (total_abs (map (discretised_edge c) F)) as L2.
    assert (IF : incl F (edges g)) by (destruct HF as (_ & HF & _); exact HF). pose proof (abs_integer HI F IF) as A1. pose proof (abs_integer HI N' (incl_filter _ _)) as A2.
    assert (s_abs (map (discretised_edge c) F) + s_abs (map (discretised_edge c) N') < 2147483648)%Z; [apply lt_IZR; rewrite plus_IZR, A1, A2; lra|]. unfold C, E, B, n in *. lia.
Qed.
Lemma pipeline_compact : compact g -> forall evs, light (adj (d_graph d)) (d_neg d) evs.
Proof.
  intros HM evs. rewrite (neg_eta g d c sg DO).
  exact (compact_light (nobs g) n C (d_graph d) (boundary_flags g) (do_mg _ _ _ _ DO) (convert_all_fop n B E (E_fop g INV c)) (fun e He => proj1 (C_even g INV d c sg DO e He))
           (fun e He => proj2 (C_even g INV d c sg DO e He)) evs (compact_within HM)).
Qed.
Lemma machine_pipeline_able : forall evs F, corrects g F evs -> manageable g F ->
  able machine_ints (adj (d_graph d)) (d_neg d) evs.
Proof. intros evs F HF HS. destruct (pipeline_light evs F HF HS) as (H1 & H2 & H3). now apply machine_able. Qed.
End Machine.

(** ** When the conversion is harmless *)
Lemma harmless_positive : forall g : ugraph RN, (forall e, In e (edges g) -> (0 <= weight e)%R) -> conversion_harmless g.
Proof. intros g H. split; [intros e He _ _; now apply H|]. intros e f u He Hf _ _ _. pose proof (H e He). pose proof (H f Hf). lra. Qed.
Lemma harmless_virtual : forall g : ugraph RN, Inv g -> bnodes g = [] -> conversion_harmless g.
Proof.
  intros g INV HN. assert (X : forall u e, boundary_edge_of g u e -> node1 e = u /\ node2 e = None).
  { intros u e [_ [[H1 H2]|[_ H2]]]; [|rewrite HN in H2; destruct H2]. split; [exact H1|]. destruct (node2 e); [cbn in H2; rewrite HN in H2; destruct H2|reflexivity]. }
  split; [intros e _ H; rewrite HN in H; destruct H|]. intros e f u He Hf N H1 H2. destruct (X u e H1) as [A1 A2]. destruct (X u f H2) as [B1 B2].
  elim N. apply (joined_same g INV); auto. unfold joins. left. split; congruence.
Qed.

(** ** Graphs made by calls *)
Section Calls.
Variables (n k : nat) (ops : list (op RN)).
Let g := run (new_graph RN n k) ops.
Lemma calls_inv : Inv g. Proof. apply run_inv, new_inv. Qed.
Lemma calls_flags : flags_ok RN g. Proof. apply flags_run, flags_new. Qed.
Lemma calls_weights : forall e, In e (edges g) -> w_exceeds RN (weight e) = false.
Proof. exact (weights_in_range RN_merge_in_range n k ops). Qed.
Hypothesis IDS : fault_ids_in_range g.
Lemma calls_build : scalable g -> forall ens, exists d, build_decoder g ens = Ok d /\ idle (adj (d_graph d)) init_state.
Proof. intros SC ens. destruct (decoder_built g calls_inv calls_weights IDS SC ens) as (d & c & sg & H & _). exists d. split; [exact H|]. apply P_Session.init_idle. Qed.
Variables (ens : bool) (d : decoder).
Hypothesis HD : build_decoder g ens = Ok d.
Lemma calls_of : exists c sg, decoder_of g d c sg /\ (d_search d = Some sg \/ d_search d = None) /\ (ens = true -> d_search d = Some sg).
Proof.
  destruct (decoder_from g calls_inv IDS ens d HD) as (c & sg & DO & S). exists c, sg. split; [exact DO|]. split; [|exact S].
  destruct (do_so _ _ _ _ DO) as [->|[_ ->]]; auto.
Qed.
Hypothesis HARM : conversion_harmless g.
Variables (orc orc2 : nat -> nat) (s : state) (q : search) (evs : list nat).
Hypothesis HI : idle (adj (d_graph d)) s.
Hypothesis HQ : search_idle q.
Hypothesis ND : NoDup evs.
Hypothesis IR : forall v, In v evs -> v < num_nodes g.
Notation answer A := (
  exists K s' q' w F, (forall fuel, K <= fuel -> py_decode d fuel fuel orc orc2 A s q evs = Ok (s', q', (map (fun i => flips_observable i F) (seq 0 (nobs g)), w))) /\
    idle (adj (d_graph d)) s' /\ search_idle q' /\ corrects g F evs /\ near_best g F evs /\ weight_reported g w F).
Lemma calls_decode : (exists F, corrects g F evs) -> answer exact_ints.
Proof. destruct calls_of as (c & sg & DO & _). exact (pipeline_decode g calls_inv calls_flags d c sg DO HARM exact_ints orc orc2 s q evs HI HQ ND IR). Qed.
Lemma calls_decode_machine : forall F, corrects g F evs -> manageable g F -> answer machine_ints.
Proof.
  intros F HF HL. destruct calls_of as (c & sg & DO & _). pose proof (machine_pipeline_able g calls_inv calls_flags d c sg DO HARM evs F HF HL) as AB.
  exact (pipeline_decode g calls_inv calls_flags d c sg DO HARM machine_ints orc orc2 s q evs HI HQ ND IR (ex_intro _ F HF)).
Qed.
Lemma calls_throw : (forall F, ~ corrects g F evs) -> exists K, forall fuel, K <= fuel -> py_decode d fuel fuel orc orc2 exact_ints s q evs = Throw.
Proof. destruct calls_of as (c & sg & DO & _). exact (pipeline_throw g calls_inv calls_flags d c sg DO exact_ints orc orc2 s q evs HI ND IR). Qed.
Variable M : marks.
Hypothesis UM : forall sg, d_search d = Some sg -> unmarked (sadj sg) M.
Hypothesis NL : forall e, In e (edges g) -> node2 e = Some (node1 e) -> (0 <= weight e)%R.
Hypothesis EN : ens = true.
Notation shown A := (
  exists K s' q' M' out F, (forall fuel, K <= fuel -> py_decode_to_edges d fuel fuel orc orc2 A s q M evs = Ok (s', q', M', out)) /\
    idle (adj (d_graph d)) s' /\ search_idle q' /\ (forall u i, M' u i = M u i) /\ shows_edges g out F /\ corrects g F evs /\ near_best g F evs).
Lemma calls_edges : (exists F, corrects g F evs) -> shown exact_ints.
Proof.
  destruct calls_of as (c & sg & DO & _ & SS). specialize (SS EN).
  exact (pipeline_edges g calls_inv calls_flags d c sg DO HARM exact_ints orc orc2 s q evs HI HQ ND IR M (UM sg SS) NL SS).
Qed.
Lemma calls_edges_machine : forall F, corrects g F evs -> manageable g F -> shown machine_ints.
Proof.
  intros F HF HL. destruct calls_of as (c & sg & DO & _ & SS). specialize (SS EN). pose proof (machine_pipeline_able g calls_inv calls_flags d c sg DO HARM evs F HF HL) as AB.
  exact (pipeline_edges g calls_inv calls_flags d c sg DO HARM machine_ints orc orc2 s q evs HI HQ ND IR M (UM sg SS) NL SS (ex_intro _ F HF)).
Qed.
Lemma calls_edges_throw : (forall F, ~ corrects g F evs) -> exists K, forall fuel, K <= fuel -> py_decode_to_edges d fuel fuel orc orc2 exact_ints s q M evs = Throw.
Proof.
  destruct calls_of as (c & sg & DO & _ & SS). specialize (SS EN). exact (pipeline_edges_throw g calls_inv calls_flags d c sg DO exact_ints orc orc2 s q evs HI ND IR M SS).
Qed.
End Calls.
Lemma calls_fresh_marks : forall n k ops ens d sg, fault_ids_in_range (run (new_graph RN n k) ops) -> build_decoder (run (new_graph RN n k) ops) ens = Ok d -> d_search d = Some sg -> unmarked (sadj sg) (marks_of sg).
Proof.
  intros n k ops ens d sg IDS HD HS. destruct (calls_of n k ops IDS ens d HD) as (c & sg' & DO & _). pose proof (do_so _ _ _ _ DO) as [SO|[_ SO]]; [|congruence]. rewrite HS in SO. injection SO as <-.
  exact (fresh_unmarked _ _ _ _ _ (do_mg _ _ _ _ DO) (do_sg _ _ _ _ DO)).
Qed.
