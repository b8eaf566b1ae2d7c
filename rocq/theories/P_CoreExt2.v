(** Invariants of the decoder's core, part 24: reading off the matching. *)
From Coq Require Import ZArith NArith List Bool Arith Lia Permutation Sorting.Sorted.
From Verif Require Import M_Base M_Varying M_Tracker M_Core S_Core S_Tree P_Sum P_Dual P_Up P_Tree P_Tree2 P_Cycle P_CoreGeo P_CoreSched P_CoreArea P_CoreTops P_CoreHit2 P_CoreExt1 P_Ends P_CoreHalt.
Import ListNotations.
Local Open Scope Z_scope.

Lemma foldO_ind : forall A B (f : B -> A -> outcome B) l (I : list A -> B -> Prop) b, I [] b ->
  (forall don x rest b, l = don ++ x :: rest -> I don b -> safe (f b x) (I (don ++ [x]))) ->
  safe (fold_left (fun acc x => bindO acc (fun b => f b x)) l (Ok b)) (I l).
Proof.
  intros A B f l I b H0 HS.
  assert (Fu : forall rest, fold_left (fun acc x => bindO acc (fun b => f b x)) rest Fuel = Fuel) by (induction rest; simpl; auto).
  assert (X : forall rest don b, l = don ++ rest -> I don b -> safe (fold_left (fun acc x => bindO acc (fun b => f b x)) rest (Ok b)) (I l)).
  { induction rest as [|x rest IH]; intros don b' El Hd.
    - rewrite app_nil_r in El. subst don. exact Hd.
    - cbn [fold_left bindO]. pose proof (HS don x rest b' El Hd) as S. destruct (f b' x) as [b''| | |]; cbn [safe] in S; try contradiction.
      + apply (IH (don ++ [x])); [|assumption]. rewrite El, <- app_assoc. reflexivity.
      + rewrite Fu. exact Logic.I. }
  apply (X l [] b eq_refl H0).
Qed.
Lemma find_child_spec : forall x l i, In x (map fst l) -> (i <= find_child x i l < i + length l)%nat /\ fst (nth (find_child x i l - i) l dflt) = x.
Proof.
  intros x. induction l as [|[z e] l IH]; intros i H; [destruct H|]. cbn [find_child fst length].
  destruct (Nat.eqb_spec z x) as [->|Hne].
  - split; [lia|]. rewrite Nat.sub_diag. reflexivity.
  - destruct H as [H|H]; [simpl in H; congruence|]. destruct (IH (S i) H) as [H1 H2]. split; [lia|].
    replace (find_child x (S i) l - i)%nat with (S (find_child x (S i) l - S i)) by lia. exact H2.
Qed.

(** The matched paths: their total length, observables, tips. *)
Section Paths.
Variable G : graph.
Fixpoint paths (l : list cedge) (len : Z) : Prop :=
  match l with
  | [] => len = 0
  | e :: l' => exists a w, efrom e = Some a /\ path G a (eto e) w (eobs e) /\ paths l' (len - w)
  end.
Definition xorl (l : list cedge) : N := fold_right (fun e o => N.lxor (eobs e) o) 0%N l.
Definition opt (x : option nat) : list nat := match x with Some v => [v] | None => [] end.
Definition tips (l : list cedge) : list nat := flat_map (fun e => opt (efrom e) ++ opt (eto e)) l.
Lemma paths_app : forall l l' a b, paths l a -> paths l' b -> paths (l ++ l') (a + b).
Proof.
  induction l as [|e l IH]; intros l' a b H H'; simpl in *.
  - subst a. exact H'.
  - destruct H as (v & w & E1 & E2 & E3). exists v, w. repeat split; auto. replace (a + b - w) with (a - w + b) by lia. now apply IH.
Qed.
Lemma xorl_app : forall l l', xorl (l ++ l') = N.lxor (xorl l) (xorl l').
Proof. unfold xorl. induction l as [|e l IH]; intros l'; cbn [app fold_right]; [reflexivity|]. now rewrite IH, N.lxor_assoc. Qed.
Lemma tips_app : forall l l', tips (l ++ l') = tips l ++ tips l'.
Proof. intros. apply flat_map_app. Qed.
Definition res_ok (r : result) (w len : Z) (es : list nat) : Prop :=
  let '(o, w', l) := r in o = xorl l /\ w' = w /\ paths l len /\ Permutation (tips l) es.
Lemma res_ok_add : forall r r' w w' len len' es es', res_ok r w len es -> res_ok r' w' len' es' -> res_ok (res_add r r') (w + w') (len + len') (es ++ es').
Proof.
  intros [[o1 w1] l1] [[o2 w2] l2] w w' len len' es es' (A1 & A2 & A3 & A4) (B1 & B2 & B3 & B4). cbn [res_add res_ok].
  rewrite xorl_app, tips_app. repeat split; try congruence; [now apply paths_app|now apply Permutation_app].
Qed.
Lemma res_ok_nil : forall w, res_ok (0%N, w, []) w 0 [].
Proof. intros. repeat split. constructor. Qed.
Lemma res_ok_eq : forall r w len es w' len' es', res_ok r w len es -> w = w' -> len = len' -> Permutation es es' -> res_ok r w' len' es'.
Proof. intros [[o v] l] w len es w' len' es' (A1 & A2 & A3 & A4) -> -> P. repeat split; auto. now transitivity es. Qed.
End Paths.

Section Ext.
Context {NI : ints}.
Variables (G : graph) (ev : list nat) (n0 : nodesM) (g0 : regionsM) (ls : list nat) (y : nat -> Z) (ch : nat -> list nat).
Hypothesis WF : wf_graph G.
Hypothesis HG : geo G ev n0 g0 ls y ch.
Let U : up_ok (fun R => In R ls) (bpar g0) ch := g_up _ _ _ _ _ _ _ HG.
Notation D := (D ls ch).
Notation E := (E ev n0 ch).
Notation above := (above y ch).
Notation Yv := (Yv n0 ch y).

(** What stays as it was at the end of the main loop. *)
Definition intact (s : state) : Prop := chl (rg s) = chl g0 /\ shl (rg s) = shl g0 /\ forall R, In R ls -> y_intercept (rad (rg s) R) = y R.
(** Only the nodes of regions [N] and the regions [M] are touched. *)
Definition nodeq (s s' : state) (v : nat) : Prop :=
  arr (nd s') v = arr (nd s) v /\ top (nd s') v = top (nd s) v /\ wrp (nd s') v = wrp (nd s) v /\ src (nd s') v = src (nd s) v /\
  crs (nd s') v = crs (nd s) v /\ rar (nd s') v = rar (nd s) v /\ ntr (sc s') v = ntr (sc s) v.
Record fr (N M : nat -> Prop) (s s' : state) : Prop := {
  fr_tr : tr s' = tr s; fr_ta : ta s' = ta s; fr_alt : alt (ma s') = alt (ma s);
  fr_que : que (sc s') = que (sc s); fr_rtr : rtr (sc s') = rtr (sc s); fr_now : now (sc s') = now (sc s);
  fr_chl : chl (rg s') = chl (rg s); fr_shl : shl (rg s') = shl (rg s); fr_rad : rad (rg s') = rad (rg s);
  fr_ma : forall R, ~ M R -> mreg (ma s') R = mreg (ma s) R /\ medge (ma s') R = medge (ma s) R;
  fr_nd : forall v, (forall R, N R -> In R ls -> ~ In v (shl g0 R)) -> nodeq s s' v }.
Lemma fr_refl : forall N M s, fr N M s s. Proof. intros. split; auto. intros. repeat split. Qed.
Lemma fr_trans : forall (N M : nat -> Prop) s s' s'', fr N M s s' -> fr N M s' s'' -> fr N M s s''.
Proof.
  intros N M s s' s'' H K. destruct H, K. split; try congruence.
  - intros R HR. destruct (fr_ma0 R HR), (fr_ma1 R HR). split; congruence.
  - intros v Hv. destruct (fr_nd0 v Hv) as (A1 & A2 & A3 & A4 & A5 & A6 & A7), (fr_nd1 v Hv) as (B1 & B2 & B3 & B4 & B5 & B6 & B7). repeat split; congruence.
Qed.
Lemma fr_weaken : forall (N M N' M' : nat -> Prop) s s', fr N M s s' -> (forall R, N R -> N' R) -> (forall R, M R -> M' R) -> fr N' M' s s'.
Proof. intros N M N' M' s s' H HN HM. destruct H. split; auto. Qed.
Lemma fr_intact : forall N M s s', fr N M s s' -> intact s -> intact s'.
Proof. intros N M s s' H (I1 & I2 & I3). destruct H. repeat split; try congruence. intros R HR. rewrite fr_rad0. auto. Qed.

Definition clean (s : state) (R : nat) : Prop := forall v, In v (shl g0 R) ->
  arr (nd s) v = None /\ top (nd s) v = None /\ wrp (nd s) v = 0 /\ src (nd s) v = None /\ crs (nd s) v = 0%N /\ rar (nd s) v = 0 /\
  has_desired (ntr (sc s) v) = false /\ has_queued (ntr (sc s) v) = false.
Lemma fr_clean : forall (N M : nat -> Prop) s s' R, fr N M s s' -> In R ls -> ~ N R -> clean s R -> clean s' R.
Proof.
  intros N M s s' R H HR HN HC v Hv. destruct (HC v Hv) as (C1 & C2 & C3 & C4 & C5 & C6 & C7 & C8).
  assert (Hq : nodeq s s' v).
  { apply (fr_nd _ _ _ _ H). intros Q HQ HQl Hin. destruct (shl_arr G ev n0 g0 ls y ch HG Q v HQl Hin) as [_ A1]. destruct (shl_arr G ev n0 g0 ls y ch HG R v HR Hv) as [_ A2].
    assert (Q = R) by congruence. subst. contradiction. }
  destruct Hq as (A1 & A2 & A3 & A4 & A5 & A6 & A7). rewrite A1, A2, A3, A4, A5, A6, A7. auto 10.
Qed.

Lemma reset_fold : forall l s, let s' := fold_left reset_node l s in
  rg s' = rg s /\ ma s' = ma s /\ tr s' = tr s /\ ra s' = ra s /\ ta s' = ta s /\ que (sc s') = que (sc s) /\ rtr (sc s') = rtr (sc s) /\ now (sc s') = now (sc s) /\
  forall v, if memb v l then (arr (nd s') v = None /\ top (nd s') v = None /\ wrp (nd s') v = 0 /\ src (nd s') v = None /\ crs (nd s') v = 0%N /\ rar (nd s') v = 0 /\ ntr (sc s') v = tracker_clear)
            else nodeq s s' v.
Proof.
  induction l as [|x l IH]; intros s; cbn [fold_left]; [repeat split|]. destruct (IH (reset_node s x)) as (A1 & A2 & A3 & A4 & A5 & A6 & A7 & A8 & A9).
  cbv zeta. repeat (split; [assumption|]). intros v. specialize (A9 v). unfold memb in *. cbn [existsb]. destruct (existsb (Nat.eqb v) l) eqn:Ev.
  - rewrite orb_true_r. exact A9.
  - rewrite orb_false_r. destruct A9 as (B1 & B2 & B3 & B4 & B5 & B6 & B7). unfold nodeq. rewrite B1, B2, B3, B4, B5, B6, B7. unfold reset_node. cbn [nd sc arr top wrp src crs rar set_ntr ntr]. unfold upd.
    destruct (Nat.eqb_spec v x) as [->|Hne]; repeat split.
Qed.
Lemma cleanup_spec : forall s r, In r ls -> intact s -> let s' := cleanup_shell_area s r in
  fr (fun R => R = r) (fun _ => False) s s' /\ clean s' r /\ ra s' = ra s /\ ma s' = ma s.
Proof.
  intros s r Hr (I1 & I2 & I3) s'. unfold cleanup_shell_area in s'. destruct (reset_fold (rev (shl (rg s) r)) s) as (A1 & A2 & A3 & A4 & A5 & A6 & A7 & A8 & A9). fold s' in A1, A2, A3, A4, A5, A6, A7, A8, A9.
  split; [|split; [|split; assumption]].
  - split; try congruence; try (rewrite A1; reflexivity); try (rewrite A2; reflexivity).
    + intros R _. rewrite A2. now split.
    + intros v Hv. specialize (A9 v). destruct (memb v (rev (shl (rg s) r))) eqn:Em; [|exact A9]. exfalso. apply memb_In, in_rev in Em. rewrite I2 in Em. apply (Hv r eq_refl Hr Em).
  - intros v Hv. specialize (A9 v). assert (Em : memb v (rev (shl (rg s) r)) = true) by (apply memb_In; rewrite <- in_rev, I2; assumption). rewrite Em in A9.
    destruct A9 as (B1 & B2 & B3 & B4 & B5 & B6 & B7). rewrite B1, B2, B3, B4, B5, B6, B7. repeat split.
Qed.

(** A matched region whose match is longer than the radii by [x]. *)
Definition linked (s : state) (r : nat) (x : Z) : Prop :=
  let e := medge (ma s) r in
  exists a, efrom e = Some a /\ In a (E r) /\
  match mreg (ma s) r with
  | Some q => In q ls /\ (forall Q, In Q (D r) -> ~ In Q (D q)) /\ mreg (ma s) q = Some r /\ medge (ma s) q = rev_e e /\
      exists b, eto e = Some b /\ In b (E q) /\ walk G a b (Yv a - above r + (Yv b - above q) + x) (eobs e)
  | None => eto e = None /\ path G a None (Yv a - above r + x) (eobs e)
  end.
Definition pd (s : state) (r : nat) : list nat := match mreg (ma s) r with Some q => D q | None => [] end.
Definition pe (s : state) (r : nat) : list nat := match mreg (ma s) r with Some q => E q | None => [] end.
Lemma linked_sym : forall s r q x, linked s r x -> mreg (ma s) r = Some q -> linked s q x.
Proof.
  intros s r q x (a & A1 & A2 & H) Em. rewrite Em in H. destruct H as (Q1 & Q2 & Q3 & Q4 & b & B1 & B2 & B3). exists b. rewrite Q4. cbn [rev_e efrom eto eobs]. rewrite Q3.
  assert (Hr : In r ls).
  { apply E_In in A2 as [A3 A4]. apply (chn_incl G _ _ _ _ _ _ HG a (ev_lt G _ _ _ _ _ _ HG a A3) r A4). }
  repeat split; auto.
  - intros Q H1 H2. apply (Q2 Q H2 H1).
  - destruct (medge (ma s) r); reflexivity.
  - exists a. repeat split; auto. replace (Yv b - above q + (Yv a - above r) + x) with (Yv a - above r + (Yv b - above q) + x) by lia. apply walk_rev; assumption.
Qed.
Lemma linked_frame : forall s s' r x, linked s r x -> (forall R, R = r \/ mreg (ma s) r = Some R -> mreg (ma s') R = mreg (ma s) R /\ medge (ma s') R = medge (ma s) R) ->
  linked s' r x /\ mreg (ma s') r = mreg (ma s) r.
Proof.
  intros s s' r x (a & A1 & A2 & H) F. destruct (F r (or_introl eq_refl)) as [F1 F2]. split; [|assumption]. exists a. rewrite F1, F2. split; [assumption|]. split; [assumption|].
  destruct (mreg (ma s) r) as [q|] eqn:Em; [|assumption]. destruct (F q (or_intror eq_refl)) as [F3 F4]. rewrite F3, F4. assumption.
Qed.

(** ** The children of a blossom become tops *)
Lemma clear_children_spec : forall s r, In r ls -> intact s ->
  ends (fun fuel => foldS (clear_blossom_parent_ignoring_wrapped_radius fuel NI) (map fst (chl (rg s) r)) s) (fun s1 =>
    fr (fun R => In R (D r) /\ R <> r) (fun _ => False) s s1 /\ ra s1 = ra s /\ ma s1 = ma s /\
    forall v c, (v < length G)%nat -> In c (map fst (chl g0 r)) -> In c (chn n0 ch v) -> top (nd s1) v = Some c).
Proof.
  intros s r Hr HI. pose proof HI as (I1 & I2 & I3). rewrite I1.
  eapply ends_impl; [apply (ends_foldS _ (fun fuel => clear_blossom_parent_ignoring_wrapped_radius fuel NI) _ (fun don s1 => fr (fun R => In R (D r) /\ R <> r) (fun _ => False) s s1 /\ ra s1 = ra s /\ ma s1 = ma s /\
    forall v c, (v < length G)%nat -> In c don -> In c (chn n0 ch v) -> top (nd s1) v = Some c))|].
  - split; [apply fr_refl|]. split; [reflexivity|]. split; [reflexivity|]. intros v c _ [].
  - intros don c rest s1 El (F & Er & Em & Ht). assert (HI1 : intact s1) by (eapply fr_intact; eassumption). destruct HI1 as (J1 & J2 & J3).
    assert (Hc : In c (map fst (chl g0 r))) by (rewrite El; apply in_or_app; right; now left).
    destruct (proj1 (kids G ev n0 g0 ls y ch HG r c Hr) Hc) as [Hcl Hcp].
    unfold clear_blossom_parent_ignoring_wrapped_radius.
    eapply ends_impl; [apply (set_tops_ends c true (fun _ => 0) s1 c None (fun R => In R ls) (bpar g0) ch U)|].
    + rewrite J1. apply (g_chl _ _ _ _ _ _ _ HG).
    + rewrite J1. apply (g_chnd _ _ _ _ _ _ _ HG).
    + exact Hcl.
    + rewrite J1. exact (geo_acc _ _ _ _ _ _ _ HG c Hcl).
    + intros d v _ _ _ Hig. discriminate.
    + cbv beta. intros s2 (ds & Hds & T). rewrite J2 in T.
      assert (Vl : forall v, memb v (flat_map (shl g0) ds) = true <-> (v < length G)%nat /\ In c (chn n0 ch v)).
      { intros v. rewrite memb_In, in_flat_map. split.
        - intros (d & Hd & Hv). apply Hds in Hd as [Hd1 Hd2]. destruct (shl_arr G ev n0 g0 ls y ch HG d v Hd1 Hv) as [A1 A2]. split; [assumption|]. unfold chn. now rewrite A2.
        - intros [Hv H]. unfold chn in H. destruct (arr n0 v) as [d|] eqn:Ea; [|destruct H]. assert (Hd := g_arr _ _ _ _ _ _ _ HG v d Hv Ea). exists d. split; [apply Hds; now split|].
          apply (g_shl _ _ _ _ _ _ _ HG d v Hd). now split. }
      assert (F2 : fr (fun R => In R (D r) /\ R <> r) (fun _ => False) s1 s2).
      { destruct T. cbn [set_rg ma tr ra ta sc nd rg bpar rad chl shl set_bpar] in *. split; try congruence.
        - intros R _. rewrite t_ma. now split.
        - intros v Hv. unfold nodeq. rewrite t_arr, t_src, t_crs, t_rar, t_sc, t_top, t_wrp. rewrite andb_false_r. destruct (memb v (flat_map (shl g0) ds)) eqn:Ev; [|repeat split].
          exfalso. apply memb_In, in_flat_map in Ev as (d & Hd & Hvd). apply Hds in Hd as [Hd1 Hd2]. apply (Hv d); try assumption.
          apply (D_child G ev n0 g0 ls y ch HG r c Hcl Hcp). apply D_In. now split. }
      split; [eapply fr_trans; eassumption|]. destruct T. cbn [set_rg ma tr ra ta sc nd rg bpar rad chl shl set_bpar] in *. split; [congruence|]. split; [congruence|].
      intros v c' Hv Hc' Hin. rewrite t_top. destruct (memb v (flat_map (shl g0) ds)) eqn:Ev.
      * apply Vl in Ev as [_ Ev]. f_equal.
        assert (Hc'' : In c' (map fst (chl g0 r))) by (rewrite El; apply in_app_or in Hc' as [H|[<-|[]]]; apply in_or_app; [left; assumption|right; now left]).
        destruct (proj1 (kids G ev n0 g0 ls y ch HG r c' Hr) Hc'') as [Hcl' Hcp'].
        unfold chn in Ev, Hin. destruct (arr n0 v) as [Q|] eqn:Ea; [|destruct Ev]. apply (up_child_unique _ _ ch U Q c c' r (g_arr _ _ _ _ _ _ _ HG v Q Hv Ea) Ev Hin Hcp Hcp').
      * apply in_app_or in Hc' as [Hc'|[<-|[]]]; [apply Ht; assumption|]. exfalso. assert (X : memb v (flat_map (shl g0) ds) = true) by (apply Vl; now split). congruence.
  - cbv beta. auto.
Qed.

Lemma arena_perm : forall a l l', arena_ok a l -> Permutation l l' -> arena_ok a l'.
Proof. intros a l l' H P. unfold arena_ok in *. etransitivity; [|exact H]. apply Permutation_app_tail. now symmetry. Qed.
Lemma pair_regions_app : forall l l', pair_regions (l ++ l') = pair_regions l ++ pair_regions l'.
Proof. intros. apply flat_map_app. Qed.

(** What the recursive call of shatter_blossom_and_extract_matches does. *)
Definition ext_ok (n : nat) (extr : nat -> state -> nat -> outcome (state * result)) : Prop := forall s r x A, (length (D r ++ pd s r) < n)%nat -> In r ls -> intact s -> linked s r x -> arena_ok (ra s) (D r ++ pd s r ++ A) ->
  ends (fun fuel => extr fuel s r) (fun z => fr (fun R => In R (D r ++ pd s r)) (fun R => In R (D r ++ pd s r)) s (fst z) /\
    (forall R, In R (D r ++ pd s r) -> clean (fst z) R) /\ arena_ok (ra (fst z)) A /\
    res_ok G (snd z) (zsum y (D r ++ pd s r)) (zsum y (D r ++ pd s r) + x) (E r ++ pe s r)).

Lemma pair_and_shatter_spec : forall n extr s r x A, ext_ok n extr -> (length (D r) <= n)%nat -> In r ls -> chl g0 r <> [] -> intact s -> linked s r x -> arena_ok (ra s) (D r ++ pd s r ++ A) ->
  ends (fun fuel => pair_and_shatter fuel NI (extr fuel) s r) (fun z => let '(s', res, sub) := z in
    In sub ls /\ bpar g0 sub = Some r /\
    fr (fun R => In R (D r) /\ R <> r) (fun R => In R (D r) \/ mreg (ma s) r = Some R) s s' /\
    (forall R, In R (D r) -> R <> r -> ~ In R (D sub) -> clean s' R) /\
    arena_ok (ra s') (D sub ++ pd s r ++ A) /\ linked s' sub (x + y r) /\ mreg (ma s') sub = mreg (ma s) r /\
    exists w es, res_ok G res w (w - y r) es /\ w + zsum y (D sub) = zsum y (D r) /\ Permutation (E sub ++ es) (E r)).
Proof.
  intros n extr s r x A HX Hn Hr Hc HI HL AO. unfold pair_and_shatter.
  eapply ends_bind; [apply (clear_children_spec s r Hr HI)|]. cbv beta. intros s1 (F1 & Er1 & Em1 & Ht).
  assert (HI1 : intact s1) by (eapply fr_intact; eassumption).
  pose proof HL as (a & A1 & A2 & A3). rewrite Em1, A1. cbn [deref bindO].
  (* the child that keeps the match *)
  pose proof (E_perm G ev n0 g0 ls y ch HG r Hr Hc) as PE.
  assert (Hs : exists sub, In sub (map fst (chl g0 r)) /\ In a (E sub)).
  { apply (Permutation_in _ PE) in A2. apply in_flat_map in A2 as (c & C1 & C2). eauto. }
  destruct Hs as (sub & Hsub & Ha). destruct (proj1 (kids G ev n0 g0 ls y ch HG r sub Hr) Hsub) as [Hsl Hsp].
  pose proof (proj1 (E_In _ _ _ _ _) Ha) as [Hae Hac]. pose proof (ev_lt G _ _ _ _ _ _ HG a Hae) as Hal.
  rewrite (Ht a sub Hal Hsub Hac). cbn [deref bindO].
  set (m := set_match (ma s) sub (mreg (ma s) r) (medge (ma s) r)).
  set (m' := match mreg m sub with Some q => set_mreg m q (Some sub) | None => m end).
  set (s2 := set_ma s1 m').
  assert (Dsub : forall Q, In Q (D sub) -> In Q (D r) /\ Q <> r) by (intros Q HQ; apply (D_child G ev n0 g0 ls y ch HG r sub Hsl Hsp Q HQ)).
  assert (Em : mreg m sub = mreg (ma s) r) by (unfold m, set_match; cbn [mreg]; apply upd_same).
  assert (Aq : forall q, mreg (ma s) r = Some q -> In q ls /\ ~ In q (D r)).
  { intros q Eq. rewrite Eq in A3. destruct A3 as (Q1 & Q2 & _). split; [assumption|]. intros H. apply (Q2 q H). apply (D_self G ev n0 g0 ls y ch HG q Q1). }
  assert (Em' : mreg (ma s2) sub = mreg (ma s) r).
  { cbn [s2 ma set_ma]. unfold m'. rewrite Em. destruct (mreg (ma s) r) as [q|] eqn:Eq; [|exact Em]. destruct (Aq q eq_refl) as [_ Q]. unfold set_mreg. cbn [mreg]. rewrite upd_other; [exact Em|].
    intros ->. apply Q. apply Dsub. apply (D_self G ev n0 g0 ls y ch HG q Hsl). }
  assert (Emo : forall R, R <> sub -> mreg (ma s) r <> Some R -> mreg (ma s2) R = mreg (ma s) R).
  { intros R N1 N2. cbn [s2 ma set_ma]. unfold m'. rewrite Em. destruct (mreg (ma s) r) as [q|] eqn:Eq; unfold set_mreg, m, set_match; cbn [mreg]; rewrite ?upd_other; auto. }
  assert (Eme : forall R, medge (ma s2) R = if Nat.eqb R sub then medge (ma s) r else medge (ma s) R).
  { intros R. cbn [s2 ma set_ma]. unfold m'. rewrite Em. destruct (mreg (ma s) r) as [q|] eqn:Eq; unfold set_mreg, m, set_match; cbn [medge]; reflexivity. }
  assert (Ab : above sub = above r + y r) by (apply (above_child G ev n0 g0 ls y ch HG r sub Hsl Hsp)).
  assert (L2 : linked s2 sub (x + y r)).
  { exists a. rewrite Em', Eme, Nat.eqb_refl. split; [assumption|]. split; [assumption|]. destruct (mreg (ma s) r) as [q|] eqn:Eq.
    - destruct A3 as (Q1 & Q2 & Q3 & Q4 & b & B1 & B2 & B3). destruct (Aq q eq_refl) as [_ Q5].
      assert (Nq : q <> sub) by (intros ->; apply Q5, Dsub, (D_self G ev n0 g0 ls y ch HG _ Hsl)).
      split; [assumption|]. split; [intros Q H; apply Q2, Dsub, H|]. split.
      { cbn [s2 ma set_ma]. unfold m'. rewrite Em. unfold set_mreg. cbn [mreg]. apply upd_same. }
      split; [rewrite Eme, (proj2 (Nat.eqb_neq q sub) Nq); assumption|]. exists b. repeat split; auto. replace (Yv a - above sub + (Yv b - above q) + (x + y r)) with (Yv a - above r + (Yv b - above q) + x) by lia. assumption.
    - destruct A3 as [B1 B2]. split; [assumption|]. replace (Yv a - above sub + (x + y r)) with (Yv a - above r + x) by lia. assumption. }
  assert (HI2 : intact s2) by exact HI1. destruct HI2 as (J1 & J2 & J3). rewrite J1, (J3 r Hr).
  set (cyc := chl g0 r) in *. set (idx := find_child sub 0 cyc). set (pairs := child_pairs cyc idx).
  assert (Hidx : (idx < length cyc)%nat /\ region_at cyc idx = sub).
  { destruct (find_child_spec sub cyc 0 Hsub) as [X1 X2]. fold idx in X1, X2. split; [lia|]. unfold region_at. rewrite Nat.mod_small by lia. rewrite Nat.sub_0_r in X2. exact X2. }
  destruct Hidx as [Hi1 Hi2].
  assert (Odd : Nat.odd (length cyc) = true) by (destruct (g_odd _ _ _ _ _ _ _ HG r Hr) as [H|H]; [contradiction|exact H]).
  destruct (child_pairs_spec cyc idx Odd Hi1) as [PP PL]. fold pairs in PP, PL. rewrite Hi2 in PP.
  assert (NDp : NoDup (sub :: pair_regions pairs)) by (apply (Permutation_NoDup (Permutation_sym PP)), (g_chnd _ _ _ _ _ _ _ HG r Hr)).
  assert (Kp : forall c, In c (sub :: pair_regions pairs) -> In c ls /\ bpar g0 c = Some r) by (intros c H; apply (kids G ev n0 g0 ls y ch HG r c Hr), (Permutation_in _ PP H)).
  assert (Kd : forall c, In c (sub :: pair_regions pairs) -> forall Q, In Q (D c) -> In Q (D r) /\ Q <> r) by (intros c H Q HQ; destruct (Kp c H); apply (D_child G ev n0 g0 ls y ch HG r c); assumption).
  assert (Kdis : forall c c', In c (sub :: pair_regions pairs) -> In c' (sub :: pair_regions pairs) -> c <> c' -> forall Q, In Q (D c) -> ~ In Q (D c')).
  { intros c c' H H' Hne Q HQ HQ'. apply Hne. destruct (Kp c H), (Kp c' H'). apply (D_kids_disjoint G ev n0 g0 ls y ch HG r c c' Q); assumption. }
  assert (PD : Permutation (D r) (r :: D sub ++ flat_map D (pair_regions pairs))).
  { etransitivity; [apply (D_perm G ev n0 g0 ls y ch HG r Hr)|]. constructor. symmetry. apply (Perm_flat _ _ D _ _ PP). }
  assert (PE' : Permutation (E r) (E sub ++ flat_map E (pair_regions pairs))).
  { etransitivity; [exact PE|]. symmetry. apply (Perm_flat _ _ E _ _ PP). }
  set (T := r :: D sub ++ pd s r ++ A).
  assert (AO2 : arena_ok (ra s2) (flat_map D (pair_regions pairs) ++ T)).
  { change (ra s2) with (ra s1). rewrite Er1. apply (arena_perm _ _ _ AO). unfold T. etransitivity; [apply Permutation_app_tail; exact PD|]. cbn [app]. etransitivity; [|apply Permutation_middle]. constructor.
    rewrite <- app_assoc. apply Permutation_app_swap_app. }
  pose (NN := fun R => In R (D r) /\ R <> r). pose (MM := fun R => In R (D r) \/ mreg (ma s) r = Some R).
  eapply ends_bind.
  - refine (ends_fold _ _ (fun fuel st p => let '(s0, res) := st in let '(r1, r2, e) := p in bindO (extr fuel (add_match s0 r1 r2 e) r1) (fun y0 => Ok (fst y0, res_add res (snd y0)))) pairs
      (fun don st => fr NN MM s2 (fst st) /\ linked (fst st) sub (x + y r) /\ mreg (ma (fst st)) sub = mreg (ma s) r /\
         (forall rest, pairs = don ++ rest -> arena_ok (ra (fst st)) (flat_map D (pair_regions rest) ++ T)) /\
         (forall c R, In c (pair_regions don) -> In R (D c) -> clean (fst st) R) /\
         res_ok G (snd st) (y r + zsum y (flat_map D (pair_regions don))) (zsum y (flat_map D (pair_regions don))) (flat_map E (pair_regions don))) _ _ _).
    + cbn [fst snd]. split; [apply fr_refl|]. split; [exact L2|]. split; [exact Em'|]. split; [intros rest ->; exact AO2|]. split; [intros c R []|]. cbn. repeat split; auto. lia.
    + intros don p rest st El (F & L & Emm & AO3 & C & RO). destruct st as [s3 res]. destruct p as [[r1 r2] e]. cbn [fst snd] in *.
      assert (Hp : In (r1, r2, e) pairs) by (rewrite El; apply in_or_app; right; now left).
      assert (Pr : pair_regions pairs = pair_regions don ++ r1 :: r2 :: pair_regions rest) by (rewrite El, pair_regions_app; reflexivity).
      assert (H1 : In r1 (sub :: pair_regions pairs)) by (right; rewrite Pr; apply in_or_app; right; now left).
      assert (H2 : In r2 (sub :: pair_regions pairs)) by (right; rewrite Pr; apply in_or_app; right; right; now left).
      assert (N12 : r1 <> r2 /\ r1 <> sub /\ r2 <> sub /\ ~ In r1 (pair_regions don) /\ ~ In r2 (pair_regions don)).
      { pose proof (proj1 (NoDup_cons_iff _ _) NDp) as [N1 N2]. rewrite Pr in N1, N2. clear -N1 N2. pose proof (NoDup_remove_2 _ _ _ N2) as N4.
        split; [intros ->; apply N4, in_or_app; right; now left|]. split; [intros ->; apply N1; apply in_or_app; right; now left|]. split; [intros ->; apply N1; apply in_or_app; right; right; now left|].
        split; [apply NoDup_remove_2 in N2; intros H; apply N2, in_or_app; now left|].
        intros H. change (r1 :: r2 :: pair_regions rest) with ([r1] ++ r2 :: pair_regions rest) in N2. rewrite app_assoc in N2. apply NoDup_remove_2 in N2. apply N2. apply in_or_app. left. apply in_or_app. now left. }
      destruct N12 as (N12 & N1s & N2s & N1d & N2d). destruct (Kp r1 H1) as [R1l R1p], (Kp r2 H2) as [R2l R2p].
      assert (TX : tightx G ev n0 ch y (2 * zsum y (ch r)) r1 r2 e).
      { rewrite Forall_forall in PL. destruct (PL _ Hp) as (i & Hi & [(X1 & X2 & X3)|(X1 & X2 & X3)]); cbn [fst snd] in X1, X2, X3; rewrite X1, X2, X3; [apply (g_cyc _ _ _ _ _ _ _ HG r i Hr Hi)|].
        apply tightx_rev; [assumption|]. apply (g_cyc _ _ _ _ _ _ _ HG r i Hr Hi). }
      destruct TX as (a1 & a2 & T1 & T2 & T3 & T4 & T5 & T6 & TW).
      set (s4 := add_match s3 r1 r2 e).
      assert (M1 : mreg (ma s4) r1 = Some r2 /\ medge (ma s4) r1 = e).
      { unfold s4, add_match, set_match. cbn [ma set_ma mreg medge]. split; (rewrite upd_other; [apply upd_same|exact N12]). }
      assert (M2 : mreg (ma s4) r2 = Some r1 /\ medge (ma s4) r2 = rev_e e).
      { unfold s4, add_match, set_match. cbn [ma set_ma mreg medge]. split; apply upd_same. }
      assert (Mo : forall R, R <> r1 -> R <> r2 -> mreg (ma s4) R = mreg (ma s3) R /\ medge (ma s4) R = medge (ma s3) R).
      { intros R X1 X2. unfold s4, add_match, set_match. cbn [ma set_ma mreg medge]. rewrite !upd_other; auto. }
      assert (F4 : fr NN (fun R => In R (D r1 ++ D r2)) s3 s4).
      { split; try reflexivity.
        - intros R HR. apply Mo; intros ->; apply HR, in_or_app; [left|right]; apply (D_self G ev n0 g0 ls y ch HG); assumption.
        - intros v _. repeat split. }
      assert (Pd4 : pd s4 r1 = D r2) by (unfold pd; now rewrite (proj1 M1)). assert (Pe4 : pe s4 r1 = E r2) by (unfold pe; now rewrite (proj1 M1)).
      assert (L4 : linked s4 r1 0).
      { exists a1. rewrite (proj1 M1), (proj2 M1). split; [assumption|]. split; [apply E_In; now split|]. split; [assumption|]. split; [apply Kdis; assumption|]. split; [apply M2|]. split; [apply M2|].
        exists a2. split; [assumption|]. split; [apply E_In; now split|].
        pose proof (above_child G ev n0 g0 ls y ch HG r r1 R1l R1p) as X1. pose proof (above_child G ev n0 g0 ls y ch HG r r2 R2l R2p) as X2. unfold P_CoreExt1.above in *.
        match goal with |- walk _ _ _ ?z _ => replace z with (Yv a1 + Yv a2 - 2 * zsum y (ch r)) by lia end. exact TW. }
      assert (HI4 : intact s4) by (apply (fr_intact NN (fun _ => True) s2); [|repeat split; assumption]; apply (fr_trans NN (fun _ => True) s2 s3 s4); [eapply fr_weaken; [exact F| |]|eapply fr_weaken; [exact F4| |]]; auto).
      assert (AO4 : arena_ok (ra s4) (D r1 ++ pd s4 r1 ++ (flat_map D (pair_regions rest) ++ T))).
      { rewrite Pd4. change (ra s4) with (ra s3). pose proof (AO3 _ El) as X. cbn [pair_regions flat_map fst snd app] in X. fold (pair_regions rest) in X. rewrite <- !app_assoc in X. exact X. }
      assert (Hlt : (length (D r1 ++ pd s4 r1) < n)%nat).
      { rewrite Pd4. assert (X : (S (length (D r1 ++ D r2)) <= length (D r))%nat); [|lia].
        change (S (length (D r1 ++ D r2))) with (length (r :: D r1 ++ D r2)). apply NoDup_incl_length.
        - constructor; [intros X; apply in_app_or in X as [X|X]; [apply (Kd r1 H1) in X|apply (Kd r2 H2) in X]; tauto|].
          apply NoDup_join; [apply (D_NoDup G ev n0 g0 ls y ch HG)|apply (D_NoDup G ev n0 g0 ls y ch HG)|apply Kdis; assumption].
        - intros Q [<-|HQ]; [apply (D_self G ev n0 g0 ls y ch HG); assumption|]. apply in_app_or in HQ as [HQ|HQ]; [apply (Kd r1 H1) in HQ|apply (Kd r2 H2) in HQ]; tauto. }
      cbv beta iota. eapply ends_bind; [apply (HX s4 r1 0 _ Hlt R1l HI4 L4 AO4)|]. cbv beta. rewrite Pd4, Pe4. intros [s5 res5] (F5 & C5 & AO5 & RO5). cbn [fst snd] in *. apply ends_ok. cbn [fst snd].
      assert (D12 : forall R, In R (D r1 ++ D r2) -> In R (D r) /\ R <> r).
      { intros R HR. apply in_app_or in HR as [HR|HR]; [apply (Kd r1 H1 R HR)|apply (Kd r2 H2 R HR)]. }
      assert (F5' : fr NN MM s3 s5).
      { eapply fr_trans; [eapply fr_weaken; [exact F4| |]|eapply fr_weaken; [exact F5| |]]; auto; unfold NN, MM; intros R HR; solve [apply D12; assumption|left; apply D12; assumption]. }
      assert (Fm : forall R, ~ In R (D r1 ++ D r2) -> mreg (ma s5) R = mreg (ma s3) R /\ medge (ma s5) R = medge (ma s3) R).
      { intros R HR. destruct (fr_ma _ _ _ _ F4 R HR), (fr_ma _ _ _ _ F5 R HR). split; congruence. }
      destruct (linked_frame s3 s5 sub (x + y r) L) as [L5 Em5].
      { intros R [->|HR]; apply Fm; intros H; apply in_app_or in H.
        - pose proof (D_self G ev n0 g0 ls y ch HG sub Hsl) as Hself. destruct H as [H|H]; [apply (Kdis sub r1 (or_introl eq_refl) H1 (not_eq_sym N1s) sub Hself H)|apply (Kdis sub r2 (or_introl eq_refl) H2 (not_eq_sym N2s) sub Hself H)].
        - rewrite Emm in HR. destruct (Aq R HR) as [_ Q]. apply Q. apply in_or_app in H. apply D12 in H. apply H. }
      split; [eapply fr_trans; eassumption|]. split; [exact L5|]. split; [congruence|]. split; [|split].
      * intros rest' El'. assert (rest' = rest).
        { rewrite El in El'. rewrite <- app_assoc in El'. apply app_inv_head in El'. cbn [app] in El'. congruence. }
        subst rest'. exact AO5.
      * intros c R Hc' HR. rewrite pair_regions_app in Hc'. apply in_app_or in Hc' as [Hc'|[<-|[<-|[]]]]; [|apply C5, in_or_app; now left|apply C5, in_or_app; now right].
        assert (Hcp : In c (sub :: pair_regions pairs)) by (right; rewrite Pr; apply in_or_app; now left).
        assert (NR : ~ In R (D r1 ++ D r2)).
        { intros H. apply in_app_or in H as [H|H]; [apply (Kdis c r1 Hcp H1 (fun X => N1d (eq_ind _ (fun z => In z _) Hc' _ X)) R HR H)|apply (Kdis c r2 Hcp H2 (fun X => N2d (eq_ind _ (fun z => In z _) Hc' _ X)) R HR H)]. }
        assert (HRl : In R ls) by (apply D_In in HR; tauto).
        apply (fr_clean _ _ s4 s5 R F5 HRl NR). apply (C c R Hc' HR).
      * eapply res_ok_eq; [apply (res_ok_add G _ _ _ _ _ _ _ _ RO RO5)| | |]; rewrite pair_regions_app, ?flat_map_app, ?zsum_app; cbn [pair_regions flat_map fst snd app]; rewrite ?app_nil_r, ?zsum_app; try lia. reflexivity.
  - cbv beta. intros [s3 res] (F & L & Emm & AO3 & C & RO). cbn [fst snd] in *. apply ends_ok.
    split; [assumption|]. split; [assumption|]. split; [|split; [|split; [|split; [|split]]]].
    + apply (fr_trans NN MM s s2).
      * destruct F1. split; try assumption.
        -- cbn [s2 ma set_ma]. unfold m'. rewrite Em. now destruct (mreg (ma s) r).
        -- intros R HR. unfold MM in HR. rewrite Eme. assert (R <> sub) by (intros ->; apply HR; left; apply Dsub, (D_self G ev n0 g0 ls y ch HG sub Hsl)).
           rewrite (proj2 (Nat.eqb_neq R sub) H). split; [apply Emo; [assumption|]|reflexivity]. intros X. apply HR. now right.
      * destruct F. split; assumption.
    + intros R H1 H2 H3. apply (Permutation_in _ PD) in H1 as [->|H1]; [congruence|]. apply in_app_or in H1 as [H1|H1]; [contradiction|]. apply in_flat_map in H1 as (c & C1 & C2). apply (C c R C1 C2).
    + cbn [del_region ra set_ra]. apply (arena_del _ T); [|unfold T; reflexivity]. specialize (AO3 [] (eq_sym (app_nil_r _))). exact AO3.
    + exact L.
    + exact Emm.
    + exists (y r + zsum y (flat_map D (pair_regions pairs))), (flat_map E (pair_regions pairs)). split; [|split].
      * eapply res_ok_eq; [exact RO| | |]; try lia. reflexivity.
      * rewrite (zsum_perm _ _ _ _ PD). cbn [zsum]. rewrite zsum_app. lia.
      * now symmetry.
Qed.

Lemma leaf_Yv : forall r a, In r ls -> chl g0 r = [] -> In a (E r) -> Yv a = above r + y r.
Proof.
  intros r a Hr Hc Ha. apply E_In in Ha as [H1 H2]. unfold P_CoreGeo.Yv, chn in *. destruct (arr n0 a) as [R|] eqn:Ea; [|destruct H2].
  assert (HR : In R ls) by exact (g_arr _ _ _ _ _ _ _ HG a R (ev_lt G _ _ _ _ _ _ HG a H1) Ea).
  assert (X : In R (D r)) by (apply D_In; now split). rewrite (D_leaf G ev n0 g0 ls y ch HG r Hr Hc) in X. destruct X as [->|[]]. unfold P_CoreExt1.above. lia.
Qed.

(** One side of a match is broken up, or left if it is not a blossom. *)
Lemma half_spec : forall n extr s r x A, ext_ok n extr -> (length (D r) <= n)%nat -> In r ls -> intact s -> linked s r x -> arena_ok (ra s) (D r ++ pd s r ++ A) -> clean s r ->
  ends (fun fuel => match chl g0 r with [] => Ok (s, (0%N, 0, []), r) | _ => pair_and_shatter fuel NI (extr fuel) s r end) (fun z => let '(s', res, r3) := z in
    (chl g0 r <> [] -> (length (D r3) < length (D r))%nat) /\ In r3 ls /\ (forall Q, In Q (D r3) -> In Q (D r)) /\
    fr (fun R => In R (D r)) (fun R => In R (D r) \/ mreg (ma s) r = Some R) s s' /\
    (forall R, In R (D r) -> ~ In R (D r3) -> clean s' R) /\
    arena_ok (ra s') (D r3 ++ pd s r ++ A) /\ mreg (ma s') r3 = mreg (ma s) r /\
    exists d w es, linked s' r3 (x + d) /\ res_ok G res w (w - d) es /\ w + zsum y (D r3) = zsum y (D r) /\ Permutation (E r3 ++ es) (E r)).
Proof.
  intros n extr s r x A HX Hn Hr HI HL AO HC. destruct (chl g0 r) as [|c0 cs] eqn:Ec.
  - apply ends_ok. split; [congruence|]. split; [assumption|]. split; [auto|]. split; [apply fr_refl|]. split; [tauto|]. split; [assumption|]. split; [reflexivity|]. exists 0, 0, []. rewrite Z.add_0_r, app_nil_r. split; [assumption|]. split; [apply res_ok_nil|]. split; [lia|reflexivity].
  - eapply ends_impl; [apply (pair_and_shatter_spec n extr s r x A HX Hn Hr)|]; try assumption; [rewrite Ec; discriminate|]. intros [[s' res] sub] (H1 & H2 & H3 & H4 & H5 & H6 & H7 & w & es & H8 & H9 & H10).
    split.
    { intros _. change (S (length (D sub)) <= length (D r))%nat. change (S (length (D sub))) with (length (r :: D sub)). apply NoDup_incl_length.
      - constructor; [intros X; apply (D_child G ev n0 g0 ls y ch HG r sub H1 H2) in X; tauto|apply (D_NoDup G ev n0 g0 ls y ch HG)].
      - intros Q [<-|HQ]; [apply (D_self G ev n0 g0 ls y ch HG); assumption|apply (D_child G ev n0 g0 ls y ch HG r sub H1 H2 Q HQ)]. }
    split; [assumption|]. split; [intros Q HQ; apply (D_child G ev n0 g0 ls y ch HG r sub H1 H2 Q HQ)|]. split; [eapply fr_weaken; [exact H3| |]; cbv beta; intros ? ?; tauto|]. split.
    + intros R HR HN. destruct (Nat.eq_dec R r) as [->|Hne]; [|apply H4; assumption]. apply (fr_clean _ _ s s' r H3 Hr); [tauto|assumption].
    + split; [assumption|]. split; [assumption|]. exists (y r), w, es. auto.
Qed.

Lemma D_length : forall r r', (forall Q, In Q (D r') -> In Q (D r)) -> (length (D r') <= length (D r))%nat.
Proof. intros r r' H. apply NoDup_incl_length; [apply (D_NoDup G ev n0 g0 ls y ch HG)|exact H]. Qed.

Lemma extract_spec : forall n (d : nat), ext_ok n (fun fuel => extract fuel NI (fuel - d)).
Proof.
  induction n as [|n IH]; intros dd s r x A Hn Hr HI HL AO; [lia|]. specialize (IH (S dd)).
  eapply (ends_fix _ (fun fuel k => extract fuel NI k s r)); [intros fuel k; cbn [extract]; reflexivity|reflexivity|]. cbv beta.
  destruct (cleanup_spec s r Hr HI) as (F1 & C1 & Er1 & Em1). set (s1 := cleanup_shell_area s r) in *.
  assert (HI1 : intact s1) by (eapply fr_intact; eassumption). rewrite Em1. destruct (mreg (ma s) r) as [q|] eqn:Eq.
  - (* a pair of regions *)
    pose proof HL as (a & A1 & A2 & A3). rewrite Eq in A3. destruct A3 as (Hq & Dis & Q3 & Q4 & b & B1 & B2 & B3).
    assert (Epd : pd s r = D q) by (unfold pd; now rewrite Eq). assert (Epe : pe s r = E q) by (unfold pe; now rewrite Eq). rewrite Epd in *. rewrite Epe.
    destruct (cleanup_spec s1 q Hq HI1) as (F2 & C2 & Er2 & Em2). set (s2 := cleanup_shell_area s1 q) in *.
    assert (HI2 : intact s2) by (eapply fr_intact; eassumption).
    assert (Nrq : r <> q) by (intros ->; apply (Dis q); apply (D_self G ev n0 g0 ls y ch HG q Hq)).
    assert (C1' : clean s2 r) by (apply (fr_clean _ _ s1 s2 r F2 Hr); [cbv beta; congruence|assumption]).
    pose (XX := fun R => In R (D r ++ D q)).
    assert (F2' : fr XX XX s s2).
    { eapply fr_trans; eapply fr_weaken; [exact F1| | |exact F2| |]; cbv beta; unfold XX; try tauto; intros R ->; apply in_or_app; [left|right]; apply (D_self G ev n0 g0 ls y ch HG); assumption. }
    assert (Em : ma s2 = ma s) by congruence. assert (Er : ra s2 = ra s) by congruence.
    assert (L2 : linked s2 r x) by (apply (linked_frame s s2 r x HL); intros R _; rewrite Em; now split).
    assert (Epd2 : pd s2 r = D q) by (unfold pd; now rewrite Em, Eq). assert (Epe2 : pe s2 r = E q) by (unfold pe; now rewrite Em, Eq).
    rewrite Em, Eq. rewrite !(proj1 HI2).
    assert (KEY : (chl g0 r <> [] \/ chl g0 q <> []) -> ends (fun fuel => bindO (match chl g0 r with [] => Ok (s2, (0%N, 0, []), r) | _ => pair_and_shatter fuel NI (extract fuel NI (fuel - S dd)) s2 r end) (fun x0 =>
        let '(s3, res, r3) := x0 in
        bindO (match mreg (ma s3) r3 with
               | Some q0 => match chl (rg s3) q0 with [] => Ok (s3, res) | _ => bindO (pair_and_shatter fuel NI (extract fuel NI (fuel - S dd)) s3 q0) (fun y0 => Ok (fst (fst y0), res_add res (snd (fst y0)))) end
               | None => Ok (s3, res) end) (fun x2 =>
        bindO (extract fuel NI (fuel - S dd) (fst x2) r3) (fun z => Ok (fst z, res_add (snd x2) (snd z))))))
      (fun z => fr XX XX s (fst z) /\ (forall R, XX R -> clean (fst z) R) /\ arena_ok (ra (fst z)) A /\ res_ok G (snd z) (zsum y (D r ++ D q)) (zsum y (D r ++ D q) + x) (E r ++ E q))).
    { intros Hbl. rewrite app_length in Hn.
      eapply ends_bind; [apply (half_spec n _ s2 r x A IH)|]; [lia|exact Hr|exact HI2|exact L2|rewrite Er, Epd2; exact AO|exact C1'|]. intros [[s3 res] r3] (Hl3 & Hr3 & D3 & F3 & C3 & AO3 & Em3 & d & w & es & L3 & RO3 & W3 & PE3). rewrite Epd2 in AO3.
      rewrite Em, Eq in Em3, F3. rewrite Em3.
      assert (F3' : fr XX XX s2 s3).
      { eapply fr_weaken; [exact F3| |]; unfold XX; intros R HR; apply in_or_app; [now left|]. destruct HR as [HR|HR]; [now left|]. injection HR as <-. right. apply (D_self G ev n0 g0 ls y ch HG q Hq). }
      assert (HI3 : intact s3) by (eapply fr_intact; eassumption).
      assert (C3q : clean s3 q).
      { apply (fr_clean _ _ s2 s3 q F3 Hq); [|assumption]. intros H. apply (Dis q H). apply (D_self G ev n0 g0 ls y ch HG q Hq). }
      assert (L3q : linked s3 q (x + d)) by (eapply linked_sym; eassumption).
      assert (Mq : mreg (ma s3) q = Some r3) by (destruct L3 as (a' & _ & _ & L3); rewrite Em3 in L3; tauto).
      assert (Epd3 : pd s3 q = D r3) by (unfold pd; now rewrite Mq).
      rewrite (proj1 HI3).
      assert (KB : ends (fun fuel => bindO (match chl g0 q with [] => Ok (s3, (0%N, 0, []), q) | _ => pair_and_shatter fuel NI (extract fuel NI (fuel - S dd)) s3 q end)
                    (fun y0 => Ok (fst (fst y0), res_add res (snd (fst y0))))) (fun x2 =>
           (chl g0 q <> [] -> (length (pd (fst x2) r3) < length (D q))%nat) /\ exists d' w' es', let s4 := fst x2 in fr XX XX s s4 /\ arena_ok (ra s4) (D r3 ++ pd s4 r3 ++ A) /\ linked s4 r3 (x + d') /\ (forall R, XX R -> ~ In R (D r3 ++ pd s4 r3) -> clean s4 R) /\
             (forall R, In R (pd s4 r3) -> In R (D q)) /\ res_ok G (snd x2) w' (w' - d') es' /\ w' + zsum y (D r3 ++ pd s4 r3) = zsum y (D r ++ D q) /\ Permutation ((E r3 ++ pe s4 r3) ++ es') (E r ++ E q))).
      { eapply ends_bind; [apply (half_spec n _ s3 q (x + d) A IH)|]; [lia|exact Hq|exact HI3|exact L3q| |exact C3q|].
        - rewrite Epd3. apply (arena_perm _ _ _ AO3). rewrite !app_assoc. apply Permutation_app_tail, Permutation_app_comm.
        - intros [[s4 res4] q3] (Hl4 & Hq3 & D4 & F4 & C4 & AO4 & Em4 & d' & w' & es' & L4 & RO4 & W4 & PE4). apply ends_ok. cbn [fst snd]. rewrite Epd3 in AO4. rewrite Mq in Em4, F4.
          assert (L4r : linked s4 r3 (x + d + d')) by (eapply linked_sym; eassumption).
          assert (Mr : mreg (ma s4) r3 = Some q3) by (destruct L4 as (a' & _ & _ & L4); rewrite Em4 in L4; tauto).
          assert (Epd4 : pd s4 r3 = D q3) by (unfold pd; now rewrite Mr). assert (Epe4 : pe s4 r3 = E q3) by (unfold pe; now rewrite Mr). rewrite Epd4, Epe4.
          assert (F4' : fr XX XX s3 s4).
          { eapply fr_weaken; [exact F4| |]; unfold XX; intros R HR; apply in_or_app; [now right|]. destruct HR as [HR|HR]; [now right|]. injection HR as <-. left. apply D3, (D_self G ev n0 g0 ls y ch HG r3 Hr3). }
          split; [exact Hl4|]. exists (d + d'), (w + w'), (es ++ es'). split; [eapply fr_trans; [eapply fr_trans|]; eassumption|]. split.
          { apply (arena_perm _ _ _ AO4). rewrite !app_assoc. apply Permutation_app_tail, Permutation_app_comm. }
          split; [rewrite Z.add_assoc; exact L4r|]. split.
          { intros R HR HN. apply in_app_or in HR as [HR|HR].
            - assert (X1 : ~ In R (D r3)) by (intros X; apply HN, in_or_app; now left). assert (X2 : ~ In R (D q)) by (apply Dis; assumption).
              apply (fr_clean _ _ s3 s4 R F4); [apply D_In in HR; tauto|assumption|]. apply C3; assumption.
            - apply C4; [assumption|]. intros X; apply HN, in_or_app; now right. }
          split; [assumption|]. split; [|split].
          + eapply res_ok_eq; [apply (res_ok_add G _ _ _ _ _ _ _ _ RO3 RO4)|lia|lia|reflexivity].
          + rewrite !zsum_app. lia.
          + etransitivity; [|apply Permutation_app; [exact PE3|exact PE4]]. rewrite <- !app_assoc. apply Permutation_app_head. rewrite !app_assoc. apply Permutation_app_tail, Permutation_app_comm. }
      apply (ends_bind _ _ _ _ (fun x2 => (chl g0 q <> [] -> (length (pd (fst x2) r3) < length (D q))%nat) /\ exists d' w' es', let s4 := fst x2 in fr XX XX s s4 /\ arena_ok (ra s4) (D r3 ++ pd s4 r3 ++ A) /\ linked s4 r3 (x + d') /\ (forall R, XX R -> ~ In R (D r3 ++ pd s4 r3) -> clean s4 R) /\
             (forall R, In R (pd s4 r3) -> In R (D q)) /\ res_ok G (snd x2) w' (w' - d') es' /\ w' + zsum y (D r3 ++ pd s4 r3) = zsum y (D r ++ D q) /\ Permutation ((E r3 ++ pe s4 r3) ++ es') (E r ++ E q))).
      - destruct (chl g0 q); [|exact KB]. cbn [bindO fst snd] in *. destruct res as [[o1 w1] l1]. cbn [res_add] in KB. rewrite N.lxor_0_r, Z.add_0_r, app_nil_r in KB. exact KB.
      - clear KB. intros x2 (Hl4 & d' & w' & es' & K). cbv zeta in K. destruct K as (K1 & K2 & K3 & K4 & K5 & K6 & K7 & K8).
        assert (HI4 : intact (fst x2)) by (eapply fr_intact; eassumption).
        assert (Hlt : (length (D r3 ++ pd (fst x2) r3) < n)%nat).
        { rewrite app_length. pose proof (D_length r r3 D3) as X1. assert (X2 : (length (pd (fst x2) r3) <= length (D q))%nat).
          { unfold pd in K5 |- *. destruct (mreg (ma (fst x2)) r3) as [q'|]; [apply D_length; exact K5|cbn; lia]. }
          destruct Hbl as [Hbl|Hbl]; [specialize (Hl3 Hbl)|specialize (Hl4 Hbl)]; lia. }
        eapply ends_bind; [apply (IH (fst x2) r3 (x + d') A Hlt Hr3 HI4 K3 K2)|]. cbv beta. intros z (Z1 & Z2 & Z3 & Z4). apply ends_ok. cbn [fst snd].
        assert (XS : forall R, In R (D r3 ++ pd (fst x2) r3) -> XX R).
        { intros R HR. apply in_or_app. apply in_app_or in HR as [HR|HR]; [left; apply D3; assumption|right; apply K5; assumption]. }
        split; [eapply fr_trans; [exact K1|]; eapply fr_weaken; [exact Z1| |]; assumption|]. split; [|split].
        + intros R HR. destruct (in_dec Nat.eq_dec R (D r3 ++ pd (fst x2) r3)) as [Hin|Hin]; [apply Z2; assumption|]. apply (fr_clean _ _ _ _ R Z1); [|assumption|apply K4; assumption].
          apply in_app_or in HR as [HR|HR]; apply D_In in HR; tauto.
        + assumption.
        + eapply res_ok_eq; [apply (res_ok_add G _ _ _ _ _ _ _ _ K6 Z4)|lia|lia|]. etransitivity; [apply Permutation_app_comm|exact K8]. }
    destruct (chl g0 r) as [|c0 cs] eqn:Ec; [|apply KEY; left; discriminate]. destruct (chl g0 q) as [|c0' cs'] eqn:Ec'; [|apply KEY; right; discriminate]. clear KEY. apply ends_ok. cbn [fst snd].
    pose proof (D_leaf G ev n0 g0 ls y ch HG r Hr Ec) as Dr. pose proof (D_leaf G ev n0 g0 ls y ch HG q Hq Ec') as Dq. fold (XX).
    split; [|split; [|split]].
    + destruct F2'. split; assumption.
    + intros R HR. rewrite Dr, Dq in HR. destruct HR as [<-|[<-|[]]]; [exact C1'|exact C2].
    + cbn [del_region ra set_ra]. apply (arena_del _ (r :: A)); [|reflexivity]. apply (arena_del _ (r :: q :: A)); [|apply perm_swap]. rewrite Er. rewrite Dr, Dq in AO. exact AO.
    + cbn [res_ok]. rewrite Dr, Dq, (E_leaf G ev n0 g0 ls y ch HG r a Hr Ec A2), (E_leaf G ev n0 g0 ls y ch HG q b Hq Ec' B2). rewrite (proj2 (proj2 HI2) r Hr), (proj2 (proj2 HI2) q Hq).
      pose proof (leaf_Yv r a Hr Ec A2) as Y1. pose proof (leaf_Yv q b Hq Ec' B2) as Y2. cbn [app zsum xorl fold_right paths tips flat_map].
      split; [now rewrite N.lxor_0_r|]. split; [lia|]. split.
      * exists a, (y r + y q + x). split; [assumption|]. split; [|lia]. rewrite B1. cbn [path]. replace (y r + y q + x) with (Yv a - above r + (Yv b - above q) + x) by lia. exact B3.
      * rewrite A1, B1. reflexivity.
  - (* a region matched to the boundary *)
    pose proof HL as (a & A1 & A2 & A3). rewrite Eq in A3. destruct A3 as (B1 & B2).
    assert (Epd : pd s r = []) by (unfold pd; now rewrite Eq). assert (Epe : pe s r = []) by (unfold pe; now rewrite Eq). rewrite Epd, Epe in *. rewrite !app_nil_r in *. cbn [app] in AO.
    assert (L1 : linked s1 r x) by (apply (linked_frame s s1 r x HL); intros R _; rewrite Em1; now split).
    assert (Epd1 : pd s1 r = []) by (unfold pd; now rewrite Em1, Eq). assert (Epe1 : pe s1 r = []) by (unfold pe; now rewrite Em1, Eq).
    pose (XX := fun R => In R (D r)).
    assert (F1' : fr XX XX s s1).
    { eapply fr_weaken; [exact F1| |]; cbv beta; unfold XX; try tauto. intros R ->. apply (D_self G ev n0 g0 ls y ch HG r Hr). }
    rewrite Em1, Eq. rewrite !(proj1 HI1). pose proof (half_spec n _ s1 r x A IH ltac:(lia) Hr HI1 L1) as HF. destruct (chl g0 r) as [|c0 cs] eqn:Ec.
    + clear HF. apply ends_ok. cbn [fst snd]. pose proof (D_leaf G ev n0 g0 ls y ch HG r Hr Ec) as Dr. split; [|split; [|split]].
      * destruct F1'. split; assumption.
      * intros R HR. rewrite Dr in HR. destruct HR as [<-|[]]. exact C1.
      * cbn [del_region ra set_ra]. apply (arena_del _ (r :: A)); [|reflexivity]. rewrite Er1. rewrite Dr in AO. exact AO.
      * cbn [res_ok]. rewrite Dr, (E_leaf G ev n0 g0 ls y ch HG r a Hr Ec A2). rewrite (proj2 (proj2 HI1) r Hr).
        pose proof (leaf_Yv r a Hr Ec A2) as Y1. cbn [app zsum xorl fold_right paths tips flat_map].
        split; [now rewrite N.lxor_0_r|]. split; [lia|]. split.
        -- exists a, (y r + x). split; [assumption|]. split; [|lia]. rewrite B1. replace (y r + x) with (Yv a - above r + x) by lia. exact B2.
        -- rewrite A1, B1. reflexivity.
    + eapply ends_bind; [apply HF; [rewrite Er1, Epd1; exact AO|exact C1]|]. intros [[s3 res] r3] (Hl3 & Hr3 & D3 & F3 & C3 & AO3 & Em3 & d & w & es & L3 & RO3 & W3 & PE3). rewrite Epd1 in AO3.
      rewrite Em1, Eq in Em3, F3.
      assert (F3' : fr XX XX s1 s3) by (eapply fr_weaken; [exact F3| |]; unfold XX; intros R HR; [|destruct HR as [HR|HR]; [|discriminate]]; assumption).
      assert (HI3 : intact s3) by (eapply fr_intact; eassumption).
      assert (Epd3 : pd s3 r3 = []) by (unfold pd; now rewrite Em3). assert (Epe3 : pe s3 r3 = []) by (unfold pe; now rewrite Em3).
      specialize (Hl3 ltac:(discriminate)).
      rewrite Em3. cbn [bindO fst snd].
      eapply ends_bind; [apply (IH s3 r3 (x + d) A); auto; [rewrite Epd3, app_nil_r; lia|rewrite Epd3; exact AO3]|]. cbv beta. rewrite Epd3, Epe3, !app_nil_r. intros z (Z1 & Z2 & Z3 & Z4). apply ends_ok. cbn [fst snd].
      split; [eapply fr_trans; [eapply fr_trans; [exact F1'|exact F3']|]; eapply fr_weaken; [exact Z1| |]; exact D3|]. split; [|split].
      * intros R HR. destruct (in_dec Nat.eq_dec R (D r3)) as [Hin|Hin]; [apply Z2; assumption|]. apply (fr_clean _ _ _ _ R Z1); [apply D_In in HR; tauto|assumption|apply C3; assumption].
      * assumption.
      * eapply res_ok_eq; [apply (res_ok_add G _ _ _ _ _ _ _ _ RO3 Z4)|lia|lia|]. etransitivity; [apply Permutation_app_comm|exact PE3].
Qed.
End Ext.
