(** Invariants of the decoder's core, part 13: changing the top region of a whole area. *)
From Coq Require Import ZArith NArith List Bool Arith Lia Permutation Sorting.Sorted.
From Verif Require Import M_Base M_Varying M_Tracker M_Core S_Core S_Tree P_Sum P_Up P_Tree P_Tree2 P_CoreGeo P_CoreSched P_CoreArea P_Ends P_CoreHalt P_CoreShat.
Import ListNotations.
Local Open Scope Z_scope.

Lemma foldS_ind : forall A (f : state -> A -> outcome state) l (I : list A -> state -> Prop) s, I [] s ->
  (forall don x rest s, l = don ++ x :: rest -> I don s -> safe (f s x) (I (don ++ [x]))) -> safe (foldS f l s) (I l).
Proof.
  intros A f l I s H0 HS.
  assert (E : forall rest don s, l = don ++ rest -> I don s -> safe (foldS f rest s) (I l)).
  { induction rest as [|x rest IH]; intros don s' El Hd.
    - rewrite app_nil_r in El. subst don. exact Hd.
    - rewrite foldS_cons. eapply safe_bind; [apply (HS don x rest s' El Hd)|]. intros s'' H''. apply (IH (don ++ [x])); [|assumption].
      rewrite El, <- app_assoc. reflexivity. }
  apply (E l [] s eq_refl H0).
Qed.

Lemma wrapped_loop_spec : forall {NI : ints} g stop la k x total, upath (bpar g) x la stop ->
  (forall l1 l2, la = l1 ++ l2 -> to_i32 NI (total + zsum (fun R => y_intercept (rad g R)) l1) = total + zsum (fun R => y_intercept (rad g R)) l1) ->
  safe (wrapped_loop NI k g (Some x) (Some stop) total) (fun t => t = total + zsum (fun R => y_intercept (rad g R)) la).
Proof.
  intros NI g stop. induction la as [|z la IH]; intros [|k] x total H B; try exact I; cbn [wrapped_loop].
  - cbn in H. subst x. rewrite Nat.eqb_refl. cbn [safe zsum]. lia.
  - cbn in H. destruct H as (-> & Hne & q & Eq & H). apply Nat.eqb_neq in Hne. rewrite Hne, Eq.
    pose proof (B [x] la eq_refl) as B1. cbn [zsum] in B1. rewrite Z.add_0_r in B1. rewrite B1.
    eapply safe_impl; [apply (IH k q _ H)|]; [intros l1 l2 El; specialize (B (x :: l1) l2 ltac:(now rewrite El)); cbn [zsum] in B; now rewrite Z.add_assoc in B|]. cbv beta. intros t ->. cbn [zsum]. lia.
Qed.

(** The nodes [vl] and the regions [ds] get the new top [t]; [w] is the new wrapped radius. *)
Record topped (s s' : state) (t : nat) (ig : bool) (w : nat -> Z) (ds vl : list nat) : Prop := {
  t_ma : ma s' = ma s; t_tr : tr s' = tr s; t_ra : ra s' = ra s; t_ta : ta s' = ta s; t_sc : sc s' = sc s;
  t_arr : arr (nd s') = arr (nd s); t_src : src (nd s') = src (nd s); t_crs : crs (nd s') = crs (nd s); t_rar : rar (nd s') = rar (nd s);
  t_bpar : bpar (rg s') = bpar (rg s); t_rad : rad (rg s') = rad (rg s); t_chl : chl (rg s') = chl (rg s); t_shl : shl (rg s') = shl (rg s);
  t_btop : forall d, btop (rg s') d = if memb d ds then Some t else btop (rg s) d;
  t_top : forall v, top (nd s') v = if memb v vl then Some t else top (nd s) v;
  t_wrp : forall v, wrp (nd s') v = if memb v vl && negb ig then w v else wrp (nd s) v }.

Lemma memb_app : forall x l m, memb x (l ++ m) = memb x l || memb x m.
Proof. intros. unfold memb. apply existsb_app. Qed.
Lemma topped_trans : forall s s' s'' t ig w ds vl ds' vl', topped s s' t ig w ds vl -> topped s' s'' t ig w ds' vl' -> topped s s'' t ig w (ds ++ ds') (vl ++ vl').
Proof.
  intros s s' s'' t ig w ds vl ds' vl' H K. destruct H, K. split; try congruence.
  - intros d. rewrite t_btop1, t_btop0, memb_app. destruct (memb d ds), (memb d ds'); reflexivity.
  - intros v. rewrite t_top1, t_top0, memb_app. destruct (memb v vl), (memb v vl'); reflexivity.
  - intros v. rewrite t_wrp1, t_wrp0, memb_app. destruct (memb v vl), (memb v vl'), ig; reflexivity.
Qed.
Lemma topped_refl : forall s t ig w, topped s s t ig w [] [].
Proof. intros. split; auto. Qed.

Section Tops.
Context {NI : ints}.
Variables (fuel : nat) (t : nat) (ig : bool) (w : nat -> Z).

(** The wrapped radius to be computed at [v]. *)
Definition wrap_at (s : state) (v : nat) : Prop := ig = false -> src (nd s) v <> None /\
  exists x la, arr (nd s) v = Some x /\ upath (bpar (rg s)) x la t /\ w v = zsum (fun R => y_intercept (rad (rg s) R)) la - rar (nd s) v /\
  (forall l1 l2, la = l1 ++ l2 -> to_i32 NI (zsum (fun R => y_intercept (rad (rg s) R)) l1) = zsum (fun R => y_intercept (rad (rg s) R)) l1) /\ to_i32 NI (w v) = w v.

Lemma wrap_at_topped : forall s s' ds vl v, topped s s' t ig w ds vl -> wrap_at s v -> wrap_at s' v.
Proof. intros s s' ds vl v H Hw E. destruct H. rewrite t_src0, t_arr0, t_bpar0, t_rad0, t_rar0. auto. Qed.

Lemma node_top_spec : forall s v, wrap_at s v -> safe (set_node_top fuel NI t ig s v) (fun s' => topped s s' t ig w [] [v]).
Proof.
  intros s v Hw. unfold set_node_top. unfold wrap_at in Hw. destruct ig eqn:Ei.
  - cbn [safe]. split; try reflexivity.
    + intros u. cbn [nd set_nd set_top top memb existsb]. unfold upd. now destruct (Nat.eqb u v).
    + intros u. now rewrite andb_false_r.
  - destruct (Hw eq_refl) as (N & x & la & E1 & E2 & E3 & B1 & B2). unfold compute_wrapped_radius. cbn [nd set_nd set_top src arr top rg rar].
    destruct (src (nd s) v) as [z|]; [|contradiction]. rewrite E1, upd_same.
    eapply (safe_bind _ _ _ _ (fun r => r = w v)); [eapply safe_bind; [apply (wrapped_loop_spec (rg s) t la fuel x 0 E2 B1)|]|].
    + intros r Er. cbn [safe]. cbv beta in Er. replace (r - rar (nd s) v) with (w v) by lia. exact B2.
    + cbv beta. intros r Er. cbn [safe]. split; try reflexivity.
      * intros u. cbn [nd set_nd set_top set_wrp top memb existsb]. unfold upd. now destruct (Nat.eqb u v).
      * intros u. cbn [nd set_nd set_top set_wrp wrp memb existsb]. unfold upd. destruct (Nat.eqb_spec u v) as [->|]; cbn; [lia|reflexivity].
Qed.

Lemma node_tops_spec : forall l s, (forall v, In v l -> wrap_at s v) -> safe (foldS (set_node_top fuel NI t ig) l s) (fun s' => topped s s' t ig w [] l).
Proof.
  intros l s Hl. apply (foldS_ind _ _ l (fun don s' => topped s s' t ig w [] don)); [apply topped_refl|].
  intros don x rest s' E Hd. eapply safe_impl; [apply (node_top_spec s' x)|].
  - eapply wrap_at_topped; [exact Hd|]. apply Hl. rewrite E. apply in_or_app. right. now left.
  - cbv beta. intros s'' H. exact (topped_trans _ _ _ _ _ _ [] don [] [x] Hd H).
Qed.

Lemma topped_set : forall s s' (vl vl' : list nat), (forall v, In v vl <-> In v vl') -> forall ds, topped s s' t ig w ds vl -> topped s s' t ig w ds vl'.
Proof.
  intros s s' vl vl' E ds H. assert (M : forall v, memb v vl' = memb v vl) by (intros v; apply eq_iff_eq_true; rewrite !memb_In; symmetry; apply E).
  destruct H. split; auto; intros v; rewrite M; auto.
Qed.

Lemma region_tops_spec : forall l s, (forall d v, In d l -> In v (shl (rg s) d) -> wrap_at s v) ->
  safe (foldS (set_region_top fuel NI t ig) l s) (fun s' => topped s s' t ig w l (flat_map (shl (rg s)) l)).
Proof.
  intros l s Hl. apply (foldS_ind _ _ l (fun don s' => topped s s' t ig w don (flat_map (shl (rg s)) don))); [apply topped_refl|].
  intros don d rest s' E Hd. unfold set_region_top. set (s1 := set_rg s' _).
  assert (T1 : topped s' s1 t ig w [d] []).
  { split; try reflexivity. intros x. cbn [rg s1 set_rg set_btop btop memb existsb]. unfold upd. now destruct (Nat.eqb x d). }
  pose proof (topped_trans _ _ _ _ _ _ _ _ _ _ Hd T1) as T2. rewrite app_nil_r in T2.
  eapply safe_impl; [apply (node_tops_spec (rev (shl (rg s') d)) s1)|].
  - intros v Hv. apply in_rev in Hv. rewrite (t_shl _ _ _ _ _ _ _ Hd) in Hv. eapply wrap_at_topped; [exact T2|]. apply (Hl d v); [|assumption].
    rewrite E. apply in_or_app. right. now left.
  - cbv beta. intros s'' H. pose proof (topped_trans _ _ _ _ _ _ _ _ _ _ T2 H) as T3. rewrite app_nil_r in T3.
    eapply topped_set; [|exact T3]. intros v. rewrite flat_map_app, !in_app_iff. cbn [flat_map]. rewrite app_nil_r, <- in_rev, (t_shl _ _ _ _ _ _ _ Hd). tauto.
Qed.

Lemma set_tops_spec : forall s r p (L : nat -> Prop) q c, up_ok L q c ->
  (forall x d, L x -> (In d (map fst (chl (rg s) x)) <-> L d /\ q d = Some x)) -> (forall x, L x -> NoDup (map fst (chl (rg s) x))) -> L r ->
  let s0 := set_rg s (set_bpar (rg s) r p) in
  (forall d v, L d -> In r (c d) -> In v (shl (rg s) d) -> wrap_at s0 v) ->
  safe (set_tops fuel NI s r t p ig) (fun s' => exists ds, (forall d, In d ds <-> L d /\ In r (c d)) /\ topped s0 s' t ig w ds (flat_map (shl (rg s)) ds)).
Proof.
  intros s r p L q c U Hc Hn Hr s0 Hw. unfold set_tops. fold s0.
  eapply safe_bind; [apply (descendants_spec L q c (rg s0) U Hc Hn fuel r Hr)|]. intros ds [_ Hds].
  eapply safe_impl; [apply (region_tops_spec ds s0)|].
  - intros d v Hd Hv. apply Hds in Hd as [H1 H2]. apply (Hw d v H1 H2 Hv).
  - cbv beta. intros s' H. exists ds. split; [assumption|exact H].
Qed.
End Tops.

(** ** Termination *)
Local Open Scope nat_scope.
Section Halt.
Variable A : ints.
Lemma wrapped_stops : forall g stop la x total, upath (bpar g) x la stop -> forall d, stops (fun f => wrapped_loop A (f - d) g (Some x) (Some stop) total).
Proof.
  intros g stop. induction la as [|z la IH]; intros x total H d.
  - exists (S d), (Ok total). split; [discriminate|]. intros f Hf. destruct (f - d) as [|k] eqn:E; [lia|]. cbn [wrapped_loop]. cbn in H. subst x. now rewrite Nat.eqb_refl.
  - cbn in H. destruct H as (-> & Hne & q & Eq & H). apply Nat.eqb_neq in Hne.
    eapply (stops_ext _ _ _ (S d)); [|exact (IH q (to_i32 A (total + y_intercept (rad g x))%Z) H (S d))].
    intros f Hf. destruct (f - d) as [|k] eqn:E; [lia|]. cbn [wrapped_loop]. rewrite Hne, Eq. f_equal. lia.
Qed.
Lemma heir_stops : forall g stop la x, upath (bpar g) x la stop -> la <> [] -> forall d, stops (fun f => heir_loop (f - d) g x (Some stop)).
Proof.
  intros g stop. induction la as [|z la IH]; intros x H Hn d; [congruence|].
  cbn in H. destruct H as (-> & Hne & q & Eq & H). destruct la as [|z' la].
  - exists (S d), (Ok x). split; [discriminate|]. intros f Hf. destruct (f - d) as [|k] eqn:E; [lia|]. cbn [heir_loop]. rewrite Eq. cbn in H. subst q. now rewrite Nat.eqb_refl.
  - pose proof H as H'. cbn in H'. destruct H' as (-> & Hne' & _). apply Nat.eqb_neq in Hne'.
    eapply (stops_ext _ _ _ (S d)); [|exact (IH q H ltac:(discriminate) (S d))].
    intros f Hf. destruct (f - d) as [|k] eqn:E; [lia|]. cbn [heir_loop]. rewrite Eq, Hne'. f_equal. lia.
Qed.
End Halt.

Section Tops.
Context {NI : ints}.
Variables (t : nat) (ig : bool) (w : nat -> Z).
Lemma node_top_stops : forall s v, wrap_at t ig w s v -> stops (fun f => set_node_top f NI t ig s v).
Proof.
  intros s v Hw. unfold set_node_top. unfold wrap_at in Hw. destruct ig eqn:Ei; [apply stops_ok|].
  destruct (Hw eq_refl) as (N & x & la & E1 & E2 & E3 & B1 & B2). unfold compute_wrapped_radius. cbn [nd set_nd set_top src arr top rg rar].
  destruct (src (nd s) v) as [z|]; [|contradiction]. rewrite E1, upd_same.
  apply stops_bind_any; [|intros x' _; apply stops_ok]. apply stops_bind_any; [|intros x' _; apply stops_ok].
  apply (stops_sub0 _ (fun f => wrapped_loop NI f (rg s) (Some x) (Some t) 0%Z)). exact (wrapped_stops NI (rg s) t la x 0%Z E2 0).
Qed.
Lemma node_tops_stops : forall l s, (forall v, In v l -> wrap_at t ig w s v) -> stops (fun f => foldS (set_node_top f NI t ig) l s).
Proof.
  intros l s Hl. apply (stops_foldS _ (fun f => set_node_top f NI t ig) l (fun don s' => topped s s' t ig w [] don)); [apply topped_refl|].
  intros don x rest s' E Hd. assert (Hw : wrap_at t ig w s' x) by (eapply wrap_at_topped; [exact Hd|]; apply Hl; rewrite E; apply in_or_app; right; now left).
  split; [now apply node_top_stops|]. intros f. eapply safe_impl; [apply (node_top_spec f t ig w s' x Hw)|].
  cbv beta. intros s'' H. exact (topped_trans _ _ _ _ _ _ [] don [] [x] Hd H).
Qed.
Lemma region_tops_stops : forall l s, (forall d v, In d l -> In v (shl (rg s) d) -> wrap_at t ig w s v) ->
  stops (fun f => foldS (set_region_top f NI t ig) l s).
Proof.
  intros l s Hl. apply (stops_foldS _ (fun f => set_region_top f NI t ig) l (fun don s' => topped s s' t ig w don (flat_map (shl (rg s)) don))); [apply topped_refl|].
  intros don d rest s' E Hd. unfold set_region_top. set (s1 := set_rg s' _).
  assert (T1 : topped s' s1 t ig w [d] []).
  { split; try reflexivity. intros x. cbn [rg s1 set_rg set_btop btop memb existsb]. unfold upd. now destruct (Nat.eqb x d). }
  pose proof (topped_trans _ _ _ _ _ _ _ _ _ _ Hd T1) as T2. rewrite app_nil_r in T2.
  assert (Hw : forall v, In v (rev (shl (rg s') d)) -> wrap_at t ig w s1 v).
  { intros v Hv. apply in_rev in Hv. rewrite (t_shl _ _ _ _ _ _ _ Hd) in Hv. eapply wrap_at_topped; [exact T2|]. apply (Hl d v); [|assumption].
    rewrite E. apply in_or_app. right. now left. }
  split; [now apply node_tops_stops|]. intros f. eapply safe_impl; [apply (node_tops_spec f t ig w _ s1 Hw)|].
  cbv beta. intros s'' H. pose proof (topped_trans _ _ _ _ _ _ _ _ _ _ T2 H) as T3. rewrite app_nil_r in T3.
  eapply topped_set; [|exact T3]. intros v. rewrite flat_map_app, !in_app_iff. cbn [flat_map]. rewrite app_nil_r, <- in_rev, (t_shl _ _ _ _ _ _ _ Hd). tauto.
Qed.
Lemma set_tops_stops : forall s r p (L : nat -> Prop) q c, up_ok L q c ->
  (forall x d, L x -> (In d (map fst (chl (rg s) x)) <-> L d /\ q d = Some x)) -> (forall x, L x -> NoDup (map fst (chl (rg s) x))) -> L r ->
  Acc (below (chl (rg s))) r ->
  let s0 := set_rg s (set_bpar (rg s) r p) in
  (forall d v, L d -> In r (c d) -> In v (shl (rg s) d) -> wrap_at t ig w s0 v) ->
  stops (fun f => set_tops f NI s r t p ig).
Proof.
  intros s r p L q c U Hc Hn Hr HA s0 Hw. unfold set_tops. fold s0.
  eapply stops_bind; [|intros f; apply (descendants_spec L q c (rg s0) U Hc Hn f r Hr)|].
  - destruct (descendants_stops (rg s0) r HA 0) as (K & l & E). exists K, (Ok l). split; [discriminate|]. intros f Hf. specialize (E f Hf). now rewrite Nat.sub_0_r in E.
  - cbv beta. intros ds [_ Hds]. apply region_tops_stops. intros d v Hd Hv. apply Hds in Hd as [H1 H2]. apply (Hw d v H1 H2 Hv).
Qed.
Lemma set_tops_ends : forall s r p (L : nat -> Prop) q c, up_ok L q c ->
  (forall x d, L x -> (In d (map fst (chl (rg s) x)) <-> L d /\ q d = Some x)) -> (forall x, L x -> NoDup (map fst (chl (rg s) x))) -> L r ->
  Acc (below (chl (rg s))) r ->
  let s0 := set_rg s (set_bpar (rg s) r p) in
  (forall d v, L d -> In r (c d) -> In v (shl (rg s) d) -> wrap_at t ig w s0 v) ->
  ends (fun f => set_tops f NI s r t p ig)
    (fun s' => exists ds, (forall d, In d ds <-> L d /\ In r (c d)) /\ topped s0 s' t ig w ds (flat_map (shl (rg s)) ds)).
Proof.
  intros s r p L q c U Hc Hn Hr HA s0 Hw. split; [eapply set_tops_stops; eauto|]. intros f. apply (set_tops_spec f t ig w s r p L q c U Hc Hn Hr Hw).
Qed.
End Tops.
