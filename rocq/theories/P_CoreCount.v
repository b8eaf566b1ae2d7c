(** Invariants of the decoder's core, part 10: what decreases from event to event. *)
From Coq Require Import ZArith NArith List Bool Arith Lia Permutation.
From Verif Require Import M_Base M_Varying M_Tracker M_Core S_Core S_Tree P_Sum P_Up P_Tree P_Tree2 P_Ends P_CoreGeo P_CoreSched P_CoreArea P_CoreRad P_CoreHalt P_CoreRoles P_CoreShat P_CoreRun.
Import ListNotations.
Local Open Scope nat_scope.

Definition is_root (s : state) (b : nat) : bool := match par (tr s) b with None => true | Some _ => false end.
(** The number of alternating trees, ... *)
Definition nroots (s : state) : nat := length (filter (fun b => is_root s b && negb (memb b (free (ta s)))) (seq 0 (next (ta s)))).
(** ... of events that are in a growing region, ... *)
Definition nout (ev : list nat) (s : state) : nat := length (filter (fun v => nsl s v =? 1)%Z ev).
(** ... and of regions. *)
Definition nregs (s : state) : nat := next (ra s) - length (free (ra s)).
Definition prog (ev : list nat) (s s' : state) : Prop :=
  nroots s' < nroots s \/ (nroots s' <= nroots s /\ (nout ev s < nout ev s' \/ (nout ev s <= nout ev s' /\ nregs s' < nregs s))).

Lemma is_root_spec : forall s b, is_root s b = true <-> par (tr s) b = None.
Proof. intros s b. unfold is_root. destruct (par (tr s) b); split; congruence. Qed.
Lemma perm_filter : forall (p : nat -> bool) l l', Permutation l l' -> Permutation (filter p l) (filter p l').
Proof. intros p l l' H. induction H; cbn [filter]; auto; try (destruct (p x); auto); try (destruct (p y); auto); [apply perm_swap|]. eapply perm_trans; eassumption. Qed.
Lemma arena_live : forall a al b, arena_ok a al -> (In b al <-> In b (seq 0 (next a)) /\ ~ In b (free a)).
Proof.
  intros a al b H. unfold arena_ok in H. assert (N : NoDup (al ++ free a)) by (eapply Permutation_NoDup; [apply Permutation_sym; exact H|apply seq_NoDup]).
  split.
  - intros Hb. split; [eapply Permutation_in; [exact H|]; apply in_or_app; now left|]. intros Hf. apply in_split in Hb as (l1 & l2 & ->). rewrite <- app_assoc in N. cbn [app] in N.
    apply NoDup_remove_2 in N. apply N. rewrite !in_app_iff. auto.
  - intros [H1 H2]. apply (Permutation_in _ (Permutation_sym H)) in H1. apply in_app_or in H1 as [|]; tauto.
Qed.
Lemma nroots_al : forall s al, arena_ok (ta s) al -> nroots s = length (filter (is_root s) al).
Proof.
  intros s al H. unfold nroots. apply Permutation_length. apply NoDup_Permutation.
  - apply NoDup_filter, seq_NoDup.
  - apply NoDup_filter. exact (arena_NoDup _ _ H).
  - intros b. rewrite !filter_In, andb_true_iff, negb_true_iff, (arena_live _ _ b H), memb_nIn. tauto.
Qed.
Lemma nregs_ls : forall s ls, arena_ok (ra s) ls -> nregs s = length ls.
Proof. intros s ls H. unfold arena_ok in H. apply Permutation_length in H. rewrite app_length, seq_length in H. unfold nregs. lia. Qed.

Lemma nroots_same : forall s s', tr s' = tr s -> ta s' = ta s -> nroots s' = nroots s.
Proof. intros s s' E1 E2. unfold nroots, is_root. now rewrite E1, E2. Qed.
Lemma nregs_same : forall s s', ra s' = ra s -> nregs s' = nregs s.
Proof. intros s s' E. unfold nregs. now rewrite E. Qed.

Section Roots.
Variables (s s' : state) (al al' : list nat).
Hypothesis A1 : arena_ok (ta s) al.
Hypothesis A2 : arena_ok (ta s') al'.
Lemma nroots_incl : (forall b, In b al' -> par (tr s') b = None -> In b al /\ par (tr s) b = None) -> nroots s' <= nroots s.
Proof.
  intros H. rewrite (nroots_al s al A1), (nroots_al s' al' A2). apply NoDup_incl_length; [apply NoDup_filter; exact (arena_NoDup _ _ A2)|].
  intros b Hb. apply filter_In in Hb as [H1 H2]. apply is_root_spec in H2. apply filter_In. rewrite is_root_spec. now apply H.
Qed.
Lemma nroots_less : (forall b, In b al' -> par (tr s') b = None -> In b al /\ par (tr s) b = None) ->
  (exists a, In a al /\ par (tr s) a = None /\ (In a al' -> par (tr s') a <> None)) -> nroots s' < nroots s.
Proof.
  intros H (a & Ha & Pa & Na). rewrite (nroots_al s al A1), (nroots_al s' al' A2).
  assert (I : incl (a :: filter (is_root s') al') (filter (is_root s) al)).
  { intros b [<-|Hb]; [apply filter_In; rewrite is_root_spec; auto|]. apply filter_In in Hb as [H1 H2]. apply is_root_spec in H2. apply filter_In. rewrite is_root_spec. now apply H. }
  apply NoDup_incl_length in I; [cbn [length] in I; lia|]. constructor; [|apply NoDup_filter; exact (arena_NoDup _ _ A2)].
  intros Hb. apply filter_In in Hb as [H1 H2]. apply is_root_spec in H2. now apply Na.
Qed.
(** One root may be replaced. *)
Lemma nroots_swap : forall r a, In r al -> par (tr s) r = None -> (forall b, In b al' -> par (tr s') b = None -> b = a \/ (In b al /\ par (tr s) b = None /\ b <> r)) -> nroots s' <= nroots s.
Proof.
  intros r a Hr Pr H. rewrite (nroots_al s al A1), (nroots_al s' al' A2).
  assert (I : incl (filter (is_root s') al') (a :: remove Nat.eq_dec r (filter (is_root s) al))).
  { intros b Hb. apply filter_In in Hb as [H1 H2]. apply is_root_spec in H2. destruct (H b H1 H2) as [->|(B1 & B2 & B3)]; [now left|].
    right. apply in_in_remove; [assumption|]. apply filter_In. rewrite is_root_spec. auto. }
  apply NoDup_incl_length in I; [|apply NoDup_filter; exact (arena_NoDup _ _ A2)]. cbn [length] in I.
  assert (L : length (remove Nat.eq_dec r (filter (is_root s) al)) < length (filter (is_root s) al)).
  { apply remove_length_lt. apply filter_In. rewrite is_root_spec. auto. }
  lia.
Qed.
End Roots.

Section Out.
Variable G : graph.
Variables (ev : list nat) (s s' : state) (ls ls' : list nat) (ch ch' : nat -> list nat).
Lemma nout_mono : NoDup ev -> (forall v, In v ev -> nsl s v = 1%Z -> nsl s' v = 1%Z) -> nout ev s <= nout ev s'.
Proof.
  intros N H. unfold nout. apply NoDup_incl_length; [now apply NoDup_filter|]. intros v Hv. apply filter_In in Hv as [H1 H2]. apply Z.eqb_eq in H2.
  apply filter_In. split; [assumption|]. apply Z.eqb_eq. auto.
Qed.
Lemma nout_more : NoDup ev -> (forall v, In v ev -> nsl s v = 1%Z -> nsl s' v = 1%Z) -> (exists v, In v ev /\ nsl s v <> 1%Z /\ nsl s' v = 1%Z) -> nout ev s < nout ev s'.
Proof.
  intros N H (v & H1 & H2 & H3). unfold nout.
  assert (I : incl (v :: filter (fun v => nsl s v =? 1)%Z ev) (filter (fun v => nsl s' v =? 1)%Z ev)).
  { intros u [<-|Hu]; apply filter_In; rewrite Z.eqb_eq; [auto|]. apply filter_In in Hu as [U1 U2]. apply Z.eqb_eq in U2. auto. }
  apply NoDup_incl_length in I; [cbn [length] in I; lia|]. constructor; [|now apply NoDup_filter].
  intros Hu. apply filter_In in Hu as [_ Hu]. apply Z.eqb_eq in Hu. contradiction.
Qed.
Lemma nsl_event : Geo G ev s ls ch -> forall v, In v ev -> exists R, arr (nd s) v = Some R /\ In R ls /\ nsl s v = sof s (root ch R).
Proof.
  intros HG v Hv. destruct (g_ev _ _ _ _ _ _ _ (proj1 HG) v Hv) as (Hl & R & E & _). exists R. split; [assumption|].
  split; [exact (g_arr _ _ _ _ _ _ _ (proj1 HG) v R Hl E)|]. apply (nsl_top_slope G ev s ls ch HG v _ Hl). exact (g_top _ _ _ _ _ _ _ (proj1 HG) v R Hl E).
Qed.
(** Each region contains an event. *)
Lemma top_event : Geo G ev s ls ch -> forall T, In T ls -> bpar (rg s) T = None -> exists v R, In v ev /\ arr (nd s) v = Some R /\ In R ls /\ root ch R = T /\ nsl s v = sof s T.
Proof.
  intros HG T HT HbT. destruct (region_event G ev (nd s) (rg s) ls _ ch (proj1 HG) T HT) as (v & Hv & Hin).
  destruct (nsl_event HG v Hv) as (R & E & HR & En). exists v, R. unfold chn in Hin. rewrite E in Hin.
  pose proof (up_root_only _ _ ch (g_up _ _ _ _ _ _ _ (proj1 HG)) R T HR Hin HbT) as Er. rewrite Er in *. auto.
Qed.
Lemma nsl_calm : Geo G ev s ls ch -> Geo G ev s' ls ch -> nd s' = nd s -> (forall R, sof s R = 1%Z -> sof s' R = 1%Z) -> forall v, In v ev -> nsl s v = 1%Z -> nsl s' v = 1%Z.
Proof.
  intros HG HG' En Hs v Hv. destruct (nsl_event HG v Hv) as (R & E & HR & ->). destruct (g_ev _ _ _ _ _ _ _ (proj1 HG) v Hv) as (Hl & _).
  rewrite <- En in E. rewrite (nsl_top_slope G ev s' ls ch HG' v _ Hl (g_top _ _ _ _ _ _ _ (proj1 HG') v R Hl E)). apply Hs.
Qed.
End Out.

(** ** become_root ends *)
Lemma become_root_ends : forall s a A c tg, tstr A (tr s) c tg -> A a ->
  ends (fun f => become_root f s a) (fun s' => s' = set_tr s (tr s') /\ exists c', tstr A (tr s') c' tg /\ rerooted A (tr s) (tr s') c c' a).
Proof.
  intros s a A c tg HT Ha. split; [|intros f; now apply become_root_spec].
  assert (K : forall a, A a -> forall d, stops (fun f => become_root (f - d) s a)).
  { apply (up_ind A (par (tr s)) c (ts_up _ _ _ _ HT) (fun a => forall d, stops (fun f => become_root (f - d) s a))).
    - intros b Hb E d. eapply (stops_fix _ (fun _ k => become_root k s b)); [intros f k; cbn [become_root]; rewrite E; reflexivity|]. apply stops_ok.
    - intros b q Hb E Hq IH d. eapply (stops_fix _ (fun _ k => become_root k s b)); [intros f k; cbn [become_root]; rewrite E; reflexivity|].
      apply stops_bind_any; [apply IH|]. intros x _. destruct (par (tr x) b); cbn [deref bindO]; apply stops_ret; discriminate. }
  apply stops_sub0. now apply K.
Qed.

(** ** prune ends *)
Lemma prune_ends : forall la s cur stop back orph path, upath (par (tr s)) cur la stop -> NoDup la -> ~ In stop la ->
  (forall b, In b la -> (exists i, inn (tr s) b = Some i) /\ (exists o, out (tr s) b = Some o) /\
     (forall q, par (tr s) b = Some q -> exists o, out (tr s) q = Some o)) ->
  ends (fun f => prune f s cur stop back orph path) (fun r => pruned s (fst r) la stop /\
    fst (snd r) = orph ++ orphs (kid (tr s)) None la /\ snd (snd r) = path ++ flat_map (pseg (tr s) back) la).
Proof.
  intros la s cur stop back orph path H1 H2 H3 H4. split; [|intros f; now apply prune_spec]. clear H2 H3 H4.
  apply stops_sub0. generalize 0 as d. revert s cur orph path H1. induction la as [|z la IH]; intros s cur orph path H d.
  - cbn in H. subst cur. eapply (stops_fix _ (fun _ k => prune k s stop stop back orph path)); [intros f k; cbn [prune]; rewrite Nat.eqb_refl; reflexivity|]. apply stops_ok.
  - cbn [upath] in H. destruct H as (Ez & Hne & q & Eq & H). subst cur. apply Nat.eqb_neq in Hne.
    eapply (stops_fix _ (fun _ k => prune k s z stop back orph path)); [intros f k; cbn [prune]; rewrite Hne; reflexivity|]. cbv beta.
    cbn [inn out par set_kid]. rewrite Eq. destruct (inn (tr s) z) as [i|]; [|cbn [deref bindO]; apply stops_ret; discriminate]. destruct (out (tr s) z) as [o|]; [|cbn [deref bindO]; apply stops_ret; discriminate]. cbn [deref bindO].
    destruct back; [destruct (out (tr s) q) as [po|]; [|cbn [deref bindO]; apply stops_ret; discriminate]|]; cbn [deref bindO]; apply IH; exact H.
Qed.

(** ** Looking for the common ancestor ends *)
Lemma mrca_climb_stops : forall (A : nat -> Prop) p c, up_ok A p c -> forall n t a b, A a -> A b -> par t = p -> length (c a) + length (c b) <= n ->
  forall d, stops (fun f => mrca_climb (f - d) t a b).
Proof.
  intros A p c U. induction n as [|n IH]; intros t a b Ha Hb Hp Hn d.
  - pose proof (up_eq A p c U a Ha) as E. rewrite E in Hn. cbn in Hn. lia.
  - apply (stops_fix _ (fun _ k => mrca_climb k t a b) (fun _ k => match par t a, par t b with
      | None, None => Ok (t, None)
      | pa, pb =>
          let step2 (t : treesM) (a : nat) :=
            match pb with
            | None => mrca_climb k t a b
            | Some b' => if vis t b' then Ok (t, Some b') else mrca_climb k (set_vis t b' true) a b'
            end in
          match pa with
          | None => step2 t a
          | Some a' => if vis t a' then Ok (t, Some a') else step2 (set_vis t a' true) a'
          end
      end)); [reflexivity|]. cbv beta. rewrite Hp. pose proof (up_eq A p c U a Ha) as Ea. pose proof (up_eq A p c U b Hb) as Eb.
    destruct (p a) as [a'|] eqn:Epa; destruct (p b) as [b'|] eqn:Epb; try apply stops_ok;
      try (assert (HA' : A a') by exact (up_L A p c U a a' Ha Epa)); try (assert (HB' : A b') by exact (up_L A p c U b b' Hb Epb));
      rewrite Ea, Eb in Hn; simpl in Hn; cbv beta zeta.
    + destruct (vis t a'); [apply stops_ok|]. destruct (vis (set_vis t a' true) b'); [apply stops_ok|]. apply IH; auto. lia.
    + destruct (vis t a'); [apply stops_ok|]. apply IH; auto. rewrite Eb. simpl. lia.
    + destruct (vis t b'); [apply stops_ok|]. apply IH; auto. rewrite Ea. simpl. lia.
Qed.
Lemma mrca_clean_stops : forall (A : nat -> Prop) p c, up_ok A p c -> forall x, A x -> forall t q, par t = p -> q = Some x \/ q = None -> forall d, stops (fun f => mrca_clean (f - d) t q).
Proof.
  intros A p c U. assert (N : forall t d, stops (fun f => mrca_clean (f - d) t None)).
  { intros t d. apply (stops_fix _ (fun _ k => mrca_clean k t None) (fun _ _ => Ok t)); [reflexivity|]. apply stops_ok. }
  assert (S : forall x, (forall t, par t = p -> forall d, stops (fun f => mrca_clean (f - d) t (p x))) -> forall t, par t = p -> forall d, stops (fun f => mrca_clean (f - d) t (Some x))).
  { intros x H t Ht d. apply (stops_fix _ (fun _ k => mrca_clean k t (Some x)) (fun _ k => if vis t x then mrca_clean k (set_vis t x false) (par t x) else Ok t)); [reflexivity|].
    destruct (vis t x); [|apply stops_ok]. rewrite Ht. apply H. exact Ht. }
  intros x Hx t q Ht Hq d. destruct Hq as [-> | ->]; [|apply N]. revert x Hx t Ht d.
  apply (up_ind A p c U (fun x => forall t, par t = p -> forall d, stops (fun f => mrca_clean (f - d) t (Some x)))).
  - intros x Hx Ep. apply S. rewrite Ep. auto.
  - intros x q Hx Ep Hq IH. apply S. rewrite Ep. auto.
Qed.
Lemma mrca_ends : forall s a b A c tg, tstr A (tr s) c tg -> A a -> A b -> a <> b ->
  (forall y, A y -> vis (tr s) y = false) ->
  ends (fun f => most_recent_common_ancestor f s a b) (fun r =>
    fst r = set_tr s (tr (fst r)) /\ same_but_vis (tr s) (tr (fst r)) /\
    match snd r with
    | None => root c a <> root c b /\ (forall y, A y -> (vis (tr (fst r)) y = true <-> In y (c a) \/ In y (c b)))
    | Some x => exists la lb, lca A c a b x la lb /\
         forall y, A y -> (vis (tr (fst r)) y = true <-> In y la \/ In y lb)
    end).
Proof.
  intros s a b A c tg HT Ha Hb Hne Hvis. split; [|intros f; eapply mrca_spec; eauto]. pose proof (ts_up _ _ _ _ HT) as U. unfold most_recent_common_ancestor.
  eapply (stops_bind _ _ _ _ (fun r => same_but_vis (tr s) (fst r) /\ forall x, snd r = Some x -> A x)).
  - apply (stops_sub0 _ (fun f => mrca_climb f _ a b)). eapply (mrca_climb_stops A _ c U); eauto.
  - intros f. eapply safe_impl.
    + apply (mrca_climb_spec A (par (tr s)) c U f _ a b [] a [] b); auto. split; auto.
      * intros x [<-|[]] [<-|[]]. congruence.
      * intros y Hy. cbn [vis set_vis]. rewrite !upd_spec, (Hvis y Hy). simpl.
        destruct (Nat.eqb_spec y b); destruct (Nat.eqb_spec y a); subst; intuition congruence.
    + intros [t r] [Hs Hr]. cbn [fst snd] in *. split; [eapply sbv_trans; [|exact Hs]; repeat split|]. intros x ->. destruct Hr as (la & lb & m & n & (HAx & _) & _). assumption.
  - intros [t r] [Hs Hr]. cbn [fst snd] in *. destruct r as [x|]; [|apply stops_ok].
    apply stops_bind_any; [|intros; apply stops_ok]. assert (Ep : par t = par (tr s)) by apply Hs.
    apply (stops_sub0 _ (fun f => mrca_clean f _ _)). cbn [par set_vis]. rewrite Ep.
    destruct (par (tr s) x) as [q|] eqn:Eq.
    + apply (mrca_clean_stops A _ c U q); auto. exact (up_L A _ c U x q (Hr x eq_refl) Eq).
    + apply (mrca_clean_stops A _ c U a); auto.
Qed.

(** The flooder does not disturb what is counted. *)
Lemma kept_count : forall G ev s s' ls ch, Geo G ev s ls ch -> Geo G ev s' ls ch -> kept ev s s' -> nroots s' = nroots s /\ nout ev s' = nout ev s /\ nregs s' = nregs s.
Proof.
  intros G ev s s' ls ch H H' K. destruct K. split; [now apply nroots_same|]. split; [|unfold nregs; now rewrite k_ra].
  unfold nout. f_equal. apply filter_ext_in. intros v Hv. destruct (nsl_event G ev s ls ch H v Hv) as (R & E & _ & ->). destruct (nsl_event G ev s' ls ch H' v Hv) as (R' & E' & _ & ->).
  rewrite (k_arr v Hv) in E'. assert (R' = R) by congruence. subst R'. unfold sof. now rewrite k_rad.
Qed.
(** Only so much progress can be made. *)
Lemma nout_le : forall ev s, nout ev s <= length ev.
Proof. intros ev s. unfold nout. induction ev as [|v l IH]; [apply Nat.le_refl|]. cbn [filter]. destruct (_ =? _)%Z; cbn [length]; lia. Qed.
Lemma prog_wf : forall ev, well_founded (fun s' s => prog ev s s').
Proof.
  intros ev s. assert (W : Acc (lex nroots (lex (fun s => length ev - nout ev s) (fun s' s => nregs s' < nregs s))) s) by apply lex_wf, lex_wf, ltof_wf.
  induction W as [s _ IH]. constructor. intros s' H. apply IH. pose proof (nout_le ev s) as L1. pose proof (nout_le ev s') as L2. unfold lex.
  destruct H as [H|[H1 [H2|[H2 H3]]]]; [left; assumption|right; split; [assumption|]; left; lia|].
  right. split; [assumption|]. right. split; [lia|assumption].
Qed.
