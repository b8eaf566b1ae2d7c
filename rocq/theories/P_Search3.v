(** The shortest-path search, part 3: the path found, its minimality, and the state left behind. *)
From Coq Require Import ZArith NArith List Bool Arith Lia Permutation.
From Verif Require Import M_Base M_Tracker M_Core S_Core S_Reweight M_Search S_Search P_Reweight P_Flip P_CoreGeo P_CoreSched P_CoreQueue P_CorePath P_Search P_Search2.
Import ListNotations.
Local Open Scope Z_scope.

Lemma mapO_app : forall {X Y} (f : X -> outcome Y) l1 l2 r1 r2, mapO f l1 = Ok r1 -> mapO f l2 = Ok r2 -> mapO f (l1 ++ l2) = Ok (r1 ++ r2).
Proof.
  induction l1 as [|x l1 IH]; intros l2 r1 r2 E1 E2; cbn [mapO app] in *; [injection E1 as <-; exact E2|].
  destruct (f x) as [y| | |]; cbn [bindO] in *; try discriminate. destruct (mapO f l1) as [ys| | |]; cbn [bindO] in *; try discriminate. injection E1 as <-.
  rewrite (IH l2 ys r2 eq_refl E2). reflexivity.
Qed.

Section Paths.
Variable G : graph.
Hypothesis WF : wf_graph G.

Lemma leads_app : forall l u v l' x, leads G u l (Some v) -> leads G v l' x -> leads G u (l ++ l') x.
Proof.
  induction l as [|[y i] l IH]; intros u v l' x H1 H2; cbn [leads app] in *; [now injection H1 as ->|]. destruct H1 as [-> H1]. split; [reflexivity|].
  destruct (nth_error (nbrs G u) i) as [[[[u'|] w] o]|]; [eapply IH; eauto|destruct H1; discriminate|exact H1].
Qed.
Lemma leads_cells : forall l u x, leads G u l x -> Forall (is_cell G) l.
Proof.
  induction l as [|[y i] l IH]; intros u x H; [constructor|]. cbn [leads] in H. destruct H as [-> H]. destruct (nth_error (nbrs G u) i) as [[[[u'|] w] o]|] eqn:E; [| |destruct H].
  - constructor; [unfold is_cell; cbn [fst snd]; congruence|eauto].
  - destruct H as [-> _]. repeat constructor. unfold is_cell; cbn [fst snd]; congruence.
Qed.
Lemma leads_last : forall l u x d, l <> [] -> leads G u l x -> other_end G (last l d) = Ok x.
Proof.
  induction l as [|[y i] l IH]; intros u x d Hne H; [congruence|]. cbn [leads] in H. destruct H as [-> H].
  destruct l as [|c l].
  - cbn [last]. unfold other_end. cbn [fst snd]. destruct (nth_error (nbrs G u) i) as [[[[u'|] w] o]|]; [|destruct H as [_ ->]; reflexivity|destruct H]. cbn [leads] in H. now subst x.
  - change (last ((u, i) :: c :: l) d) with (last (c :: l) d). destruct (nth_error (nbrs G u) i) as [[[[u'|] w] o]|]; [|destruct H; discriminate|destruct H]. eapply IH; [discriminate|exact H].
Qed.
Lemma reverse_cell : forall u i v w o, nth_error (nbrs G u) i = Some (Some v, w, o) ->
  exists j, reverse_edge G (u, i) = Ok (v, j) /\ nth_error (nbrs G v) j = Some (Some u, w, o) /\ edge_at G (v, j) = edge_at G (u, i).
Proof.
  intros u i v w o H. pose proof (nth_error_In _ _ H) as Hin. destruct (back_index G WF u v w o Hin) as (j & Hj & Hn). exists j.
  unfold reverse_edge, other_end. cbn [fst snd]. rewrite H. cbn [bindO deref]. rewrite Hj. split; [reflexivity|]. split; [exact Hn|].
  assert (u <> v) by (intros ->; exact (wf_noloop G WF _ _ _ Hin)). cbn [edge_at]. rewrite H, Hn. destruct (Nat.ltb_spec v u), (Nat.ltb_spec u v); try reflexivity; lia.
Qed.
Lemma leads_rev : forall l u v, leads G u l (Some v) -> exists l', reverse_path G l = Ok l' /\ leads G v l' (Some u) /\ Permutation (edges_at G l') (edges_at G l).
Proof.
  induction l as [|[y i] l IH]; intros u v H.
  - cbn [leads] in H. injection H as ->. exists []. repeat split; auto.
  - cbn [leads] in H. destruct H as [-> H]. destruct (nth_error (nbrs G u) i) as [[[[u'|] w] o]|] eqn:E; [|destruct H; discriminate|destruct H].
    destruct (IH u' v H) as (l' & E1 & L1 & P1). destruct (reverse_cell u i u' w o E) as (j & E2 & E3 & E4). exists (l' ++ [(u', j)]). split; [|split].
    + unfold reverse_path. cbn [rev]. apply mapO_app; [exact E1|]. cbn [mapO]. rewrite E2. reflexivity.
    + eapply leads_app; [exact L1|]. cbn [leads]. split; [reflexivity|]. rewrite E3. reflexivity.
    + unfold edges_at in *. rewrite map_app. cbn [map]. rewrite E4. etransitivity; [apply Permutation_app_comm|]. cbn [app]. now apply perm_skip.
Qed.
Lemma edge_weight : forall u i x w o, nth_error (nbrs G u) i = Some (x, w, o) -> weight_of [edge_at G (u, i)] = w.
Proof. intros u i [v|] w o H; cbn [edge_at]; rewrite H; [destruct (u <? v)%nat|]; cbn; lia. Qed.
Lemma weight_cons : forall c l, weight_of (edges_at G (c :: l)) = weight_of [edge_at G c] + weight_of (edges_at G l).
Proof. intros. change (c :: l) with ([c] ++ l). unfold edges_at. rewrite map_app, weight_app. reflexivity. Qed.
Lemma edges_app : forall l l', edges_at G (l ++ l') = edges_at G l ++ edges_at G l'.
Proof. intros. apply map_app. Qed.

Variable s : search.
Lemma traced_leads : forall v r l, traced G s v r l -> leads G v l (Some r) /\ weight_of (edges_at G l) = sdist s v.
Proof.
  intros v r l H. induction H as [v H1 H2|v i u w o r l H1 H2 H3 H4 H5 [IH1 IH2]].
  - split; [reflexivity|]. cbn. congruence.
  - split; [cbn [leads]; rewrite H2; auto|]. rewrite weight_cons, (edge_weight v i (Some u) w o H2), IH2. lia.
Qed.
Lemma traced_trace : forall v r l k, traced G s v r l -> (length l < k)%nat -> trace G k s v = Ok l.
Proof.
  intros v r l k H. revert k. induction H as [v H1 H2|v i u w o r l H1 H2 H3 H4 H5 IH]; intros k Hk; (destruct k as [|k]; [lia|]); cbn [trace]; rewrite H1; [reflexivity|].
  rewrite H2. rewrite IH by (cbn in Hk; lia). reflexivity.
Qed.
End Paths.

Section Query.
Variable G : graph.
Hypothesis WF : wf_graph G.
Variable orc : nat -> nat.
Variable A : ints.
Hypothesis AO : wfine A G.
Variable a : nat.
Variable b : option nat.
Hypothesis VQ : valid_query G a b.
Definition roots (y : nat) : Prop := y = a \/ b = Some y.

Section Bound.
Variable X : nat -> Prop.
Variable s : search.
Hypothesis HI : sinv G roots X s.
Hypothesis Hbnd : sbnd s = match b with None => true | Some _ => false end.

Definition pot (v : nat) : Z :=
  match sfrom s v with None => snow s | Some r => if (r =? a)%nat then sdist s v else 2 * snow s - sdist s v end.
Lemma pot_step : forall v x w o, In (Some x, w, o) (nbrs G v) -> pot x <= pot v + w.
Proof.
  intros v x w o Hin. pose proof (wf_sym G WF _ _ _ _ Hin) as Hin'. destruct (wf_weight G WF _ _ _ _ Hin) as [Hw _]. unfold pot.
  destruct (sfrom s v) as [r|] eqn:Ev, (sfrom s x) as [r'|] eqn:Ex.
  - destruct (i_dist _ _ _ _ HI _ _ Ev) as [Dv _], (i_dist _ _ _ _ HI _ _ Ex) as [Dx _].
    destruct (i_src _ _ _ _ HI _ _ Ev) as [_ Rr], (i_src _ _ _ _ HI _ _ Ex) as [_ Rr'].
    destruct (Nat.eqb_spec r a) as [->|Hr], (Nat.eqb_spec r' a) as [->|Hr'].
    + pose proof (i_same _ _ _ _ HI v x w o a Hin Ev Ex). lia.
    + pose proof (inv_ahead G WF roots X s HI v ltac:(congruence) x w o Hin r' Ex ltac:(congruence)). lia.
    + lia.
    + assert (r' = r) by (destruct Rr, Rr'; congruence). subst r'. pose proof (i_same _ _ _ _ HI x v w o r Hin' Ex Ev). lia.
  - destruct (i_dist _ _ _ _ HI _ _ Ev) as [Dv _]. destruct (Nat.eqb_spec r a); [|lia]. pose proof (covered_now G roots X s HI _ _ (i_free _ _ _ _ HI v x w o r Hin Ev Ex)). lia.
  - destruct (i_dist _ _ _ _ HI _ _ Ex) as [Dx _]. destruct (Nat.eqb_spec r' a); [lia|]. pose proof (covered_now G roots X s HI _ _ (i_free _ _ _ _ HI x v w o r' Hin' Ex Ev)). lia.
  - lia.
Qed.
Lemma pot_walk : forall v l o, walk G a v l o -> pot v <= l.
Proof.
  intros v l o H. induction H as [|v l o x w ob H IH Hin].
  - unfold pot. destruct (i_root _ _ _ _ HI a) as (E1 & _ & E2); [now left|]. rewrite E1, Nat.eqb_refl. lia.
  - pose proof (pot_step _ _ _ _ Hin). lia.
Qed.
(** Every path has at least the length that the search has covered. *)
Lemma path_bound : forall l o, path G a b l o -> match b with Some _ => 2 * snow s | None => snow s end <= l.
Proof.
  intros l o H. destruct b as [d|] eqn:Eb; unfold path in H.
  - pose proof (pot_walk _ _ _ H) as P. unfold pot in P. destruct (i_root _ _ _ _ HI d) as (E1 & _ & E2); [right; exact Eb|]. rewrite E1 in P.
    destruct VQ as [_ VQ2]. destruct (Nat.eqb_spec d a); [tauto|]. lia.
  - destruct H as (v & l' & o' & w & ob & H & Hin & -> & ->). pose proof (pot_walk _ _ _ H) as P. unfold pot in P. destruct (wf_weight G WF _ _ _ _ Hin) as [Hw _].
    destruct (sfrom s v) as [r|] eqn:Ev; [|lia]. destruct (i_src _ _ _ _ HI _ _ Ev) as [_ [->|F]]; [|congruence]. rewrite Nat.eqb_refl in P.
    pose proof (covered_now G roots X s HI _ _ (i_bnd _ _ _ _ HI v w ob a Hbnd Hin Ev)). lia.
Qed.
End Bound.

(** If the queue runs empty there is no path. *)
Lemma no_path : forall s, sinv G roots nobody s -> sbnd s = match b with None => true | Some _ => false end -> sque s = [] -> ~ connected G a b.
Proof.
  intros s HI Hb Hq (l & o & H).
  assert (NC : forall v t, ~ covered s nobody v t).
  { intros v t [[C _]|[[] _]]. destruct (i_trk _ _ _ _ HI v C) as [C1 _]. pose proof (i_q _ _ _ _ HI v C1) as C2. rewrite Hq in C2. destruct C2. }
  assert (W : forall v l o, walk G a v l o -> sfrom s v = Some a).
  { intros v l' o' W. induction W as [|v l' o' x w ob W IH Hin]; [apply (i_root _ _ _ _ HI); now left|].
    destruct (sfrom s x) as [r|] eqn:Ex.
    - destruct (Nat.eq_dec r a) as [->|Hne]; [reflexivity|]. destruct (i_other _ _ _ _ HI v x w ob a r Hin IH Ex) as [C|C]; [congruence| |]; elim (NC _ _ C).
    - elim (NC _ _ (i_free _ _ _ _ HI v x w ob a Hin IH Ex)). }
  destruct b as [d|] eqn:Eb; unfold path in H.
  - apply W in H. destruct (i_root _ _ _ _ HI d) as (E1 & _); [right; exact Eb|]. destruct VQ as [_ VQ2]. destruct VQ2 as [_ VQ2]. congruence.
  - destruct H as (v & l' & o' & w & ob & H & Hin & _). apply W in H. exact (NC _ _ (i_bnd _ _ _ _ HI v w ob a Hb Hin H)).
Qed.

(** The path that goes with a collision. *)
Lemma collision_path : forall s c, sinv G roots (eq (fst c)) s -> collision G s c -> sbnd s = match b with None => true | Some _ => false end ->
  exists l1 x l2 p, (forall k, (length G <= k)%nat -> trace G k s (fst c) = Ok l1) /\ other_end G c = Ok x /\
    (forall k, (length G <= k)%nat -> match x with None => Ok [] | Some u => trace G k s u end = Ok l2) /\
    (exists z, other_end G (last (c :: l2) c) = Ok z /\
      (if same_opt z (Some a) then bindO (reverse_path G (c :: l2)) (fun l2r => Ok (l2r ++ l1)) else bindO (reverse_path G l1) (fun l1r => Ok (l1r ++ c :: l2))) = Ok p) /\
    leads G a p b /\ Forall (is_cell G) (l1 ++ l2 ++ [c]) /\ Permutation (edges_at G (l1 ++ l2 ++ [c])) (edges_at G p) /\
    weight_of (edges_at G (l1 ++ l2 ++ [c])) = match b with Some _ => 2 * snow s | None => snow s end.
Proof.
  intros s [v i] HI (Hv & e & He & Hc & Hu) Hb. cbn [fst snd] in *. destruct (sfrom s v) as [r|] eqn:Ev; [|congruence].
  pose proof (reached_bound G roots _ s HI) as RB.
  destruct (i_trace _ _ _ _ HI v r Ev) as (l1 & T1 & L1). destruct (traced_leads G s v r l1 T1) as [W1 D1].
  destruct (i_src _ _ _ _ HI _ _ Ev) as [_ Rr].
  exists l1. destruct e as [[[u|] w] o].
  - destruct (sfrom s u) as [r'|] eqn:Eu; [|elim (Hu u); auto]. unfold cand in Hc. rewrite Ev, Eu in Hc. destruct (same_opt (Some r') (Some r)) eqn:Es; [discriminate|]. injection Hc as Hc.
    assert (Hrr : r <> r') by (intros ->; rewrite same_opt_refl in Es; discriminate).
    pose proof (half_le G WF roots _ s HI v u w o r r' (nth_error_In _ _ He) Ev Eu) as Hh. rewrite Hc in Hh.
    destruct (i_src _ _ _ _ HI _ _ Eu) as [_ Rr']. destruct (i_trace _ _ _ _ HI u r' Eu) as (l2 & T2 & L2). destruct (traced_leads G s u r' l2 T2) as [W2 D2].
    assert (Wc : leads G v ((v, i) :: l2) (Some r')) by (cbn [leads]; rewrite He; auto).
    assert (Db : exists d, b = Some d) by (destruct Rr as [->|F]; [destruct Rr' as [->|F]; [congruence|eauto]|eauto]). destruct Db as [d Db].
    exists (Some u), l2.
    destruct (leads_rev G WF ((v, i) :: l2) v r' Wc) as (l2r & RE2 & RW2 & RP2). destruct (leads_rev G WF l1 v r W1) as (l1r & RE1 & RW1 & RP1).
    assert (Pm : Permutation (edges_at G (l1 ++ l2 ++ [(v, i)])) (edges_at G l1 ++ edges_at G ((v, i) :: l2))).
    { rewrite edges_app. apply Permutation_app_head. rewrite edges_app. etransitivity; [apply Permutation_app_comm|]. reflexivity. }
    assert (Hw : weight_of (edges_at G (l1 ++ l2 ++ [(v, i)])) = 2 * snow s).
    { rewrite (weight_perm _ _ Pm), weight_app, weight_cons, (edge_weight G v i (Some u) w o He). lia. }
    assert (Hz : other_end G (last ((v, i) :: l2) (v, i)) = Ok (Some r')) by (eapply leads_last; [discriminate|exact Wc]).
    assert (Ex : exists p, (if same_opt (Some r') (Some a) then bindO (reverse_path G ((v, i) :: l2)) (fun l2r => Ok (l2r ++ l1)) else bindO (reverse_path G l1) (fun l1r => Ok (l1r ++ (v, i) :: l2))) = Ok p /\
        leads G a p b /\ Permutation (edges_at G (l1 ++ l2 ++ [(v, i)])) (edges_at G p)).
    { destruct (Nat.eq_dec r' a) as [->|Hra].
      - rewrite same_opt_refl, RE2. exists (l2r ++ l1). split; [reflexivity|]. split.
        + destruct Rr as [->|Fr]; [congruence|]. rewrite Fr. eapply leads_app; eauto.
        + etransitivity; [exact Pm|]. rewrite edges_app. etransitivity; [apply Permutation_app_comm|]. apply Permutation_app_tail. now symmetry.
      - rewrite same_opt_false by congruence. rewrite RE1. exists (l1r ++ (v, i) :: l2). split; [reflexivity|]. destruct Rr' as [->|Fr']; [congruence|]. split.
        + rewrite Fr'. assert (r = a) by (destruct Rr as [->|Fr]; [reflexivity|congruence]). subst r. eapply leads_app; eauto.
        + etransitivity; [exact Pm|]. rewrite edges_app. apply Permutation_app_tail. now symmetry. }
    destruct Ex as (p & P1 & P2 & P3). exists p. repeat split.
    + intros k Hk. eapply traced_trace; [exact T1|lia].
    + unfold other_end. cbn [fst snd]. now rewrite He.
    + intros k Hk. eapply traced_trace; [exact T2|lia].
    + exists (Some r'). split; [exact Hz|exact P1].
    + exact P2.
    + apply Forall_app. split; [eapply leads_cells; eauto|]. apply Forall_app. split; [eapply leads_cells; eauto|]. repeat constructor. unfold is_cell; cbn [fst snd]; congruence.
    + exact P3.
    + rewrite Db. exact Hw.
  - unfold cand in Hc. destruct (sbnd s) eqn:Esb; [|discriminate]. injection Hc as Hc. destruct b as [d|] eqn:Eb; [discriminate|].
    exists None, []. assert (r = a) by (destruct Rr; congruence). subst r.
    destruct (leads_rev G WF l1 v a W1) as (l1r & RE1 & RW1 & RP1). exists (l1r ++ [(v, i)]). cbn [app last].
    assert (Wc : leads G v [(v, i)] None) by (cbn [leads]; rewrite He; auto).
    repeat split.
    + intros k Hk. eapply traced_trace; [exact T1|lia].
    + unfold other_end. cbn [fst snd]. now rewrite He.
    + exists None. split; [unfold other_end; cbn [fst snd]; now rewrite He|]. cbn [same_opt]. rewrite RE1. reflexivity.
    + eapply leads_app; eauto.
    + apply Forall_app. split; [eapply leads_cells; eauto|]. eapply leads_cells; eauto.
    + rewrite !edges_app. apply Permutation_app_tail. now symmetry.
    + rewrite edges_app, weight_app. cbn [edges_at map]. rewrite (edge_weight G v i None w o He). unfold edges_at in D1 |- *. lia.
Qed.

(** Starting a search. *)
Lemma start_inv : forall s, search_idle s -> forall t, sinv G (fun _ => False) nobody (set_target s t).
Proof.
  intros s [H1 H2 H3 H4] t. constructor; cbn [sfrom spre sdist strk sque snow stick sreached sbnd set_target]; try (intros v; destruct (H1 v) as (E1 & E2 & E3 & E4)); try (intros; congruence); try tauto.
  - rewrite H4. constructor.
  - rewrite H4, E1. split; [intros []|congruence].
  - intros t0 i0. rewrite H2. intros [].
Qed.
Lemma start_spec : forall s, search_idle s -> exists s2, bindO (match b with None => Ok (set_target s true) | Some d => start_at G A (set_target s false) d end) (fun s1 => start_at G A s1 a) = Ok s2 /\
     sinv G roots nobody s2 /\ sbnd s2 = match b with None => true | Some _ => false end.
Proof.
  intros s Hs. destruct VQ as [Ha Hb].
  assert (St : forall R s0 v, sinv G R nobody s0 -> snow s0 = 0 -> sfrom s0 v = None -> (v < length G)%nat ->
     exists s1, start_at G A s0 v = Ok s1 /\ sinv G (fun y => R y \/ y = v) nobody s1 /\ snow s1 = 0 /\ sbnd s1 = sbnd s0 /\ sfrom s1 = upd (sfrom s0) v (Some v)).
  { intros R s0 v I0 N0 F0 L0. destruct (reach_spec G WF A AO R nobody s0 v v None I0 F0 L0) as (s1 & E1 & I1 & F1 & F2 & F3 & _); [left; auto|].
    exists s1. unfold start_at. rewrite <- N0 at 1. split; [exact E1|]. split; [exact I1|]. split; [congruence|]. split; assumption. }
  destruct b as [d|] eqn:Eb.
  - destruct Hb as [Hd Hne]. destruct (St (fun _ => False) (set_target s false) d) as (s1 & E1 & I1 & N1 & B1 & F1); [now apply start_inv|apply Hs|cbn [sfrom set_target]; apply Hs|exact Hd|].
    destruct (St _ s1 a I1 N1) as (s2 & E2 & I2 & N2 & B2 & F2); [rewrite F1, upd_other by congruence; apply Hs|exact Ha|].
    exists s2. rewrite E1. cbn [bindO]. split; [exact E2|]. split; [|rewrite B2, B1; reflexivity].
    eapply roots_ext; [|exact I2]. intros y. unfold roots. rewrite Eb. split; [intros [[[]| ->]| ->]; auto|intros [->|E]; [auto|injection E as ->; auto]].
  - destruct (St (fun _ => False) (set_target s true) a) as (s2 & E2 & I2 & N2 & B2 & F2); [now apply start_inv|apply Hs|cbn [sfrom set_target]; apply Hs|exact Ha|].
    exists s2. cbn [bindO]. split; [exact E2|]. split; [|rewrite B2; reflexivity].
    eapply roots_ext; [|exact I2]. intros y. unfold roots. rewrite Eb. split; [intros [[]| ->]; auto|intros [->|E]; [auto|discriminate]].
Qed.
Lemma run_spec : forall s, search_idle s -> exists k s' c, (forall fuel, (k <= fuel)%nat -> run_until_collision G fuel orc A s a b = Ok (s', c)) /\
  match c with
  | None => sinv G roots nobody s' /\ sque s' = []
  | Some c => sinv G roots (eq (fst c)) s' /\ collision G s' c
  end /\ sbnd s' = match b with None => true | Some _ => false end.
Proof.
  intros s Hs. destruct (start_spec s Hs) as (s2 & E2 & I2 & B2). destruct (srun_total G WF orc A AO roots _ _ s2 I2 (Nat.le_refl _) (Nat.le_refl _)) as (k & s' & c & E3 & P1 & P2).
  exists k, s', c. split; [|split; [exact P1|congruence]]. intros fuel Hf. unfold run_until_collision.
  assert (E4 : srun G orc A fuel s2 = Ok (s', c)) by (eapply srun_mono; eauto). 
  destruct (match b with None => Ok (set_target s true) | Some d => start_at G A (set_target s false) d end) as [s1| | |]; cbn [bindO] in *; try discriminate. rewrite E2. exact E4.
Qed.

(** The reset. *)
Lemma reset_nodes_spec : forall l s, let s' := fold_left sreset_node l s in
  (forall v, sfrom s' v = (if in_dec Nat.eq_dec v l then None else sfrom s v) /\ spre s' v = (if in_dec Nat.eq_dec v l then None else spre s v) /\
             strk s' v = if in_dec Nat.eq_dec v l then tracker_clear else strk s v).
Proof.
  induction l as [|x l IH]; intros s s' v; [cbn; auto|]. subst s'. cbn [fold_left]. destruct (IH (sreset_node s x) v) as (E1 & E2 & E3). rewrite E1, E2, E3. cbn [sfrom spre strk sreset_node].
  destruct (in_dec Nat.eq_dec v l) as [H|H]; destruct (in_dec Nat.eq_dec v (x :: l)) as [H'|H']; auto; [elim H'; now right|destruct H' as [->|H']; [rewrite !upd_same; auto|contradiction]|].
  rewrite !upd_other by (intros ->; apply H'; now left). auto.
Qed.
Lemma reset_idle : forall R X s, sinv G R X s -> search_idle (sreset s).
Proof.
  intros R X s HI. unfold sreset. pose proof (reset_nodes_spec (rev (sreached s)) s) as H. cbv zeta in H. constructor; cbn [sfrom spre strk sque snow sreached]; auto.
  intros v. destruct (H v) as (E1 & E2 & E3). rewrite E1, E2, E3. destruct (in_dec Nat.eq_dec v (rev (sreached s))) as [Hv|Hv]; [cbn; auto|].
  assert (Hn : sfrom s v = None). { destruct (sfrom s v) as [r|] eqn:E; [|reflexivity]. elim Hv. apply -> in_rev. apply (i_reached _ _ _ _ HI). congruence. }
  destruct (i_clean _ _ _ _ HI v Hn) as (C1 & C2 & C3). auto.
Qed.

Theorem query_spec : forall s, search_idle s -> connected G a b -> exists k s' cells p, (forall fuel, (k <= fuel)%nat ->
     path_from_middle G fuel orc A s a b = Ok (s', cells) /\ path_from_source G fuel orc A s a b = Ok (s', p)) /\
  search_idle s' /\ leads G a p b /\ Forall (is_cell G) cells /\ Permutation (edges_at G cells) (edges_at G p) /\ forall w o, path G a b w o -> weight_of (edges_at G cells) <= w.
Proof.
  intros s Hs Hc. destruct (run_spec s Hs) as (k & s' & c & E & P1 & P2). destruct c as [c|].
  2: { destruct P1 as [I1 Q1]. elim (no_path s' I1 P2 Q1 Hc). }
  destruct P1 as [I1 C1]. destruct (collision_path s' c I1 C1 P2) as (l1 & x & l2 & p & T1 & T2 & T3 & (z & T4 & T5) & T6 & T6' & T7 & T8).
  exists (Nat.max k (length G)), (sreset s'), (l1 ++ l2 ++ [c]), p. split; [|split; [eapply reset_idle; eauto|split; [exact T6|split; [exact T6'|split; [exact T7|]]]]].
  - intros fuel Hf. assert (EO : ends_ok G a b = true).
    { unfold ends_ok, in_nodes. destruct VQ as [V1 V2]. destruct (Nat.ltb_spec a (length G)); [|lia]. destruct b as [d|]; [|reflexivity]. destruct V2. destruct (Nat.ltb_spec d (length G)); [reflexivity|lia]. }
    unfold path_from_middle, path_from_source. rewrite EO, E by lia. cbn [bindO fst snd trace_collision]. rewrite T1 by lia. cbn [bindO]. rewrite T2. cbn [bindO]. rewrite T3 by lia. cbn [bindO].
    split; [reflexivity|]. rewrite T4. cbn [bindO]. destruct (if same_opt z (Some a) then _ else _) as [q| | |] eqn:Eq in T5 |- *; try discriminate. injection T5 as ->. reflexivity.
  - intros w o Hp. rewrite T8. eapply path_bound; eauto.
Qed.
Lemma leads_path : forall p u x, leads G u p x -> path G u x (weight_of (edges_at G p)) (obs_of (edges_at G p)).
Proof.
  assert (Pre : forall u v w o x l ob, In (Some v, w, o) (nbrs G u) -> walk G v x l ob -> walk G u x (w + l) (N.lxor o ob)).
  { intros u v w o x l ob Hin H. induction H as [|y l ob z w' ob' H IH Hin'].
    - rewrite Z.add_0_r, N.lxor_0_r. replace w with (0 + w) by lia. rewrite <- (N.lxor_0_l o). eapply walk_step; [apply walk_nil|exact Hin].
    - rewrite Z.add_assoc, <- N.lxor_assoc. eapply walk_step; eauto. }
  induction p as [|[y i] p IH]; intros u x H; cbn [leads] in H.
  - subst x. apply walk_nil.
  - destruct H as [-> H]. destruct (nth_error (nbrs G u) i) as [[[[v|] w] o]|] eqn:E; [|destruct H as [-> ->]|destruct H].
    + assert (Ho : obs_of (edges_at G ((u, i) :: p)) = N.lxor o (obs_of (edges_at G p))).
      { cbn [edges_at map edge_at]. rewrite E. destruct (u <? v)%nat; reflexivity. }
      rewrite Ho, weight_cons, (edge_weight G u i _ _ _ E). apply nth_error_In in E. specialize (IH v x H). destruct x as [x|]; unfold path in *; [eapply Pre; eauto|].
      destruct IH as (y & l' & o' & w' & ob & W & Hin & E1 & E2). exists y, (w + l'), (N.lxor o o'), w', ob. split; [eapply Pre; eauto|]. split; [exact Hin|]. split; [lia|]. now rewrite E2, N.lxor_assoc.
    + cbn [edges_at map edge_at]. rewrite E. exists u, 0, 0%N, w, o. split; [apply walk_nil|]. split; [eapply nth_error_In; eauto|]. cbn [weight_of obs_of]. split; [lia|]. now rewrite N.lxor_0_r, N.lxor_0_l.
Qed.
Theorem query_unreachable : forall s, search_idle s -> ~ connected G a b -> exists k, forall fuel, (k <= fuel)%nat ->
     path_from_middle G fuel orc A s a b = UB /\ path_from_source G fuel orc A s a b = UB.
Proof.
  intros s Hs Hc. destruct (run_spec s Hs) as (k & s' & c & E & P1 & P2). destruct c as [c|].
  - destruct P1 as [I1 C1]. destruct (collision_path s' c I1 C1 P2) as (l1 & x & l2 & p & _ & _ & _ & _ & T6 & _). elim Hc. eexists. eexists. eapply leads_path. exact T6.
  - exists k. intros fuel Hf. unfold path_from_middle, path_from_source. destruct (ends_ok G a b); [|auto]. rewrite E by lia. auto.
Qed.
End Query.
