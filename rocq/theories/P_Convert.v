From Coq Require Import ZArith NArith List Bool Arith Lia.
From Verif Require Import M_Base M_Core S_Core M_Build S_Build P_Tree P_Build.
Import ListNotations.
Local Open Scope nat_scope.

(** ** What the conversion keeps *)
Lemma keep_best_spec : forall t u w obs,
  (exists w' o', keep_best t u w obs u = Some (w', o') /\ (w' <= w)%Z /\ (t u = Some (w', o') \/ (w', o') = (w, obs))) /\
  (forall v w0 o0, t v = Some (w0, o0) -> exists w' o', keep_best t u w obs v = Some (w', o') /\ (w' <= w0)%Z) /\
  (forall v, v <> u -> keep_best t u w obs v = t v).
Proof.
  intros t u w obs. unfold keep_best. destruct (t u) as [[w0 o0]|] eqn:E.
  - destruct (Z.ltb_spec w w0).
    + split; [exists w, obs; unfold upd; rewrite Nat.eqb_refl; split; [reflexivity|split; [lia|now right]]|]. split.
      * intros v w1 o1 Hv. unfold upd. destruct (Nat.eqb_spec v u) as [->|]; [|eauto using Z.le_refl]. exists w, obs. split; [reflexivity|]. rewrite E in Hv. injection Hv as <- _. lia.
      * intros v Hv. unfold upd. destruct (Nat.eqb_spec v u); congruence.
    + split; [exists w0, o0; split; [exact E|split; [lia|now left]]|]. split; [|reflexivity]. intros v w1 o1 Hv. exists w1, o1. split; [exact Hv|lia].
  - split; [exists w, obs; unfold upd; rewrite Nat.eqb_refl; split; [reflexivity|split; [lia|now right]]|]. split.
    + intros v w1 o1 Hv. unfold upd. destruct (Nat.eqb_spec v u) as [->|]; [congruence|]. exists w1, o1. split; [exact Hv|lia].
    + intros v Hv. unfold upd. destruct (Nat.eqb_spec v u); congruence.
Qed.

Lemma convert_spec : forall B E t l t', convert B E t = (l, t') ->
  (forall e, In e l <-> exists e0, In e0 E /\ convert_edge B e0 = Edge e) /\
  (forall u w o, t' u = Some (w, o) -> t u = Some (w, o) \/ exists e, In e E /\ convert_edge B e = BoundaryEdge u w o) /\
  (forall u w o, t u = Some (w, o) -> exists w' o', t' u = Some (w', o') /\ (w' <= w)%Z) /\
  (forall e u w o, In e E -> convert_edge B e = BoundaryEdge u w o -> exists w' o', t' u = Some (w', o') /\ (w' <= w)%Z).
Proof.
  intros B. induction E as [|e E IH]; intros t l t' H; cbn [convert] in H.
  - injection H as <- <-. split; [|split; [|split]].
    + intros e. split; [intros []|intros (e0 & [] & _)].
    + intros; now left.
    + intros u w o Hu. exists w, o. split; [exact Hu|lia].
    + intros e u w o [].
  - destruct (convert_edge B e) as [e'|u w obs|] eqn:Ec.
    + destruct (convert B E t) as [l0 t0] eqn:E0. injection H as <- <-. destruct (IH _ _ _ E0) as (H1 & H2 & H3 & H4).
      split; [|split; [|split; [exact H3|]]].
      * intros x. split.
        -- intros [<-|Hx]; [exists e; split; [now left|exact Ec]|]. apply H1 in Hx as (e0 & Hi & He). exists e0. split; [now right|exact He].
        -- intros (e0 & [<-|Hi] & He); [left; congruence|]. right. apply H1. eauto.
      * intros u w o Hu. apply H2 in Hu as [Hu|(e0 & Hi & He)]; [now left|]. right. exists e0. split; [now right|exact He].
      * intros e0 u w o [<-|Hi] He; [congruence|]. eapply H4; eauto.
    + destruct (IH _ _ _ H) as (H1 & H2 & H3 & H4). destruct (keep_best_spec t u w obs) as (K1 & K2 & K3). split; [|split; [|split]].
      * intros x. rewrite H1. split; intros (e0 & Hi & He); [exists e0; split; [now right|exact He]|]. destruct Hi as [<-|Hi]; [congruence|eauto].
      * intros v w1 o1 Hv. apply H2 in Hv as [Hv|(e0 & Hi & He)]; [|right; exists e0; split; [now right|exact He]].
        destruct (Nat.eq_dec v u) as [->|N]; [|left; rewrite <- K3 with (1 := N); exact Hv].
        destruct K1 as (w' & o' & Kv & _ & [Kt|Ke]).
        -- left. congruence.
        -- right. exists e. split; [now left|]. rewrite Ec. rewrite Kv in Hv. congruence.
      * intros v w1 o1 Hv. destruct (K2 v w1 o1 Hv) as (w' & o' & Kv & Kl). destruct (H3 v w' o' Kv) as (w2 & o2 & Hv2 & Hl). exists w2, o2. split; [exact Hv2|lia].
      * intros e0 u0 w0 o0 [<-|Hi] He; [|eapply H4; eauto]. rewrite Ec in He. injection He as -> -> ->.
        destruct K1 as (w' & o' & Kv & Kl & _). destruct (H3 _ _ _ Kv) as (w2 & o2 & Hv2 & Hl). exists w2, o2. split; [exact Hv2|lia].
    + destruct (IH _ _ _ H) as (H1 & H2 & H3 & H4). split; [|split; [|split; [exact H3|]]].
      * intros x. rewrite H1. split; intros (e0 & Hi & He); [exists e0; split; [now right|exact He]|]. destruct Hi as [<-|Hi]; [congruence|eauto].
      * intros v w1 o1 Hv. apply H2 in Hv as [Hv|(e0 & Hi & He)]; [now left|right; exists e0; split; [now right|exact He]].
      * intros e0 u w o [<-|Hi] He; [congruence|eapply H4; eauto].
Qed.

(** The three outcomes for one edge. *)
Lemma convert_edge_spec : forall B e,
  match convert_edge B e with
  | Edge e' => e' = e /\ exists u v w o, e = (u, Some v, w, o) /\ B u = false /\ B v = false
  | BoundaryEdge u w o => B u = false /\ s_weight e = w /\ In u (s_node_list e) /\ (exists a x, e = (a, x, w, o)) /\ forall v, B v = false -> s_ends v e = if u =? v then 1 else 0
  | Dropped => forall v, B v = false -> s_ends v e = 0
  end.
Proof.
  intros B [[[u x] w] o]. unfold convert_edge. destruct x as [v|]; cbn [is_bnd_node]; destruct (B u) eqn:Bu; try destruct (B v) eqn:Bv; cbn [andb negb].
  - intros k Hk. simpl. destruct (Nat.eqb_spec u k); [congruence|]. destruct (Nat.eqb_spec v k); [congruence|]. reflexivity.
  - split; [exact Bv|]. split; [reflexivity|]. split; [simpl; auto|]. split; [eauto|]. intros k Hk. simpl. destruct (Nat.eqb_spec u k); [congruence|]. reflexivity.
  - split; [exact Bu|]. split; [reflexivity|]. split; [simpl; auto|]. split; [eauto|]. intros k Hk. simpl. destruct (Nat.eqb_spec v k); [congruence|]. now rewrite Nat.add_0_r.
  - split; [reflexivity|]. exists u, v, w, o. auto.
  - intros k Hk. simpl. destruct (Nat.eqb_spec u k); [congruence|]. reflexivity.
  - split; [exact Bu|]. split; [reflexivity|]. split; [simpl; auto|]. split; [eauto|]. intros k Hk. simpl. now rewrite Nat.add_0_r.
Qed.

Lemma boundary_list_In : forall n t e, In e (boundary_list n t) <-> exists u w o, u < n /\ t u = Some (w, o) /\ e = (u, None, w, o).
Proof.
  intros n t e. unfold boundary_list. rewrite in_flat_map. split.
  - intros (u & Hu & He). apply in_seq in Hu. destruct (t u) as [[w o]|] eqn:E; [|destruct He]. destruct He as [<-|[]]. exists u, w, o. split; [lia|]. auto.
  - intros (u & w & o & Hu & E & ->). exists u. split; [apply in_seq; lia|]. rewrite E. now left.
Qed.

(** ** Adjacency of the built graph *)
Lemma adj_edge : forall nobs n E g, built nobs n E g -> forall u v w m,
  In (Some v, w, m) (nbrs (adj g) u) <->
  u <> v /\ exists w0 obs, (In (u, Some v, w0, obs) E \/ In (v, Some u, w0, obs) E) /\ w = Z.abs w0 /\ m = mask_of nobs obs.
Proof.
  intros nobs n E g (_ & _ & Hadj & _ & _) u v w m. rewrite Hadj. unfold adj_of. rewrite in_app_iff, !in_flat_map. split.
  - intros [(e & _ & He)|(e & Hi & He)].
    + apply bentry_None in He. discriminate.
    + destruct e as [[[a x] w0] obs]. unfold entry_of in He. destruct x as [b|]; [|destruct He].
      destruct (Nat.eqb_spec a b); [destruct He|]. destruct (Nat.eqb_spec a u) as [->|].
      * destruct He as [He|[]]. injection He as -> <- <-. split; [exact n0|]. exists w0, obs. auto.
      * destruct (Nat.eqb_spec b u) as [->|]; [|destruct He]. destruct He as [He|[]]. injection He as -> <- <-. split; [congruence|]. exists w0, obs. auto.
  - intros (N & w0 & obs & [Hi|Hi] & -> & ->); right.
    + exists (u, Some v, w0, obs). split; [exact Hi|]. simpl. destruct (Nat.eqb_spec u v); [congruence|]. rewrite Nat.eqb_refl. now left.
    + exists (v, Some u, w0, obs). split; [exact Hi|]. simpl. destruct (Nat.eqb_spec v u); [congruence|]. rewrite Nat.eqb_refl. now left.
Qed.
Lemma adj_boundary : forall nobs n E g, built nobs n E g -> forall u w m,
  In (None, w, m) (nbrs (adj g) u) <-> exists w0 obs, In (u, None, w0, obs) E /\ w = Z.abs w0 /\ m = mask_of nobs obs.
Proof.
  intros nobs n E g (_ & _ & Hadj & _ & _) u w m. rewrite Hadj. unfold adj_of. rewrite in_app_iff, !in_flat_map. split.
  - intros [(e & Hi & He)|(e & _ & He)]; [|elim (no_bentry _ _ _ _ _ He)].
    destruct e as [[[a x] w0] obs]. unfold bentry_of in He. destruct x; [destruct He|]. destruct (Nat.eqb_spec a u) as [->|]; [|destruct He].
    destruct He as [He|[]]. injection He as <- <-. exists w0, obs. auto.
  - intros (w0 & obs & Hi & -> & ->). left. exists (u, None, w0, obs). split; [exact Hi|]. simpl. rewrite Nat.eqb_refl. now left.
Qed.

Lemma convert_all_In : forall n B E e, (forall e, In e E -> in_range n e) ->
  (In e (convert_all n B E) <->
   (exists t', snd (convert B E (fun _ => None)) = t' /\
     ((exists u v w o, e = (u, Some v, w, o) /\ In e E /\ B u = false /\ B v = false) \/
      (exists u w o, e = (u, None, w, o) /\ u < n /\ t' u = Some (w, o))))).
Proof.
  intros n B E e Hr. unfold convert_all. destruct (convert B E (fun _ => None)) as [l t'] eqn:Ec. destruct (convert_spec _ _ _ _ _ Ec) as (H1 & _).
  rewrite in_app_iff, H1, boundary_list_In. cbn [snd]. split.
  - intros [(e0 & Hi & He)|(u & w & o & Hu & Ht & ->)]; exists t'; (split; [reflexivity|]).
    + left. pose proof (convert_edge_spec B e0) as X. rewrite He in X. destruct X as (-> & u & v & w & o & -> & Bu & Bv). exists u, v, w, o. auto.
    + right. exists u, w, o. auto.
  - intros (t1 & <- & [(u & v & w & o & -> & Hi & Bu & Bv)|(u & w & o & -> & Hu & Ht)]).
    + left. exists (u, Some v, w, o). split; [exact Hi|]. unfold convert_edge. simpl. now rewrite Bu, Bv.
    + right. exists u, w, o. auto.
Qed.

Section C32.
Variable nobs n : nat.
Variable B : nat -> bool.
Variable E : list sedge.
Variable g : mgraph.
Hypothesis Hrange : forall e, In e E -> in_range n e.
Hypothesis Hpos : forall e, In e E -> (0 <= s_weight e)%Z.
Hypothesis Hbuild : to_matching_graph nobs n B E = Ok g.

Lemma HB : built nobs n (convert_all n B E) g.
Proof. apply build_built. exact Hbuild. Qed.

(** Every user edge has an image of no greater weight, of the same ends modulo 2. *)
Lemma image : forall e, In e E -> exists l : list edge, Forall (is_edge (adj g)) l /\
  (forall v, Nat.odd (degree v l) = negb (B v) && Nat.odd (s_ends v e)) /\ (weight_of l <= s_weight e)%Z.
Proof.
  intros e He. destruct (convert B E (fun _ => None)) as [l t'] eqn:Ec.
  destruct (convert_spec _ _ _ _ _ Ec) as (_ & H2 & _ & H4). pose proof (convert_edge_spec B e) as X.
  destruct (convert_edge B e) as [e'|u w o|] eqn:Ee.
  - destruct X as (-> & u & v & w & o & -> & Bu & Bv). destruct (Nat.eq_dec u v) as [->|N].
    + exists []. split; [constructor|]. split; [|apply Hpos in He; exact He]. intros k. simpl.
      destruct (Nat.eqb_spec v k); simpl; now rewrite andb_false_r.
    + assert (HIn : In (u, Some v, w, o) (convert_all n B E)).
      { apply convert_all_In; [exact Hrange|]. exists t'. rewrite Ec. split; [reflexivity|]. left. exists u, v, w, o. auto. }
      assert (Habs : Z.abs w = w) by (apply Hpos in He; simpl in He; lia).
      assert (HE : forall k, (if B k then 0 else (if u =? k then 1 else 0) + (if v =? k then 1 else 0)) = (if u =? k then 1 else 0) + (if v =? k then 1 else 0)).
      { intros k. destruct (B k) eqn:Bk; [|reflexivity]. destruct (Nat.eqb_spec u k); [congruence|]. destruct (Nat.eqb_spec v k); [congruence|reflexivity]. }
      destruct (Nat.lt_ge_cases u v) as [L|L].
      * exists [(u, Some v, w, mask_of nobs o)]. split; [|split].
        -- constructor; [|constructor]. split; [|exact L]. apply (adj_edge _ _ _ _ HB). split; [exact N|]. exists w, o. auto.
        -- intros k. specialize (HE k). simpl. rewrite Nat.add_0_r. destruct (B k); simpl; [now rewrite <- HE|reflexivity].
        -- simpl. lia.
      * exists [(v, Some u, w, mask_of nobs o)]. split; [|split].
        -- constructor; [|constructor]. split; [|lia]. apply (adj_edge _ _ _ _ HB). split; [congruence|]. exists w, o. auto.
        -- intros k. specialize (HE k). simpl. rewrite Nat.add_0_r, (Nat.add_comm (if v =? k then 1 else 0)). destruct (B k); simpl; [now rewrite <- HE|reflexivity].
        -- simpl. lia.
  - destruct X as (Bu & Ew & Hin & _ & Hends). destruct (H4 e u w o He Ee) as (w' & o' & Ht & Hl).
    assert (Hun : u < n) by (apply (Hrange e He); exact Hin).
    assert (HIn : In (u, None, w', o') (convert_all n B E)).
    { apply convert_all_In; [exact Hrange|]. exists t'. rewrite Ec. split; [reflexivity|]. right. exists u, w', o'. auto. }
    assert (Hw' : (0 <= w')%Z).
    { destruct (H2 u w' o' Ht) as [D|(e0 & Hi & He0)]; [discriminate|]. pose proof (convert_edge_spec B e0) as Y. rewrite He0 in Y. destruct Y as (_ & <- & _). now apply Hpos. }
    exists [(u, None, w', mask_of nobs o')]. split; [|split].
    + constructor; [|constructor]. split; [|exact I]. apply (adj_boundary _ _ _ _ HB). exists w', o'. split; [exact HIn|]. split; [lia|reflexivity].
    + intros k. simpl. rewrite !Nat.add_0_r. destruct (B k) eqn:Bk; simpl.
      * destruct (Nat.eqb_spec u k); [congruence|reflexivity].
      * now rewrite Hends.
    + simpl. lia.
  - exists []. split; [constructor|]. split; [|apply Hpos in He; exact He]. intros k. simpl. destruct (B k) eqn:Bk; simpl; [reflexivity|]. now rewrite X.
Qed.
Lemma degree_app : forall v F F', degree v (F ++ F') = degree v F + degree v F'.
Proof. induction F as [|e F IH]; intros; simpl; [reflexivity|]. rewrite IH. lia. Qed.
Lemma weight_app : forall F F', weight_of (F ++ F') = (weight_of F + weight_of F')%Z.
Proof. induction F as [|[[[u x] w] o] F IH]; intros; simpl; [reflexivity|]. rewrite IH. lia. Qed.
Lemma to_converted : forall F evs, u_explains E B F evs -> (forall v, In v evs -> B v = false) ->
  exists F', explains (adj g) F' evs /\ (weight_of F' <= s_total F)%Z.
Proof.
  intros F evs [HF Hd] Hev.
  assert (X : exists F', Forall (is_edge (adj g)) F' /\ (forall v, Nat.odd (degree v F') = negb (B v) && Nat.odd (s_degree v F)) /\ (weight_of F' <= s_total F)%Z).
  { clear Hd. induction F as [|e F IH].
    - exists []. split; [constructor|]. split; [intros; simpl; now rewrite andb_false_r|simpl; lia].
    - destruct IH as (F' & H1 & H2 & H3); [intros x Hx; apply HF; now right|]. destruct (image e (HF e (or_introl eq_refl))) as (l & L1 & L2 & L3).
      exists (l ++ F'). split; [apply Forall_app; now split|]. split.
      + intros v. rewrite degree_app, Nat.odd_add, L2, H2, s_degree_cons, Nat.odd_add. destruct (B v), (Nat.odd (s_ends v e)), (Nat.odd (s_degree v F)); reflexivity.
      + rewrite weight_app. unfold s_total in *. cbn [fold_right]. lia. }
  destruct X as (F' & H1 & H2 & H3). exists F'. split; [|exact H3]. split; [exact H1|]. intros v. rewrite H2. destruct (B v) eqn:Bv; simpl.
  - split; [discriminate|]. intros Hin. apply Hev in Hin. congruence.
  - now apply Hd.
Qed.

(** Every edge of the matching graph comes from a user edge. *)
Lemma preimage : forall e, is_edge (adj g) e -> exists e0, In e0 E /\ (forall v, B v = false -> s_ends v e0 = ends_at v e) /\
  (forall v, B v = true -> ends_at v e = 0) /\ s_weight e0 = (let '(_, _, w, _) := e in w) /\ (let '(_, _, _, obs) := e0 in mask_of nobs obs) = (let '(_, _, _, o) := e in o).
Proof.
  intros [[[u x] w] m] [Hin Hlt]. destruct (convert B E (fun _ => None)) as [l t'] eqn:Ec. destruct (convert_spec _ _ _ _ _ Ec) as (_ & H2 & _ & _).
  destruct x as [v|].
  - apply (adj_edge _ _ _ _ HB) in Hin as (N & w0 & obs & Hi & -> & ->).
    assert (X : forall a b, In (a, Some b, w0, obs) (convert_all n B E) -> In (a, Some b, w0, obs) E /\ B a = false /\ B b = false).
    { intros a b H. apply convert_all_In in H; [|exact Hrange]. destruct H as (t1 & _ & [(u1 & v1 & w1 & o1 & Eq & H & Bu & Bv)|(u1 & w1 & o1 & Eq & _)]); [|discriminate].
      injection Eq as -> -> -> ->. auto. }
    destruct Hi as [Hi|Hi]; apply X in Hi as (Hi & Ba & Bb); [exists (u, Some v, w0, obs)|exists (v, Some u, w0, obs)]; (split; [exact Hi|]);
      (split; [intros k Hk; simpl; lia|]); (split; [intros k Hk; simpl; destruct (Nat.eqb_spec u k), (Nat.eqb_spec v k); try congruence; reflexivity|]); (split; [apply Hpos in Hi; simpl in *; lia|reflexivity]).
  - apply (adj_boundary _ _ _ _ HB) in Hin as (w0 & obs & Hi & -> & ->). apply convert_all_In in Hi; [|exact Hrange].
    destruct Hi as (t1 & <- & [(u1 & v1 & w1 & o1 & Eq & _)|(u1 & w1 & o1 & Eq & Hu & Ht)]); [discriminate|]. injection Eq as <- <- <-.
    rewrite Ec in Ht. cbn [snd] in Ht. apply H2 in Ht as [D|(e0 & Hi & He0)]; [discriminate|].
    pose proof (convert_edge_spec B e0) as Y. rewrite He0 in Y. destruct Y as (Bu & Ew & _ & (a & x & Ee) & Hends).
    exists e0. split; [exact Hi|]. split; [intros k Hk; rewrite Hends by exact Hk; simpl; now rewrite Nat.add_0_r|].
    split; [intros k Hk; simpl; destruct (Nat.eqb_spec u k); [congruence|reflexivity]|]. subst e0. split; [apply Hpos in Hi; simpl in *; lia|reflexivity].
Qed.
Lemma from_converted : forall F' evs, explains (adj g) F' evs ->
  exists F, u_explains E B F evs /\ s_total F = weight_of F' /\ u_mask nobs F = obs_of F'.
Proof.
  intros F' evs [HF Hd].
  assert (X : exists F, (forall e, In e F -> In e E) /\ (forall v, B v = false -> s_degree v F = degree v F') /\ s_total F = weight_of F' /\ u_mask nobs F = obs_of F').
  { clear Hd. induction F' as [|e F' IH].
    - exists []. split; [intros e []|]. repeat split.
    - inversion HF as [|? ? He HF']; subst. destruct (IH HF') as (F & H1 & H2 & H3 & H4). destruct (preimage e He) as (e0 & P1 & P2 & _ & P3 & P4).
      exists (e0 :: F). split; [intros x [<-|Hx]; auto|]. split; [|split].
      + intros v Hv. rewrite s_degree_cons. cbn [degree]. now rewrite P2, H2.
      + unfold s_total in *. cbn [fold_right]. rewrite P3, H3. destruct e as [[[u x] w] m]. reflexivity.
      + unfold u_mask in *. cbn [fold_right]. rewrite P4, H4. destruct e as [[[u x] w] m]. reflexivity. }
  destruct X as (F & H1 & H2 & H3 & H4). exists F. split; [|now split]. split; [exact H1|]. intros v Hv. rewrite H2 by exact Hv. apply Hd.
Qed.
End C32.

Lemma boundary_conversion : forall nobs n B E g, (forall e, In e E -> in_range n e) -> (forall e, In e E -> (0 <= s_weight e)%Z) ->
  to_matching_graph nobs n B E = Ok g -> forall evs, (forall v, In v evs -> B v = false) ->
  (forall F, u_explains E B F evs -> exists F', explains (adj g) F' evs /\ (weight_of F' <= s_total F)%Z) /\
  (forall F', explains (adj g) F' evs -> exists F, u_explains E B F evs /\ s_total F = weight_of F' /\ u_mask nobs F = obs_of F').
Proof.
  intros nobs n B E g H1 H2 H3 evs H4. split.
  - intros F HF. eapply to_converted; eauto.
  - intros F' HF. eapply from_converted; eauto.
Qed.
