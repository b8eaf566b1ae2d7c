(** Proofs about the user graph. *)
From Coq Require Import Arith List Bool Lia.
From Verif Require Import M_Base M_UserGraph S_UserGraph.
Import ListNotations.

Section Proofs.
Context {N : numops}.
Notation ug := (ugraph N).

Lemma upd_nth_length : forall A (l : list A) i f, length (upd_nth l i f) = length l.
Proof. induction l as [|a l IH]; intros [|i] f; simpl; auto. Qed.

Lemma upd_nth_nth_error : forall A (l : list A) i f j,
  nth_error (upd_nth l i f) j = if j =? i then option_map f (nth_error l j) else nth_error l j.
Proof.
  induction l as [|a l IH]; intros [|i] f [|j]; simpl; auto.
  destruct (j =? i); reflexivity.
Qed.

Lemma upd_nth_nth : forall A (l : list A) i f j d, i < length l ->
  nth j (upd_nth l i f) d = if j =? i then f (nth j l d) else nth j l d.
Proof.
  induction l as [|a l IH]; intros [|i] f [|j] d H; simpl in *; try lia; auto.
  apply IH; lia.
Qed.

Lemma resize_length : forall ns k, length (resize ns k) = Nat.max (length ns) k.
Proof. intros. unfold resize. rewrite app_length, repeat_length. lia. Qed.

Lemma resize_node : forall ns k u, node_at (resize ns k) u = node_at ns u.
Proof.
  intros. unfold node_at, resize. destruct (Nat.lt_ge_cases u (length ns)).
  - rewrite app_nth1 by exact H. reflexivity.
  - rewrite app_nth2 by exact H. rewrite (nth_overflow ns) by exact H.
    destruct (Nat.lt_ge_cases (u - length ns) (k - length ns)).
    + apply (repeat_spec (k - length ns)), nth_In. rewrite repeat_length. exact H0.
    + apply nth_overflow. rewrite repeat_length. exact H0.
Qed.

Lemma opt_eqb_eq : forall a b, opt_eqb a b = true <-> a = b.
Proof.
  intros [a|] [b|]; simpl; split; intros H; try discriminate; try reflexivity.
  - apply Nat.eqb_eq in H. congruence.
  - injection H as ->. apply Nat.eqb_refl.
Qed.

(** The adjacency invariant *)
Definition touches (e : uedge N) (u : nat) (pos : bool) : Prop :=
  if pos then node1 e = u else node2 e = Some u /\ node1 e <> u.

Definition adj_ok (ns : list unode) (es : list (uedge N)) : Prop :=
  forall u i pos, u < length ns ->
    (In (i, pos) (nbrs (node_at ns u)) <-> exists e, nth_error es i = Some e /\ touches e u pos).

Definition nodes_ok (ns : list unode) (es : list (uedge N)) : Prop :=
  forall e, In e es -> node1 e < length ns /\ forall v, node2 e = Some v -> v < length ns.

Definition Inv (g : ug) : Prop := adj_ok (nodes g) (edges g) /\ nodes_ok (nodes g) (edges g) /\ simple g.

Lemma find_some : forall es l v idx, index_of_neighbor es l v = Some idx ->
  nbr_is (N := N) es v (nth idx l (0, true)) = true /\ idx < length l.
Proof.
  induction l as [|nb l IH]; intros v idx H; simpl in H; [discriminate|].
  destruct (nbr_is es v nb) eqn:E.
  - injection H as <-. split; [exact E|simpl; lia].
  - destruct (index_of_neighbor es l v) as [k|] eqn:Ek; [|discriminate]. injection H as <-.
    destruct (IH _ _ Ek). split; [assumption|simpl; lia].
Qed.

Lemma find_none : forall es l v, index_of_neighbor es l v = None ->
  forall nb, In nb l -> nbr_is (N := N) es v nb = false.
Proof.
  induction l as [|nb l IH]; intros v H nb' Hin; simpl in *; [destruct Hin|].
  destruct (nbr_is es v nb) eqn:E; [discriminate|].
  destruct (index_of_neighbor es l v) eqn:Ek; [discriminate|].
  destruct Hin as [<-|Hin]; [exact E|]. eapply IH; eauto.
Qed.

Lemma find_spec : forall ns es u v, adj_ok ns es -> nodes_ok ns es ->
  match index_of_neighbor es (nbrs (node_at ns u)) v with
  | Some idx => exists e, nth_error es (fst (nth idx (nbrs (node_at ns u)) (0, true))) = Some e /\ joins e u v
  | None => forall e, In e es -> ~ joins e u v
  end.
Proof.
  intros ns es u v HA HN. destruct (index_of_neighbor es (nbrs (node_at ns u)) v) as [idx|] eqn:E.
  - destruct (find_some _ _ _ _ E) as [H1 H2].
    assert (Hu : u < length ns).
    { destruct (Nat.lt_ge_cases u (length ns)) as [L|L]; [exact L|].
      unfold node_at in H2. rewrite (nth_overflow ns) in H2 by exact L. simpl in H2. lia. }
    pose proof (nth_In _ (0, true) H2) as Hin.
    destruct (nth idx (nbrs (node_at ns u)) (0, true)) as [i pos].
    apply HA in Hin; [|exact Hu]. destruct Hin as (e & He & Ht).
    unfold nbr_is in H1. simpl fst in *. simpl snd in *. rewrite He in H1.
    exists e. split; [exact He|]. destruct pos; simpl in Ht; apply opt_eqb_eq in H1.
    + left. auto.
    + right. destruct Ht. auto.
  - intros e Hin HJ. apply In_nth_error in Hin. destruct Hin as [i Hi].
    assert (Hu : u < length ns).
    { apply nth_error_In in Hi. destruct (HN e Hi) as [A B]. destruct HJ as [[<- _]|[_ Hb]]; [exact A|apply B; exact Hb]. }
    destruct (Nat.eq_dec (node1 e) u) as [Eu|Eu].
    + assert (Hin : In (i, true) (nbrs (node_at ns u))) by (apply HA; [exact Hu|exists e; split; [exact Hi|exact Eu]]).
      pose proof (find_none _ _ _ E _ Hin) as Hf. unfold nbr_is in Hf. simpl in Hf. rewrite Hi in Hf.
      assert (node2 e = v) as Ev.
      { destruct HJ as [[_ H]|[H1 H2]]; [exact H|]. congruence. }
      apply opt_eqb_eq in Ev. congruence.
    + destruct HJ as [[H _]|[H1 H2]]; [congruence|].
      assert (Hin : In (i, false) (nbrs (node_at ns u))) by (apply HA; [exact Hu|exists e; split; [exact Hi|split; assumption]]).
      pose proof (find_none _ _ _ E _ Hin) as Hf. unfold nbr_is in Hf. simpl fst in Hf. simpl snd in Hf.
      rewrite Hi in Hf. cbv iota in Hf. symmetry in H1. apply opt_eqb_eq in H1. congruence.
Qed.

Lemma joins_sym : forall (e e' : uedge N), joins e (node1 e') (node2 e') -> joins e' (node1 e) (node2 e).
Proof.
  intros e e' [[H1 H2]|[H1 H2]].
  - left. auto.
  - right. auto.
Qed.

Lemma joins_eq : forall (e e' : uedge N) u v, joins e u v -> joins e' u v -> joins e (node1 e') (node2 e').
Proof.
  intros e e' u v [[H1 H2]|[H1 H2]] [[H3 H4]|[H3 H4]]; unfold joins.
  - left; split; congruence.
  - right. split; congruence.
  - right. split; congruence.
  - left. split; congruence.
Qed.

Lemma joins_flip : forall (e : uedge N) u v, joins e u (Some v) <-> joins e v (Some u).
Proof. intros e u v. unfold joins. split; intros [[H1 H2]|[H1 H2]]; [right|left|right|left]; split; congruence. Qed.

Lemma adj_resize : forall ns es k, adj_ok ns es -> nodes_ok ns es -> adj_ok (resize ns k) es.
Proof.
  intros ns es k HA HN u i pos Hu. rewrite resize_node.
  destruct (Nat.lt_ge_cases u (length ns)) as [L|L]; [apply HA; exact L|].
  unfold node_at. rewrite nth_overflow by exact L. simpl. split; [intros []|].
  intros (e & He & Ht). apply nth_error_In in He. destruct (HN e He) as [A B].
  destruct pos; simpl in Ht; [lia|]. destruct Ht as [Ht _]. apply B in Ht. lia.
Qed.

Lemma nodes_resize : forall ns es k, nodes_ok ns es -> nodes_ok (resize ns k) es.
Proof.
  intros ns es k HN e He. destruct (HN e He) as [A B]. rewrite resize_length. split; [lia|].
  intros v Hv. apply B in Hv. lia.
Qed.

Lemma nth_error_snoc : forall A (l : list A) a i e, nth_error (l ++ [a]) i = Some e ->
  nth_error l i = Some e \/ (i = length l /\ e = a).
Proof.
  intros A l a i e H. destruct (Nat.lt_ge_cases i (length l)) as [L|L].
  - rewrite nth_error_app1 in H by exact L. auto.
  - rewrite nth_error_app2 in H by exact L. right.
    destruct (i - length l) as [|k] eqn:E; simpl in H; [injection H as <-; split; [lia|reflexivity]|].
    destruct k; discriminate.
Qed.

Lemma nth_error_snoc_old : forall A (l : list A) a i e, nth_error l i = Some e -> nth_error (l ++ [a]) i = Some e.
Proof. intros. rewrite nth_error_app1; [exact H|]. apply nth_error_Some. congruence. Qed.

Lemma nth_error_snoc_new : forall A (l : list A) a, nth_error (l ++ [a]) (length l) = Some a.
Proof. intros. rewrite nth_error_app2, Nat.sub_diag by lia. reflexivity. Qed.

Definition max_node (u : nat) (v : option nat) : nat := match v with Some v => Nat.max u v | None => u end.

(** What [add_or_merge] does, by cases. *)
Lemma add_or_merge_new : forall (g : ug) u v o w p s, Inv g ->
  (forall e, In e (edges g) -> ~ joins e u v) ->
  exists g', add_or_merge g u v o w p s = (g', false) /\ Inv g' /\
    edges g' = edges g ++ [mkE u v o w p] /\ bnodes g' = bnodes g /\ nobs g' = raise_nobs (nobs g) o /\
    allp g' = (if p_outside N p then false else allp g) /\ needs g' = true /\
    length (nodes g') = Nat.max (length (nodes g)) (S (max_node u v)).
Proof.
  intros g u v o w p s (HA & HN & HS) Hno. unfold add_or_merge.
  fold (max_node u v). set (ns := resize (nodes g) (max_node u v + 1)).
  assert (HA' : adj_ok ns (edges g)) by (apply adj_resize; assumption).
  assert (HN' : nodes_ok ns (edges g)) by (apply nodes_resize; assumption).
  pose proof (find_spec ns (edges g) u v HA' HN') as HF.
  destruct (index_of_neighbor (edges g) (nbrs (node_at ns u)) v) as [idx|].
  { destruct HF as (e & He & HJ). apply nth_error_In in He. destruct (Hno e He HJ). }
  clear HF. set (k := length (edges g)).
  assert (Lns : length ns = Nat.max (length (nodes g)) (S (max_node u v))).
  { unfold ns. rewrite resize_length. lia. }
  assert (Hu : u < length ns) by (rewrite Lns; unfold max_node; destruct v; lia).
  set (ns1 := upd_nth ns u (fun x => mkN (nbrs x ++ [(k, true)]) (is_bd x))).
  assert (L1 : length ns1 = length ns) by apply upd_nth_length.
  set (ns2 := match v with
              | Some v => if u =? v then ns1 else upd_nth ns1 v (fun x => mkN (nbrs x ++ [(k, false)]) (is_bd x))
              | None => ns1 end).
  assert (L2 : length ns2 = length ns).
  { unfold ns2. destruct v as [v|]; [|exact L1]. destruct (u =? v); [exact L1|]. rewrite upd_nth_length. exact L1. }
  assert (Hn2 : forall x, x < length ns -> nbrs (node_at ns2 x) = nbrs (node_at ns x) ++
     (if x =? u then [(k, true)] else if opt_eqb v (Some x) then [(k, false)] else [])).
  { intros x Hx.
    assert (H1 : nbrs (node_at ns1 x) = nbrs (node_at ns x) ++ (if x =? u then [(k, true)] else [])).
    { unfold node_at, ns1. rewrite upd_nth_nth by exact Hu. destruct (x =? u); simpl; [reflexivity|].
      rewrite app_nil_r. reflexivity. }
    unfold ns2. destruct v as [v|].
    - destruct (Nat.eqb_spec u v) as [E|E].
      + rewrite H1. destruct (Nat.eqb_spec x u); [reflexivity|]. simpl.
        destruct (Nat.eqb_spec v x); [lia|reflexivity].
      + assert (Hv : v < length ns1) by (rewrite L1, Lns; unfold max_node; lia).
        unfold node_at in *. rewrite upd_nth_nth by exact Hv. simpl.
        rewrite (Nat.eqb_sym v x). destruct (Nat.eqb_spec x v) as [Ev|Ev].
        * subst x. simpl. rewrite H1. destruct (Nat.eqb_spec v u); [lia|]. rewrite app_nil_r. reflexivity.
        * rewrite H1. destruct (x =? u); reflexivity.
    - rewrite H1. destruct (x =? u); reflexivity. }
  eexists. split; [reflexivity|].
  split; [|cbn; repeat split; congruence].
  split; [|split].
  - cbn. intros x i pos Hx. rewrite L2 in Hx. rewrite Hn2 by exact Hx. rewrite in_app_iff, (HA' x i pos Hx).
    split.
    + intros [(e & He & Ht)|Hin].
      * exists e. split; [apply nth_error_snoc_old; exact He|exact Ht].
      * exists (mkE u v o w p). destruct (Nat.eqb_spec x u) as [E|E].
        -- destruct Hin as [[= <- <-]|[]]. split; [apply nth_error_snoc_new|]. simpl. auto.
        -- destruct (opt_eqb v (Some x)) eqn:Ev; [|destruct Hin].
           destruct Hin as [[= <- <-]|[]]. split; [apply nth_error_snoc_new|]. simpl.
           apply opt_eqb_eq in Ev. auto.
    + intros (e & He & Ht). apply nth_error_snoc in He. destruct He as [He|[-> ->]]; [left; exists e; auto|].
      right. destruct pos; simpl in Ht.
      * subst x. rewrite Nat.eqb_refl. left. reflexivity.
      * destruct Ht as [H1 H2]. destruct (Nat.eqb_spec x u); [congruence|].
        rewrite (proj2 (opt_eqb_eq v (Some x)) H1). left. reflexivity.
  - cbn. intros e He. rewrite L2. apply in_app_or in He. destruct He as [He|[<-|[]]]; [apply HN'; exact He|].
    simpl. split; [exact Hu|]. intros v' ->. rewrite Lns. unfold max_node. lia.
  - intros i j e e' Hi Hj HJ. cbn in Hi, Hj.
    apply nth_error_snoc in Hi. apply nth_error_snoc in Hj.
    destruct Hi as [Hi|[-> ->]], Hj as [Hj|[-> ->]].
    + eapply HS; eauto.
    + apply nth_error_In in Hi. destruct (Hno e Hi HJ).
    + apply nth_error_In in Hj. apply joins_sym in HJ. destruct (Hno e' Hj HJ).
    + reflexivity.
Qed.

Lemma resize_same : forall ns k, k <= length ns -> resize ns k = ns.
Proof. intros. unfold resize. replace (k - length ns) with 0 by lia. apply app_nil_r. Qed.

Lemma add_or_merge_old : forall (g : ug) u v o w p s i e, Inv g ->
  nth_error (edges g) i = Some e -> joins e u v ->
  add_or_merge g u v o w p s = merge_edge g i o w p s.
Proof.
  intros g u v o w p s i e (HA & HN & HS) He HJ. unfold add_or_merge. fold (max_node u v).
  assert (Hm : max_node u v + 1 <= length (nodes g)).
  { destruct (HN e (nth_error_In _ _ He)) as [A B]. unfold max_node.
    destruct HJ as [[H1 H2]|[H1 H2]].
    - destruct v as [v|]; [apply B in H2|]; lia.
    - rewrite H1. apply B in H2. lia. }
  rewrite resize_same by exact Hm.
  pose proof (find_spec (nodes g) (edges g) u v HA HN) as HF.
  destruct (index_of_neighbor (edges g) (nbrs (node_at (nodes g) u)) v) as [idx|].
  - destruct HF as (e' & He' & HJ').
    assert (fst (nth idx (nbrs (node_at (nodes g) u)) (0, true)) = i) as ->.
    { eapply HS; eauto. eapply joins_eq; eauto. }
    destruct g; reflexivity.
  - destruct (HF e (nth_error_In _ _ He) HJ).
Qed.

Lemma joins_dec : forall (e : uedge N) u v, {joins e u v} + {~ joins e u v}.
Proof.
  intros e u v. unfold joins.
  assert (D : forall a b : option nat, {a = b} + {a <> b}) by (decide equality; apply Nat.eq_dec).
  destruct (Nat.eq_dec (node1 e) u), (D (node2 e) v), (D v (Some (node1 e))), (D (node2 e) (Some u)); tauto.
Qed.

Lemma find_edge : forall (es : list (uedge N)) u v,
  (exists i e, nth_error es i = Some e /\ joins e u v) \/ (forall e, In e es -> ~ joins e u v).
Proof.
  induction es as [|e es IH]; intros u v; [right; intros ? []|].
  destruct (joins_dec e u v) as [H|H]; [left; exists 0, e; auto|].
  destruct (IH u v) as [(i & e' & Hi & HJ)|Hno]; [left; exists (S i), e'; auto|].
  right. intros e' [<-|Hin]; auto.
Qed.

(** Updating the attributes of one edge keeps the invariant. *)
Lemma Inv_upd : forall (g : ug) i f ns es b n a nd, Inv g -> ns = nodes g -> es = upd_nth (edges g) i f ->
  (forall e, node1 (f e) = node1 e /\ node2 (f e) = node2 e) ->
  Inv (mkG ns es b n a nd).
Proof.
  intros g i f ns es b n a nd (HA & HN & HS) -> -> Hf.
  assert (HB : forall j e', nth_error (upd_nth (edges g) i f) j = Some e' ->
     exists e, nth_error (edges g) j = Some e /\ node1 e' = node1 e /\ node2 e' = node2 e).
  { intros j e' H. rewrite upd_nth_nth_error in H. destruct (j =? i).
    - destruct (nth_error (edges g) j) as [e|]; [|discriminate]. injection H as <-. exists e. destruct (Hf e). auto.
    - exists e'. auto. }
  assert (HF : forall j e, nth_error (edges g) j = Some e ->
     exists e', nth_error (upd_nth (edges g) i f) j = Some e' /\ node1 e' = node1 e /\ node2 e' = node2 e).
  { intros j e H. rewrite upd_nth_nth_error. destruct (j =? i).
    - rewrite H. simpl. exists (f e). destruct (Hf e). auto.
    - exists e. auto. }
  split; [|split]; cbn.
  - intros u j pos Hu. rewrite (HA u j pos Hu). split; intros (e & He & Ht).
    + destruct (HF j e He) as (e' & He' & E1 & E2). exists e'. split; [exact He'|].
      unfold touches in *. rewrite E1, E2. exact Ht.
    + destruct (HB j e He) as (e' & He' & E1 & E2). exists e'. split; [exact He'|].
      unfold touches in *. rewrite <- E1, <- E2. exact Ht.
  - intros e He. apply In_nth_error in He. destruct He as [j Hj]. destruct (HB j e Hj) as (e' & He' & E1 & E2).
    rewrite E1, E2. apply HN. eapply nth_error_In; eauto.
  - intros j k e e' Hj Hk HJ. destruct (HB j e Hj) as (e1 & He1 & E1 & E2). destruct (HB k e' Hk) as (e2 & He2 & E3 & E4).
    eapply HS; eauto. unfold joins in *. rewrite <- E1, <- E2, <- E3, <- E4. exact HJ.
Qed.

Lemma merge_inv : forall (g : ug) i o w p s, Inv g -> Inv (fst (merge_edge g i o w p s)).
Proof.
  intros g i o w p s HI. unfold merge_edge. destruct (nth_error (edges g) i) as [e|]; [|exact HI].
  destruct s; cbn [fst]; try exact HI.
  - eapply Inv_upd; eauto.
  - destruct (w_ge N w (weight e)); [exact HI|]. cbn [fst]. eapply Inv_upd; eauto.
  - eapply Inv_upd; eauto.
Qed.

Lemma merge_shape : forall (g : ug) i o w p s, let g' := fst (merge_edge g i o w p s) in
  nodes g' = nodes g /\ bnodes g' = bnodes g /\ nobs g' = nobs g /\
  map (fun e => (node1 e, node2 e)) (edges g') = map (fun e => (node1 e, node2 e)) (edges g).
Proof.
  intros g i o w p s.
  assert (HM : forall (es : list (uedge N)) j f, (forall e, node1 (f e) = node1 e /\ node2 (f e) = node2 e) ->
    map (fun e => (node1 e, node2 e)) (upd_nth es j f) = map (fun e => (node1 e, node2 e)) es).
  { induction es as [|e es IH]; intros [|j] f Hf; simpl; auto.
    - destruct (Hf e) as [-> ->]. reflexivity.
    - f_equal. apply IH. exact Hf. }
  unfold merge_edge. destruct (nth_error (edges g) i) as [e|]; [|cbn; auto].
  destruct s; cbn [fst]; cbn; try (repeat split; reflexivity).
  - repeat split; try reflexivity. apply HM. intros; split; reflexivity.
  - destruct (w_ge N w (weight e)); cbn; repeat split; try reflexivity. apply HM. intros; split; reflexivity.
  - repeat split; try reflexivity. apply HM. intros; split; reflexivity.
Qed.

(** Boundary nodes *)
Lemma set_flag_props : forall b ns u,
  length (set_flag b ns u) = length ns /\ forall x, nbrs (node_at (set_flag b ns u) x) = nbrs (node_at ns x).
Proof.
  intros b ns u. split; [apply upd_nth_length|]. intros x. unfold set_flag, node_at.
  destruct (Nat.lt_ge_cases u (length ns)) as [L|L].
  - rewrite upd_nth_nth by exact L. destruct (x =? u); reflexivity.
  - assert (upd_nth ns u (fun x => mkN (nbrs x) b) = ns) as ->; [|reflexivity].
    revert u L. induction ns as [|a ns IH]; intros [|u] L; simpl in *; try reflexivity; try lia.
    f_equal. apply IH. lia.
Qed.

Lemma clear_flags_props : forall bs ns,
  length (fold_left (set_flag false) bs ns) = length ns /\
  forall x, nbrs (node_at (fold_left (set_flag false) bs ns) x) = nbrs (node_at ns x).
Proof.
  induction bs as [|b bs IH]; intros ns; simpl; [auto|].
  destruct (IH (set_flag false ns b)) as [H1 H2]. destruct (set_flag_props false ns b) as [H3 H4].
  split; [congruence|]. intros x. rewrite H2, H4. reflexivity.
Qed.

Definition mark (ns : list unode) (u : nat) : list unode :=
  set_flag true (if length ns <=? u then resize ns (u + 1) else ns) u.

Lemma mark_props : forall ns u,
  length (mark ns u) = Nat.max (length ns) (S u) /\ forall x, nbrs (node_at (mark ns u) x) = nbrs (node_at ns x).
Proof.
  intros ns u. unfold mark. destruct (Nat.leb_spec (length ns) u) as [L|L].
  - destruct (set_flag_props true (resize ns (u + 1)) u) as [H1 H2]. split.
    + rewrite H1, resize_length. lia.
    + intros x. rewrite H2, resize_node. reflexivity.
  - destruct (set_flag_props true ns u) as [H1 H2]. split; [rewrite H1; lia|exact H2].
Qed.

Lemma marks_props : forall bs ns,
  length (fold_left mark bs ns) = Nat.max (length ns) (fold_right (fun u k => Nat.max (S u) k) 0 bs) /\
  forall x, nbrs (node_at (fold_left mark bs ns) x) = nbrs (node_at ns x).
Proof.
  induction bs as [|b bs IH]; intros ns; cbn [fold_left fold_right]; [split; [lia|auto]|].
  destruct (IH (mark ns b)) as [H1 H2]. destruct (mark_props ns b) as [H3 H4]. split.
  - rewrite H1, H3. lia.
  - intros x. rewrite H2, H4. reflexivity.
Qed.

Lemma set_boundary_props : forall (g : ug) b, let g' := set_boundary g b in
  edges g' = edges g /\ nobs g' = nobs g /\ allp g' = allp g /\
  length (nodes g') = Nat.max (length (nodes g)) (nodes_needed (N := N) (OpSetBoundary b)) /\
  forall x, nbrs (node_at (nodes g') x) = nbrs (node_at (nodes g) x).
Proof.
  intros g b g'.
  assert (E : nodes g' = fold_left mark b (fold_left (set_flag false) (bnodes g) (nodes g))) by reflexivity.
  rewrite E. split; [reflexivity|]. split; [reflexivity|]. split; [reflexivity|]. split.
  - rewrite (proj1 (marks_props _ _)), (proj1 (clear_flags_props _ _)). reflexivity.
  - intros x. rewrite (proj2 (marks_props _ _)), (proj2 (clear_flags_props _ _)). reflexivity.
Qed.

Lemma set_boundary_inv : forall (g : ug) b, Inv g -> Inv (set_boundary g b).
Proof.
  intros g b (HA & HN & HS). destruct (set_boundary_props g b) as (E1 & _ & _ & L & Hn).
  split; [|split].
  - intros u i pos Hu. rewrite Hn, E1.
    destruct (Nat.lt_ge_cases u (length (nodes g))) as [H|H]; [apply HA; exact H|].
    unfold node_at. rewrite nth_overflow by exact H. simpl. split; [intros []|].
    intros (e & He & Ht). destruct (HN e (nth_error_In _ _ He)) as [A B].
    destruct pos; simpl in Ht; [lia|]. destruct Ht as [Ht _]. apply B in Ht. lia.
  - intros e He. rewrite E1 in He. destruct (HN e He) as [A B]. rewrite L. split; [lia|].
    intros v Hv. apply B in Hv. lia.
  - unfold simple. rewrite E1. exact HS.
Qed.

Lemma new_inv : forall n k, Inv (new_graph N n k).
Proof.
  intros n k. split; [|split].
  - intros u i pos Hu. cbn in *. unfold node_at. rewrite repeat_length in Hu.
    rewrite (repeat_spec n (mkN [] false) (nth u (repeat (mkN [] false) n) (mkN [] false))).
    + simpl. split; [intros []|]. intros (e & He & _). destruct i; discriminate.
    + apply nth_In. rewrite repeat_length. exact Hu.
  - intros e [].
  - intros i j e e' H. destruct i; discriminate.
Qed.

Lemma py_add_inv : forall (g : ug) u v o w p s, Inv g -> Inv (fst (py_add g u v o w p s)).
Proof.
  intros g u v o w p s HI. unfold py_add. destruct (w_exceeds N w); [exact HI|].
  destruct (find_edge (edges g) u v) as [(i & e & Hi & HJ)|Hno].
  - rewrite (add_or_merge_old g u v o w p s i e HI Hi HJ). apply merge_inv. exact HI.
  - destruct (add_or_merge_new g u v o w p s HI Hno) as (g' & -> & HI' & _). exact HI'.
Qed.

Lemma apply_op_inv : forall (g : ug) x, Inv g -> Inv (apply_op g x).
Proof.
  intros g [u v o w p s|b|n] HI; cbn [apply_op].
  - apply py_add_inv. exact HI.
  - apply set_boundary_inv. exact HI.
  - destruct HI as (HA & HN & HS). split; [|split]; assumption.
Qed.

Lemma run_inv : forall ops (g : ug), Inv g -> Inv (run g ops).
Proof. induction ops as [|x ops IH]; intros g HI; [exact HI|]. apply IH, apply_op_inv, HI. Qed.

Lemma has_edge_spec : forall (g : ug) u v, Inv g ->
  (has_edge g u v = true <-> exists e, In e (edges g) /\ joins e u v).
Proof.
  intros g u v (HA & HN & HS). unfold has_edge.
  pose proof (find_spec (nodes g) (edges g) u v HA HN) as HF.
  destruct (Nat.leb_spec (length (nodes g)) u) as [L|L].
  - split; [discriminate|]. intros (e & He & HJ). destruct (HN e He) as [A B].
    destruct HJ as [[H1 H2]|[H1 H2]]; [lia|]. apply B in H2. lia.
  - destruct (index_of_neighbor _ _ _) as [idx|].
    + destruct HF as (e & He & HJ). split; [|reflexivity]. intros _. exists e. split; [eapply nth_error_In; eauto|exact HJ].
    + split; [discriminate|]. intros (e & He & HJ). destruct (HF e He HJ).
Qed.

Lemma get_edge_data_spec : forall (g : ug) u v a, Inv g ->
  (get_edge_data g u v = Some a <-> exists e, In e (edges g) /\ joins e u v /\ a = attributes_of e).
Proof.
  intros g u v a (HA & HN & HS). unfold get_edge_data.
  pose proof (find_spec (nodes g) (edges g) u v HA HN) as HF.
  destruct (Nat.leb_spec (length (nodes g)) u) as [L|L].
  - split; [discriminate|]. intros (e & He & HJ & _). destruct (HN e He) as [A B].
    destruct HJ as [[H1 H2]|[H1 H2]]; [lia|]. apply B in H2. lia.
  - destruct (index_of_neighbor _ _ _) as [idx|].
    + destruct HF as (e & He & HJ). rewrite He. split.
      * intros [= <-]. exists e. split; [eapply nth_error_In; eauto|auto].
      * intros (e' & He' & HJ' & ->). apply In_nth_error in He'. destruct He' as [j Hj].
        assert (fst (nth idx (nbrs (node_at (nodes g) u)) (0, true)) = j) as E.
        { eapply HS; eauto. eapply joins_eq; eauto. }
        rewrite E in He. rewrite He in Hj. injection Hj as ->. reflexivity.
    + split; [discriminate|]. intros (e & He & HJ & _). destruct (HF e He HJ).
Qed.

Lemma joins_key : forall (e e' : uedge N) u v, node1 e = node1 e' -> node2 e = node2 e' -> joins e u v -> joins e' u v.
Proof. intros e e' u v H1 H2. unfold joins. rewrite H1, H2. auto. Qed.

Lemma map_key_In : forall (es es' : list (uedge N)) u v,
  map (fun e => (node1 e, node2 e)) es = map (fun e => (node1 e, node2 e)) es' ->
  (exists e, In e es /\ joins e u v) -> exists e, In e es' /\ joins e u v.
Proof.
  intros es es' u v H (e & He & HJ).
  assert (Hin : In (node1 e, node2 e) (map (fun e => (node1 e, node2 e)) es')).
  { rewrite <- H. apply (in_map (fun e => (node1 e, node2 e)) es e He). }
  apply in_map_iff in Hin. destruct Hin as (e' & E & He'). injection E as E1 E2.
  exists e'. split; [exact He'|]. eapply joins_key; [| |exact HJ]; auto.
Qed.

Definition call_adds (x : op N) (u : nat) (v : option nat) : Prop := added [x] u v.

Lemma added_cons : forall x ops u v, added (x :: ops) u v <-> call_adds x u v \/ @added N ops u v.
Proof.
  intros x ops u v. unfold call_adds, added. split.
  - intros (u' & v' & o & w & p & s & [->|H] & H').
    + left. exists u', v', o, w, p, s. split; [left; reflexivity|exact H'].
    + right. exists u', v', o, w, p, s. auto.
  - intros [(u' & v' & o & w & p & s & [->|[]] & H')|(u' & v' & o & w & p & s & H & H')];
      exists u', v', o, w, p, s; simpl; auto.
Qed.

Lemma step_edges : forall (g : ug) x u v, Inv g ->
  ((exists e, In e (edges (apply_op g x)) /\ joins e u v) <->
   (exists e, In e (edges g) /\ joins e u v) \/ call_adds x u v).
Proof.
  intros g x u v HI. destruct x as [u' v' o w p s|b|n]; cbn [apply_op].
  - unfold py_add. destruct (w_exceeds N w) eqn:Ew.
    { cbn [fst]. split; [auto|]. intros [H|H]; [exact H|].
      destruct H as (a & b & o' & w' & p' & s' & [E|[]] & H & _). injection E as <- <- <- <- <- <-. congruence. }
    assert (Hc : call_adds (OpAdd u' v' o w p s) u v <-> ((u' = u /\ v' = v) \/ (v = Some u' /\ v' = Some u))).
    { split.
      - intros (a & b & o' & w' & p' & s' & [E|[]] & _ & H). injection E as <- <- <- <- <- <-. exact H.
      - intros H. exists u', v', o, w, p, s. split; [left; reflexivity|]. split; [exact Ew|exact H]. }
    rewrite Hc.
    destruct (find_edge (edges g) u' v') as [(i & e & Hi & HJ)|Hno].
    + rewrite (add_or_merge_old g u' v' o w p s i e HI Hi HJ).
      destruct (merge_shape g i o w p s) as (_ & _ & _ & HM). cbv zeta in HM. split.
      * intros H. left. eapply map_key_In; [exact HM|exact H].
      * intros [H|H]; [eapply map_key_In; [symmetry; exact HM|exact H]|].
        eapply map_key_In; [symmetry; exact HM|]. exists e. split; [eapply nth_error_In; eauto|].
        destruct H as [[<- <-]|[-> ->]]; [exact HJ|]. apply joins_flip. exact HJ.
    + destruct (add_or_merge_new g u' v' o w p s HI Hno) as (g' & -> & _ & Ee & _). cbn [fst]. rewrite Ee. split.
      * intros (e & He & HJ). apply in_app_or in He. destruct He as [He|[<-|[]]]; [left; exists e; auto|].
        right. destruct HJ as [[H1 H2]|[H1 H2]]; cbn in *; [left|right]; auto.
      * intros [(e & He & HJ)|H].
        -- exists e. split; [apply in_or_app; auto|exact HJ].
        -- exists (mkE u' v' o w p). split; [apply in_or_app; right; left; reflexivity|].
           destruct H as [[<- <-]|[-> ->]]; [left; auto|right; auto].
  - destruct (set_boundary_props g b) as (E & _). rewrite E. split; [auto|]. intros [H|H]; [exact H|].
    destruct H as (a & b' & o' & w' & p' & s' & [H|[]] & _). discriminate.
  - split; [auto|]. intros [H|H]; [exact H|].
    destruct H as (a & b' & o' & w' & p' & s' & [H|[]] & _). discriminate.
Qed.

Lemma run_edges : forall ops (g : ug) u v, Inv g ->
  ((exists e, In e (edges (run g ops)) /\ joins e u v) <-> (exists e, In e (edges g) /\ joins e u v) \/ added ops u v).
Proof.
  induction ops as [|x ops IH]; intros g u v HI.
  - split; [auto|]. intros [H|H]; [exact H|]. destruct H as (a & b' & o' & w' & p' & s' & [] & _).
  - cbn [run fold_left]. change (fold_left apply_op ops (apply_op g x)) with (run (apply_op g x) ops).
    rewrite IH by (apply apply_op_inv; exact HI). rewrite step_edges by exact HI. rewrite added_cons. tauto.
Qed.

Lemma step_nodes : forall (g : ug) x, Inv g ->
  length (nodes (apply_op g x)) = Nat.max (length (nodes g)) (nodes_needed x).
Proof.
  intros g x HI. destruct x as [u v o w p s|b|n]; cbn [apply_op].
  - unfold py_add, nodes_needed. destruct (w_exceeds N w); [cbn; lia|].
    destruct (find_edge (edges g) u v) as [(i & e & Hi & HJ)|Hno].
    + rewrite (add_or_merge_old g u v o w p s i e HI Hi HJ).
      destruct (merge_shape g i o w p s) as (-> & _).
      destruct HI as (_ & HN & _). destruct (HN e (nth_error_In _ _ Hi)) as [A B].
      destruct HJ as [[H1 H2]|[H1 H2]].
      * destruct v as [v|]; [apply B in H2|]; lia.
      * rewrite H1. apply B in H2. lia.
    + destruct (add_or_merge_new g u v o w p s HI Hno) as (g' & -> & _ & _ & _ & _ & _ & _ & L). cbn [fst].
      rewrite L. unfold max_node. destruct v; reflexivity.
  - apply (set_boundary_props g b).
  - cbn. lia.
Qed.

Lemma run_nodes : forall ops (g : ug), Inv g ->
  length (nodes (run g ops)) = fold_left Nat.max (map nodes_needed ops) (length (nodes g)).
Proof.
  induction ops as [|x ops IH]; intros g HI; [reflexivity|].
  change (run g (x :: ops)) with (run (apply_op g x) ops). rewrite IH by (apply apply_op_inv; exact HI).
  rewrite step_nodes by exact HI. reflexivity.
Qed.

(** C25 *)
Lemma user_graph_simple : forall n k ops, let g := run (new_graph N n k) ops in
  simple g /\
  (forall u v, has_edge g u v = true <-> added ops u v) /\
  (forall u v, has_edge g u (Some v) = has_edge g v (Some u)) /\
  (forall u v, get_edge_data g u (Some v) = get_edge_data g v (Some u)) /\
  (forall u v a, get_edge_data g u v = Some a <-> exists e, In e (edges g) /\ joins e u v /\ a = attributes_of e) /\
  num_nodes g = fold_left Nat.max (map nodes_needed ops) n.
Proof.
  intros n k ops g. assert (HI : Inv g) by apply run_inv, new_inv.
  assert (Hadd : forall u v, has_edge g u v = true <-> added ops u v).
  { intros u v. rewrite has_edge_spec by exact HI. unfold g. rewrite run_edges by apply new_inv.
    split; [intros [(e & [] & _)|H]; exact H|auto]. }
  split; [apply HI|]. split; [exact Hadd|]. split; [|split; [|split]].
  - intros u v. destruct (has_edge g u (Some v)) eqn:E1, (has_edge g v (Some u)) eqn:E2; try reflexivity.
    + apply has_edge_spec in E1; [|exact HI]. destruct E1 as (e & He & HJ).
      assert (has_edge g v (Some u) = true); [|congruence]. apply has_edge_spec; [exact HI|].
      exists e. split; [exact He|]. apply joins_flip. exact HJ.
    + apply has_edge_spec in E2; [|exact HI]. destruct E2 as (e & He & HJ).
      assert (has_edge g u (Some v) = true); [|congruence]. apply has_edge_spec; [exact HI|].
      exists e. split; [exact He|]. apply joins_flip. exact HJ.
  - intros u v.
    assert (H : forall u v a, get_edge_data g u (Some v) = Some a -> get_edge_data g v (Some u) = Some a).
    { intros u' v' a H. apply get_edge_data_spec in H; [|exact HI]. apply get_edge_data_spec; [exact HI|].
      destruct H as (e & He & HJ & Ha). exists e. split; [exact He|]. split; [apply joins_flip; exact HJ|exact Ha]. }
    destruct (get_edge_data g u (Some v)) as [a|] eqn:E1.
    + symmetry. apply H. exact E1.
    + destruct (get_edge_data g v (Some u)) as [a|] eqn:E2; [|reflexivity]. apply H in E2. congruence.
  - intros u v a. apply get_edge_data_spec. exact HI.
  - unfold num_nodes, g. rewrite run_nodes by apply new_inv. cbn. rewrite repeat_length. reflexivity.
Qed.

(** C26 *)
Lemma upd_changed : forall (g : ug) i e u v f b a, Inv g ->
  nth_error (edges g) i = Some e -> joins e u v ->
  (forall e, node1 (f e) = node1 e /\ node2 (f e) = node2 e) ->
  only_edge_changed g (mkG (nodes g) (upd_nth (edges g) i f) (bnodes g) (nobs g) b a) u v (attributes_of (f e)).
Proof.
  intros g i e u v f b a (HA & HN & HS) Hi HJ Hf. unfold only_edge_changed. cbn.
  split; [reflexivity|]. split; [reflexivity|]. split; [reflexivity|]. split; [apply upd_nth_length|].
  intros j e0 Hj. rewrite upd_nth_nth_error. destruct (Nat.eqb_spec j i) as [E|E].
  - subst j. rewrite Hi in *. injection Hj as <-. exists (f e). destruct (Hf e) as [H1 H2].
    split; [reflexivity|]. split; [exact H1|]. split; [exact H2|]. left. auto.
  - exists e0. split; [exact Hj|]. split; [reflexivity|]. split; [reflexivity|]. right. split; [|reflexivity].
    intros HJ'. apply E. eapply HS; eauto. eapply joins_eq; eauto.
Qed.

Lemma merge_strategies : forall n k ops u v o w p s e, let g := run (new_graph N n k) ops in
  w_exceeds N w = false -> In e (edges g) -> joins e u v ->
  let r := py_add g u v o w p s in
  match s with
  | DISALLOW => r = (g, true)
  | KEEP_ORIGINAL => r = (g, false)
  | SMALLEST_WEIGHT =>
      if w_ge N w (weight e) then r = (g, false)
      else snd r = false /\ only_edge_changed g (fst r) u v (o, w, p)
  | REPLACE => snd r = false /\ only_edge_changed g (fst r) u v (o, w, p)
  | INDEPENDENT =>
      snd r = false /\
      only_edge_changed g (fst r) u v
        (obs e, w_merge N w (weight e),
         if p_valid N (prob e) && p_valid N p then p_xor N p (prob e) else p_none N)
  end.
Proof.
  intros n k ops u v o w p s e g Hw He HJ r.
  assert (HI : Inv g) by apply run_inv, new_inv.
  apply In_nth_error in He. destruct He as [i Hi].
  assert (Hr : r = merge_edge g i o w p s).
  { unfold r, py_add. rewrite Hw. eapply add_or_merge_old; eauto. }
  rewrite Hr. clear r Hr. unfold merge_edge. rewrite Hi.
  destruct s; try reflexivity.
  - split; [reflexivity|]. cbn [fst].
    apply (upd_changed g i e u v (fun e0 => mkE (node1 e0) (node2 e0) (obs e0) (w_merge N w (weight e))
      (if p_valid N (prob e) && p_valid N p then p_xor N p (prob e) else p_none N)) _ _ HI Hi HJ); intros; split; reflexivity.
  - destruct (w_ge N w (weight e)); [reflexivity|]. split; [reflexivity|]. cbn [fst].
    apply (upd_changed g i e u v (fun e => mkE (node1 e) (node2 e) o w p) _ _ HI Hi HJ); intros; split; reflexivity.
  - split; [reflexivity|]. cbn [fst].
    apply (upd_changed g i e u v (fun e => mkE (node1 e) (node2 e) o w p) _ _ HI Hi HJ); intros; split; reflexivity.
Qed.

(** C26, new edge *)
Lemma add_new_edge : forall n k ops u v o w p s, let g := run (new_graph N n k) ops in
  w_exceeds N w = false -> (forall e, In e (edges g) -> ~ joins e u v) ->
  exists g', py_add g u v o w p s = (g', false) /\ edges g' = edges g ++ [mkE u v o w p] /\ bnodes g' = bnodes g.
Proof.
  intros n k ops u v o w p s g Hw Hno. unfold py_add. rewrite Hw.
  destruct (add_or_merge_new g u v o w p s (run_inv ops _ (new_inv n k)) Hno) as (g' & E & _ & Ee & Eb & _).
  exists g'. auto.
Qed.

(** C27 *)
Lemma raise_nobs_ge : forall o n, n <= raise_nobs n o /\ forall x, In x o -> x < raise_nobs n o.
Proof.
  unfold raise_nobs. induction o as [|y o IH]; intros n; [split; [simpl; lia|intros ? []]|].
  cbn [fold_left]. destruct (IH (if n <? y + 1 then y + 1 else n)) as [H1 H2].
  set (r := fold_left _ o _) in *.
  destruct (Nat.ltb_spec n (y + 1)); split; try lia; intros x [<-|Hx]; try lia; apply H2; exact Hx.
Qed.

Lemma in_upd_nth : forall A (l : list A) i f x, In x (upd_nth l i f) -> In x l \/ exists y, In y l /\ x = f y.
Proof.
  induction l as [|a l IH]; intros [|i] f x H; simpl in *; try tauto.
  - destruct H as [<-|H]; [right; exists a; auto|auto].
  - destruct H as [<-|H]; [auto|]. destruct (IH i f x H) as [H'|(y & H1 & H2)]; [auto|]. right. exists y. auto.
Qed.

Lemma step_fault_ids : forall (g : ug) x, Inv g -> fault_ids_in_range g -> safe_op g x -> fault_ids_in_range (apply_op g x).
Proof.
  intros g x HI HR HS. destruct x as [u v o w p s|b|n]; cbn [apply_op].
  - unfold py_add. destruct (w_exceeds N w); [exact HR|].
    destruct (find_edge (edges g) u v) as [(i & e & Hi & HJ)|Hno].
    + rewrite (add_or_merge_old g u v o w p s i e HI Hi HJ).
      unfold merge_edge. rewrite Hi. cbn in HS.
      destruct s; cbn [fst]; try exact HR.
      * intros e' x He' Hx. cbn in *. apply in_upd_nth in He'. destruct He' as [He'|(y & Hy & ->)]; [eapply HR; eauto|].
        cbn in Hx. eapply HR; eauto.
      * destruct (w_ge N w (weight e)); [exact HR|]. cbn [fst].
        intros e' x He' Hx. cbn in *. apply in_upd_nth in He'. destruct He' as [He'|(y & Hy & ->)]; [eapply HR; eauto|].
        cbn in Hx. apply HS; auto.
      * intros e' x He' Hx. cbn in *. apply in_upd_nth in He'. destruct He' as [He'|(y & Hy & ->)]; [eapply HR; eauto|].
        cbn in Hx. apply HS; auto.
    + destruct (add_or_merge_new g u v o w p s HI Hno) as (g' & -> & _ & Ee & _ & En & _). cbn [fst].
      intros e x He Hx. rewrite Ee in He. rewrite En. destruct (raise_nobs_ge o (nobs g)) as [H1 H2].
      apply in_app_or in He. destruct He as [He|[<-|[]]]; [|apply H2; exact Hx].
      specialize (HR e x He Hx). lia.
  - destruct (set_boundary_props g b) as (E1 & E2 & _). intros e x. rewrite E1, E2. apply HR.
  - intros e x He Hx. unfold set_min_num_observables in *. cbn [nobs edges] in *. specialize (HR e x He Hx). destruct (Nat.ltb_spec (nobs g) n); lia.
Qed.

Lemma run_fault_ids : forall ops (g : ug), Inv g -> fault_ids_in_range g -> safe_ops g ops -> fault_ids_in_range (run g ops).
Proof.
  induction ops as [|x ops IH]; intros g HI HR HS; [exact HR|].
  destruct HS as [H1 H2]. change (run g (x :: ops)) with (run (apply_op g x) ops).
  apply IH; [apply apply_op_inv; exact HI|apply step_fault_ids; assumption|exact H2].
Qed.

Lemma fault_ids_ok : forall n k ops, safe_ops (new_graph N n k) ops -> fault_ids_in_range (run (new_graph N n k) ops).
Proof. intros. apply run_fault_ids; [apply new_inv|intros e x []|assumption]. Qed.

(** C30 *)
Definition probs_ok (g : ug) : Prop := allp g = true -> forall e, In e (edges g) -> p_outside N (prob e) = false.

Lemma step_probs : forall (g : ug) x, Inv g -> probs_ok g -> probs_ok (apply_op g x).
Proof.
  intros g x HI HR. destruct x as [u v o w p s|b|n]; cbn [apply_op].
  - unfold py_add. destruct (w_exceeds N w); [exact HR|].
    destruct (find_edge (edges g) u v) as [(i & e & Hi & HJ)|Hno].
    + rewrite (add_or_merge_old g u v o w p s i e HI Hi HJ).
      unfold merge_edge. rewrite Hi.
      assert (Hst : forall f np b, (forall e, prob (f e) = np) ->
        probs_ok (mkG (nodes g) (upd_nth (edges g) i f) (bnodes g) (nobs g) (if p_outside N np then false else allp g) b)).
      { intros f np b Hf Ha e' He'. cbn in *. destruct (p_outside N np) eqn:E; [discriminate|].
        apply in_upd_nth in He'. destruct He' as [He'|(y & Hy & ->)]; [apply HR; assumption|]. rewrite Hf. exact E. }
      destruct s; cbn [fst]; try exact HR.
      * apply Hst. reflexivity.
      * destruct (w_ge N w (weight e)); [exact HR|]. apply Hst. reflexivity.
      * apply Hst. reflexivity.
    + destruct (add_or_merge_new g u v o w p s HI Hno) as (g' & -> & _ & Ee & _ & _ & Ea & _). cbn [fst].
      intros Ha e He. rewrite Ee in He. rewrite Ea in Ha. destruct (p_outside N p) eqn:E; [discriminate|].
      apply in_app_or in He. destruct He as [He|[<-|[]]]; [apply HR; assumption|exact E].
  - destruct (set_boundary_props g b) as (E1 & _ & E3 & _). intros Ha e He. rewrite E1 in He. rewrite E3 in Ha.
    apply HR; assumption.
  - exact HR.
Qed.

Lemma run_probs : forall ops (g : ug), Inv g -> probs_ok g -> probs_ok (run g ops).
Proof.
  induction ops as [|x ops IH]; intros g HI HR; [exact HR|].
  change (run g (x :: ops)) with (run (apply_op g x) ops).
  apply IH; [apply apply_op_inv; exact HI|apply step_probs; assumption].
Qed.

Lemma flag_implies_probabilities :
  (forall p, p_valid N p = negb (p_outside N p)) ->
  forall n k ops, let g := run (new_graph N n k) ops in allp g = true -> every_edge_has_probability g.
Proof.
  intros HV n k ops g Ha e He. rewrite HV.
  rewrite (run_probs ops (new_graph N n k) (new_inv n k)) with (e := e); auto. intros _ e' [].
Qed.

Lemma step_flag : forall (g : ug) x,
  (forall p, p_valid N p = negb (p_outside N p)) ->
  (forall p q, p_valid N p = true -> p_valid N q = true -> p_valid N (p_xor N p q) = true) ->
  Inv g -> allp g = true -> op_prob_ok x -> every_edge_has_probability g ->
  allp (apply_op g x) = true /\ every_edge_has_probability (apply_op g x).
Proof.
  intros g x HV HX HI Ha Hp HE.
  assert (Hout : forall p, p_valid N p = true -> p_outside N p = false).
  { intros p H. rewrite HV in H. destruct (p_outside N p); [discriminate|reflexivity]. }
  destruct x as [u v o w p s|b|n]; cbn [apply_op]; cbn in Hp.
  - unfold py_add. destruct (w_exceeds N w); [auto|].
    destruct (find_edge (edges g) u v) as [(i & e & Hi & HJ)|Hno].
    + rewrite (add_or_merge_old g u v o w p s i e HI Hi HJ).
      unfold merge_edge. rewrite Hi.
      assert (Hst : forall f np, p_valid N np = true -> (forall e, prob (f e) = np) ->
        let g' := mkG (nodes g) (upd_nth (edges g) i f) (bnodes g) (nobs g) (if p_outside N np then false else allp g) true in
        allp g' = true /\ every_edge_has_probability g').
      { intros f np Hnp Hf. cbn. rewrite (Hout np Hnp). split; [exact Ha|]. intros e' He'. cbn in He'.
        apply in_upd_nth in He'. destruct He' as [He'|(y & Hy & ->)]; [apply HE; exact He'|]. rewrite Hf. exact Hnp. }
      destruct s; cbn [fst]; auto.
      * apply Hst; [|reflexivity]. rewrite (HE e (nth_error_In _ _ Hi)), Hp. simpl.
        apply HX; [exact Hp|]. apply HE. eapply nth_error_In; eauto.
      * destruct (w_ge N w (weight e)); [auto|]. apply Hst; [exact Hp|reflexivity].
    + destruct (add_or_merge_new g u v o w p s HI Hno) as (g' & -> & _ & Ee & _ & _ & Ea & _). cbn [fst].
      rewrite Ea, (Hout p Hp). split; [exact Ha|]. intros e He. rewrite Ee in He.
      apply in_app_or in He. destruct He as [He|[<-|[]]]; [apply HE; exact He|exact Hp].
  - destruct (set_boundary_props g b) as (E1 & _ & E3 & _). split; [congruence|]. intros e He. rewrite E1 in He. auto.
  - auto.
Qed.

Lemma flag_true_if_all_given :
  (forall p, p_valid N p = negb (p_outside N p)) ->
  (forall p q, p_valid N p = true -> p_valid N q = true -> p_valid N (p_xor N p q) = true) ->
  forall n k ops, (forall x, In x ops -> op_prob_ok x) -> allp (run (new_graph N n k) ops) = true.
Proof.
  intros HV HX n k ops Hops.
  assert (H : forall ops (g : ug), (forall x, In x ops -> op_prob_ok x) -> Inv g -> allp g = true ->
     every_edge_has_probability g -> allp (run g ops) = true).
  { clear ops Hops. induction ops as [|x ops IH]; intros g Hops HI Ha HE; [exact Ha|].
    change (run g (x :: ops)) with (run (apply_op g x) ops).
    destruct (step_flag g x HV HX HI Ha (Hops x (or_introl eq_refl)) HE) as [H1 H2].
    apply IH; auto. { intros y Hy. apply Hops. right. exact Hy. } apply apply_op_inv. exact HI. }
  apply H; auto using new_inv. intros e [].
Qed.

(** C40 *)
Lemma step_weights : (forall a b, w_exceeds N a = false -> w_exceeds N b = false -> w_exceeds N (w_merge N a b) = false) ->
  forall (g : ug) x, Inv g -> (forall e, In e (edges g) -> w_exceeds N (weight e) = false) ->
  forall e, In e (edges (apply_op g x)) -> w_exceeds N (weight e) = false.
Proof.
  intros HM g x HI HR. destruct x as [u v o w p s|b|n]; cbn [apply_op].
  - unfold py_add. destruct (w_exceeds N w) eqn:Ew; [exact HR|].
    destruct (find_edge (edges g) u v) as [(i & e & Hi & HJ)|Hno].
    + rewrite (add_or_merge_old g u v o w p s i e HI Hi HJ).
      unfold merge_edge. rewrite Hi.
      assert (Hst : forall f nw, w_exceeds N nw = false -> (forall e, weight (f e) = nw) ->
        forall e', In e' (upd_nth (edges g) i f) -> w_exceeds N (weight e') = false).
      { intros f nw Hnw Hf e' He'.
        apply in_upd_nth in He'. destruct He' as [He'|(y & Hy & ->)]; [apply HR; exact He'|]. rewrite Hf. exact Hnw. }
      destruct s; cbn [fst edges]; try exact HR.
      * apply (Hst _ (w_merge N w (weight e))); [|reflexivity]. apply HM; [exact Ew|]. apply HR. eapply nth_error_In; eauto.
      * destruct (w_ge N w (weight e)); [exact HR|]. apply (Hst _ w); [exact Ew|reflexivity].
      * apply (Hst _ w); [exact Ew|reflexivity].
    + destruct (add_or_merge_new g u v o w p s HI Hno) as (g' & -> & _ & Ee & _). cbn [fst]. rewrite Ee.
      intros e He. apply in_app_or in He. destruct He as [He|[<-|[]]]; [apply HR; exact He|exact Ew].
  - destruct (set_boundary_props g b) as (E1 & _). rewrite E1. exact HR.
  - exact HR.
Qed.

Lemma weights_in_range :
  (forall a b, w_exceeds N a = false -> w_exceeds N b = false -> w_exceeds N (w_merge N a b) = false) ->
  forall n k ops e, In e (edges (run (new_graph N n k) ops)) -> w_exceeds N (weight e) = false.
Proof.
  intros HM n k ops.
  assert (H : forall ops (g : ug), Inv g -> (forall e, In e (edges g) -> w_exceeds N (weight e) = false) ->
     forall e, In e (edges (run g ops)) -> w_exceeds N (weight e) = false).
  { clear ops. induction ops as [|x ops IH]; intros g HI HR; [exact HR|].
    change (run g (x :: ops)) with (run (apply_op g x) ops).
    apply IH; [apply apply_op_inv; exact HI|apply step_weights; assumption]. }
  apply H; [apply new_inv|intros e []].
Qed.

Lemma exceeding_skipped : forall (g : ug) u v o w p s, w_exceeds N w = true -> py_add g u v o w p s = (g, false).
Proof. intros. unfold py_add. rewrite H. reflexivity. Qed.

(** C33 *)
Section Cache.
Variable M : Type.
Variable build : ug -> bool -> M.

Definition cache_ok (c : cached N M) : Prop :=
  needs (graph c) = false -> exists m n s g0 b, mwpm c = Some (m, n, s) /\ m = build g0 b /\ same_structure (graph c) g0 /\
    nobs g0 <= nobs (graph c) /\ n = num_nodes g0 /\ s = ((64 <? nobs g0) || b).

Lemma apply_op_needs : forall (g : ug) x, Inv g -> needs (apply_op g x) = true \/
  (needs (apply_op g x) = needs g /\ same_structure (apply_op g x) g /\ nobs g <= nobs (apply_op g x)).
Proof.
  intros g x HI. destruct x as [u v o w p s|b|n]; cbn [apply_op].
  - unfold py_add. destruct (w_exceeds N w); [right; repeat split; auto|].
    destruct (find_edge (edges g) u v) as [(i & e & Hi & HJ)|Hno].
    + rewrite (add_or_merge_old g u v o w p s i e HI Hi HJ). unfold merge_edge. rewrite Hi.
      destruct s; cbn [fst]; try (left; reflexivity); try (right; repeat split; auto; fail).
      destruct (w_ge N w (weight e)); [right; repeat split; auto|left; reflexivity].
    + destruct (add_or_merge_new g u v o w p s HI Hno) as (g' & -> & _ & _ & _ & _ & _ & En & _). left. exact En.
  - left. reflexivity.
  - right. unfold set_min_num_observables. cbn [needs nobs]. split; [reflexivity|]. split; [repeat split|]. destruct (Nat.ltb_spec (nobs g) n); lia.
Qed.

Lemma get_mwpm_ok : forall c, Inv (graph c) -> cache_ok c ->
  let '(c', m, s) := get_mwpm build c in
  Inv (graph c') /\ cache_ok c' /\ same_structure (graph c) (graph c') /\ nobs (graph c') = nobs (graph c) /\
  exists g0 b, m = build g0 b /\ same_structure (graph c) g0 /\ nobs g0 <= nobs (graph c).
Proof.
  intros c HI HC. unfold get_mwpm. destruct (needs (graph c)) eqn:En.
  - cbn. split; [exact HI|]. split; [|split; [repeat split|split; [reflexivity|]]].
    + intros _. exists (build (graph c) false), (num_nodes (graph c)), ((64 <? nobs (graph c)) || false), (graph c), false.
      cbn. repeat split; auto.
    + exists (graph c), false. repeat split; auto.
  - destruct (HC En) as (m & n & s & g0 & b & E & Em & Hs & Hn & _). rewrite E.
    split; [exact HI|]. split; [exact HC|]. split; [repeat split|]. split; [reflexivity|]. exists g0, b. auto.
Qed.

Lemma get_mwpm_with_search_ok : forall c, Inv (graph c) -> cache_ok c ->
  let '(c', m, s) := get_mwpm_with_search build c in
  Inv (graph c') /\ cache_ok c' /\ same_structure (graph c) (graph c') /\ nobs (graph c') = nobs (graph c) /\
  (s = true \/ num_nodes (graph c) = 0) /\
  exists g0 b, m = build g0 b /\ same_structure (graph c) g0 /\ nobs g0 <= nobs (graph c).
Proof.
  intros c HI HC. unfold get_mwpm_with_search.
  assert (Hb : let '(c', m, s) := (mkC (clear_needs (graph c)) (Some (to_mwpm build (graph c) true)),
                  build (graph c) true, (64 <? nobs (graph c)) || true) in
     Inv (graph c') /\ cache_ok c' /\ same_structure (graph c) (graph c') /\ nobs (graph c') = nobs (graph c) /\
     (s = true \/ num_nodes (graph c) = 0) /\
     exists g0 b, m = build g0 b /\ same_structure (graph c) g0 /\ nobs g0 <= nobs (graph c)).
  { cbn. split; [exact HI|]. split; [|split; [repeat split|split; [reflexivity|split]]].
    - intros _. exists (build (graph c) true), (num_nodes (graph c)), ((64 <? nobs (graph c)) || true), (graph c), true.
      cbn. repeat split; auto.
    - left. apply orb_true_r.
    - exists (graph c), true. repeat split; auto. }
  destruct (needs (graph c)) eqn:En; [exact Hb|].
  destruct (HC En) as (m & n & s & g0 & b & E & Em & Hs & Hn & En0 & Es). rewrite E.
  destruct (s || (n =? 0)) eqn:Eo; [|exact Hb].
  split; [exact HI|]. split; [exact HC|]. split; [repeat split|]. split; [reflexivity|]. split.
  - apply orb_true_iff in Eo. destruct Eo as [->|Eo]; [left; reflexivity|right].
    apply Nat.eqb_eq in Eo. destruct Hs as (Hs & _). unfold num_nodes in *. rewrite <- Hs. congruence.
  - exists g0, b. auto.
Qed.

Lemma crun_ok : forall ops c, Inv (graph c) -> cache_ok c -> Inv (graph (crun build c ops)) /\ cache_ok (crun build c ops).
Proof.
  induction ops as [|x ops IH]; intros c HI HC; [auto|].
  change (crun build c (x :: ops)) with (crun build (apply_cop build c x) ops).
  destruct x as [x|[|]]; cbn [apply_cop].
  - apply IH; [apply apply_op_inv; exact HI|]. intros Hn. cbn [graph mwpm] in *.
    destruct (apply_op_needs (graph c) x HI) as [H|(H1 & (H2 & H3 & H4) & H5)]; [congruence|].
    rewrite H1 in Hn. destruct (HC Hn) as (m & n & s & g0 & b & E & Em & (S1 & S2 & S3) & Hnb & En0 & Es).
    exists m, n, s, g0, b. split; [exact E|]. split; [exact Em|]. split; [repeat split; congruence|].
    split; [lia|]. auto.
  - pose proof (get_mwpm_with_search_ok c HI HC) as H. destruct (get_mwpm_with_search build c) as [[c' m] s].
    cbn [fst]. apply IH; apply H.
  - pose proof (get_mwpm_ok c HI HC) as H. destruct (get_mwpm build c) as [[c' m] s].
    cbn [fst]. apply IH; apply H.
Qed.

Lemma caching_invisible : forall n k ops (search : bool),
  let c := crun build (mkC (new_graph N n k) None) ops in
  let '(c', m, s) := if search then get_mwpm_with_search build c else get_mwpm build c in
  same_structure (graph c) (graph c') /\ nobs (graph c') = nobs (graph c) /\
  (search = true -> s = true \/ num_nodes (graph c) = 0) /\
  exists g0 b, m = build g0 b /\ same_structure (graph c) g0 /\ nobs g0 <= nobs (graph c).
Proof.
  intros n k ops search c.
  assert (H : Inv (graph c) /\ cache_ok c).
  { apply crun_ok; [apply new_inv|]. intros H. discriminate H. }
  destruct H as [HI HC]. destruct search.
  - pose proof (get_mwpm_with_search_ok c HI HC) as H. destruct (get_mwpm_with_search build c) as [[c' m] s].
    destruct H as (_ & _ & H1 & H2 & H3 & H4). auto.
  - pose proof (get_mwpm_ok c HI HC) as H. destruct (get_mwpm build c) as [[c' m] s].
    destruct H as (_ & _ & H1 & H2 & H4). split; [exact H1|]. split; [exact H2|]. split; [discriminate|exact H4].
Qed.
End Cache.
End Proofs.
