(** The user graph implements a finite map from unordered pairs to attributes. *)
From Coq Require Import Arith List Bool Lia.
From Verif Require Import M_Base M_UserGraph S_UserGraph P_UserGraph S_GraphMap.
Import ListNotations.

Section Proofs.
Context {N : numops}.

Lemma same_pair_spec : forall u v x y, same_pair u v x y = true <-> (u = x /\ v = y) \/ (y = Some u /\ v = Some x).
Proof.
  intros. unfold same_pair. rewrite orb_true_iff, !andb_true_iff, Nat.eqb_eq, !opt_eqb_eq. tauto.
Qed.

Lemma joins_same_pair : forall (e : uedge N) u v, joins e u v <-> same_pair (node1 e) (node2 e) u v = true.
Proof. intros. rewrite same_pair_spec. unfold joins. tauto. Qed.

Lemma same_pair_joins : forall (e : uedge N) u v x y, joins e u v -> (same_pair u v x y = true <-> joins e x y).
Proof.
  intros e u v x y HJ. rewrite same_pair_spec. unfold joins in *. split.
  - intros [[<- <-]|[-> ->]]; [exact HJ|].
    destruct HJ as [[H1 H2]|[H1 H2]]; [right|left]; split; congruence.
  - destruct HJ as [[H1 H2]|[H1 H2]]; intros [[H3 H4]|[H3 H4]]; [left|right|right|left]; split; congruence.
Qed.

Definition do_call (g : ugraph N) (c : call N) : ugraph N * bool :=
  add_or_merge g (c_u c) (c_v c) (c_obs c) (c_w c) (c_p c) (c_s c).

Lemma data_none : forall (g : ugraph N) u v, Inv g -> (forall e, In e (edges g) -> ~ joins e u v) -> get_edge_data g u v = None.
Proof.
  intros g u v HI Hno. destruct (get_edge_data g u v) as [a|] eqn:E; [|reflexivity].
  apply get_edge_data_spec in E; [|exact HI]. destruct E as (e & He & HJ & _). destruct (Hno e He HJ).
Qed.

Lemma data_some : forall (g : ugraph N) u v e, Inv g -> In e (edges g) -> joins e u v ->
  get_edge_data g u v = Some (attributes_of e).
Proof. intros. apply get_edge_data_spec; [assumption|]. exists e. auto. Qed.

Lemma merge_edge_pt : forall (g : ugraph N) i e o w p s, nth_error (edges g) i = Some e ->
  let g' := fst (merge_edge g i o w p s) in
  exists f, edges g' = upd_nth (edges g) i f /\ (forall e, node1 (f e) = node1 e /\ node2 (f e) = node2 e) /\
    attributes_of (f e) = merged s (attributes_of e) (o, w, p).
Proof.
  intros g i e o w p s Hi. unfold merge_edge. rewrite Hi.
  assert (Hid : forall (l : list (uedge N)) k, upd_nth l k (fun e => e) = l).
  { induction l as [|a l IH]; intros [|k]; cbn; auto. f_equal. apply IH. }
  destruct s; cbn [fst edges].
  - exists (fun e => e). rewrite Hid. auto.
  - eexists. split; [reflexivity|]. split; [intros; split; reflexivity|]. reflexivity.
  - destruct (w_ge N w (weight e)) eqn:E.
    + exists (fun e => e). rewrite Hid. split; [reflexivity|]. split; [auto|]. cbn. rewrite E. reflexivity.
    + eexists. split; [reflexivity|]. split; [intros; split; reflexivity|]. cbn. rewrite E. reflexivity.
  - exists (fun e => e). rewrite Hid. auto.
  - eexists. split; [reflexivity|]. split; [intros; split; reflexivity|]. reflexivity.
Qed.

Lemma call_effect : forall (g : ugraph N) c, Inv g ->
  Inv (fst (do_call g c)) /\
  (forall x y, get_edge_data (fst (do_call g c)) x y = effect x y (get_edge_data g x y) c) /\
  (snd (do_call g c) = true <-> c_s c = DISALLOW /\ get_edge_data g (c_u c) (c_v c) <> None) /\
  length (nodes (fst (do_call g c))) = Nat.max (length (nodes g)) (S (max_node (c_u c) (c_v c))) /\
  bnodes (fst (do_call g c)) = bnodes g.
Proof.
  intros g [u v o w p s] HI. unfold do_call. cbn [c_u c_v c_obs c_w c_p c_s].
  destruct (find_edge (edges g) u v) as [(i & e & Hi & HJ)|Hno].
  - rewrite (add_or_merge_old g u v o w p s i e HI Hi HJ).
    pose proof (nth_error_In _ _ Hi) as Hin.
    assert (HI' : Inv (fst (merge_edge g i o w p s))) by (apply merge_inv; exact HI).
    split; [exact HI'|]. split; [|split; [|split]].
    + intros x y. unfold effect. cbn [c_u c_v c_obs c_w c_p c_s].
      destruct (merge_edge_pt g i e o w p s Hi) as (f & Ef & Hf & Ha). cbv zeta in Ef.
      set (g' := fst (merge_edge g i o w p s)) in *.
      assert (Hi' : nth_error (edges g') i = Some (f e)).
      { rewrite Ef, upd_nth_nth_error, Nat.eqb_refl, Hi. reflexivity. }
      destruct (same_pair u v x y) eqn:Esp.
      * apply (same_pair_joins e u v x y HJ) in Esp.
        rewrite (data_some g x y e HI Hin Esp). rewrite <- Ha.
        apply data_some; [exact HI'|eapply nth_error_In; exact Hi'|].
        destruct (Hf e) as [E1 E2]. eapply joins_key; [| |exact Esp]; congruence.
      * destruct (find_edge (edges g) x y) as [(j & e1 & Hj & HJ1)|Hno1].
        -- rewrite (data_some g x y e1 HI (nth_error_In _ _ Hj) HJ1).
           apply data_some; [exact HI'| |exact HJ1]. apply (nth_error_In (edges g') j).
           rewrite Ef, upd_nth_nth_error. destruct (Nat.eqb_spec j i) as [E|E]; [|exact Hj].
           subst j. rewrite Hi in Hj. injection Hj as <-.
           apply (same_pair_joins e u v x y HJ) in HJ1. congruence.
        -- rewrite (data_none g x y HI Hno1). apply data_none; [exact HI'|].
           intros e' He' HJ'. rewrite Ef in He'. apply in_upd_nth in He'. destruct He' as [He'|(e2 & He2 & ->)].
           ++ exact (Hno1 e' He' HJ').
           ++ apply (Hno1 e2 He2). destruct (Hf e2) as [E1 E2]. eapply joins_key; [| |exact HJ']; auto.
    + rewrite (data_some g u v e HI Hin HJ). unfold merge_edge. rewrite Hi.
      destruct s; cbn [snd]; split; intros H; try discriminate; try (destruct H; discriminate).
      * split; [reflexivity|discriminate].
      * reflexivity.
      * destruct (w_ge N w (weight e)); discriminate.
    + destruct (merge_shape g i o w p s) as (-> & _).
      destruct HI as (_ & HN & _). destruct (HN e Hin) as [A B]. unfold max_node.
      destruct HJ as [[H1 H2]|[H1 H2]].
      * destruct v as [v|]; [apply B in H2|]; lia.
      * rewrite H1. apply B in H2. lia.
    + apply (merge_shape g i o w p s).
  - destruct (add_or_merge_new g u v o w p s HI Hno) as (g' & -> & HI' & Ee & Eb & _ & _ & _ & L). cbn [fst snd].
    split; [exact HI'|]. split; [|split; [|split; [exact L|exact Eb]]].
    + intros x y. unfold effect. cbn [c_u c_v c_obs c_w c_p c_s].
      destruct (same_pair u v x y) eqn:Esp.
      * assert (Hnew : joins (mkE (N := N) u v o w p) u v) by (left; auto).
        pose proof (proj1 (same_pair_joins _ u v x y Hnew) Esp) as HJx.
        rewrite (data_none g x y HI).
        -- apply (data_some g' x y (mkE u v o w p) HI'); [|exact HJx]. rewrite Ee. apply in_or_app. right. left. reflexivity.
        -- intros e He HJ. apply (Hno e He).
           pose proof (joins_eq e (mkE u v o w p) x y HJ HJx) as H. cbn in H. exact H.
      * destruct (find_edge (edges g) x y) as [(j & e1 & Hj & HJ1)|Hno1].
        -- rewrite (data_some g x y e1 HI (nth_error_In _ _ Hj) HJ1).
           apply data_some; [exact HI'| |exact HJ1]. rewrite Ee. apply in_or_app. left. eapply nth_error_In; eauto.
        -- rewrite (data_none g x y HI Hno1). apply data_none; [exact HI'|].
           intros e' He' HJ'. rewrite Ee in He'. apply in_app_or in He'. destruct He' as [He'|[<-|[]]]; [exact (Hno1 e' He' HJ')|].
           assert (Hnew : joins (mkE (N := N) u v o w p) u v) by (left; auto).
           apply (same_pair_joins _ u v x y Hnew) in HJ'. congruence.
    + split; [discriminate|]. intros [_ H]. exfalso. apply H. apply data_none; assumption.
Qed.

Lemma has_edge_data : forall (g : ugraph N) u v, Inv g -> has_edge g u v = match get_edge_data g u v with Some _ => true | None => false end.
Proof.
  intros g u v HI. destruct (find_edge (edges g) u v) as [(i & e & Hi & HJ)|Hno].
  - rewrite (data_some g u v e HI (nth_error_In _ _ Hi) HJ). apply has_edge_spec; [exact HI|].
    exists e. split; [eapply nth_error_In; eauto|exact HJ].
  - rewrite (data_none g u v HI Hno). destruct (has_edge g u v) eqn:E; [|reflexivity].
    apply has_edge_spec in E; [|exact HI]. destruct E as (e & He & HJ). destruct (Hno e He HJ).
Qed.

Lemma edge_data_exists : forall (g : ugraph N) e, Inv g -> In e (edges g) ->
  get_edge_data g (node1 e) (node2 e) = Some (attributes_of e).
Proof. intros. apply data_some; [assumption|assumption|left; auto]. Qed.

(** A sequence of calls ignoring exceptions *)
Definition do_calls (g : ugraph N) (cs : list (call N)) : ugraph N := fold_left (fun g c => fst (do_call g c)) cs g.

Lemma calls_effect : forall cs (g : ugraph N), Inv g ->
  Inv (do_calls g cs) /\
  (forall x y, get_edge_data (do_calls g cs) x y = effects x y (get_edge_data g x y) cs) /\
  length (nodes (do_calls g cs)) = fold_left (fun k c => Nat.max k (S (max_node (c_u c) (c_v c)))) cs (length (nodes g)) /\
  bnodes (do_calls g cs) = bnodes g.
Proof.
  induction cs as [|c cs IH]; intros g HI; [auto|].
  destruct (call_effect g c HI) as (H1 & H2 & _ & H4 & H5).
  change (do_calls g (c :: cs)) with (do_calls (fst (do_call g c)) cs).
  destruct (IH _ H1) as (I1 & I2 & I3 & I4). split; [exact I1|]. split; [|split].
  - intros x y. rewrite I2, H2. reflexivity.
  - rewrite I3, H4. reflexivity.
  - congruence.
Qed.

Lemma set_boundary_data : forall (g : ugraph N) b x y, Inv g -> get_edge_data (set_boundary g b) x y = get_edge_data g x y.
Proof.
  intros g b x y HI. pose proof (set_boundary_inv g b HI) as HI'.
  destruct (set_boundary_props g b) as (E & _). cbv zeta in E.
  destruct (find_edge (edges g) x y) as [(j & e & Hj & HJ)|Hno].
  - rewrite (data_some g x y e HI (nth_error_In _ _ Hj) HJ). apply data_some; [exact HI'| |exact HJ]. rewrite E. eapply nth_error_In; eauto.
  - rewrite (data_none g x y HI Hno). apply data_none; [exact HI'|]. rewrite E. exact Hno.
Qed.

Lemma run_is_map : forall ops (g : ugraph N) x y, Inv g ->
  get_edge_data (run g ops) x y = effects x y (get_edge_data g x y) (op_calls ops).
Proof.
  induction ops as [|c ops IH]; intros g x y HI; [reflexivity|].
  change (run g (c :: ops)) with (run (apply_op g c) ops).
  rewrite IH by (apply apply_op_inv; exact HI).
  destruct c as [u v o w p s|b|n]; cbn [apply_op op_calls flat_map].
  - unfold py_add. destruct (w_exceeds N w); [reflexivity|].
    destruct (call_effect g (mkCall u v o w p s) HI) as (_ & H & _). unfold do_call in H. cbn [c_u c_v c_obs c_w c_p c_s] in H.
    rewrite H. reflexivity.
  - rewrite set_boundary_data by exact HI. reflexivity.
  - reflexivity.
Qed.

Lemma graph_is_map : forall n k ops x y,
  get_edge_data (run (new_graph N n k) ops) x y = effects x y None (op_calls ops).
Proof.
  intros. rewrite run_is_map by apply new_inv. f_equal. apply data_none; [apply new_inv|]. intros e [].
Qed.
End Proofs.
