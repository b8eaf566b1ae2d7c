(** num_fault_ids and the flag for error probabilities, exactly, after any sequence of calls. *)
From Coq Require Import Arith List Bool Lia.
From Verif Require Import M_UserGraph S_UserGraph P_UserGraph S_History.
Import ListNotations.

Section Proofs.
Context {N : numops}.
Notation ug := (ugraph N).

Lemma raise_nobs_greatest : forall o k, greatest k (fun m => exists i, In i o /\ m = S i) (raise_nobs k o).
Proof.
  unfold raise_nobs, greatest. induction o as [|y o IH]; intros k.
  - simpl. split; [lia|]. split; [auto|]. intros m (i & [] & _).
  - cbn [fold_left]. destruct (IH (if k <? y + 1 then y + 1 else k)) as (H1 & H2 & H3).
    set (r := fold_left _ o _) in *. clearbody r.
    destruct (Nat.ltb_spec k (y + 1)).
    + split; [lia|]. split.
      * right. destruct H2 as [->|(i & Hi & ->)]; [exists y; split; [left; auto|lia]|exists i; split; [right; auto|auto]].
      * intros m (i & [<-|Hi] & ->); [lia|]. apply H3. eauto.
    + split; [lia|]. split.
      * destruct H2 as [->|(i & Hi & ->)]; [auto|]. right. exists i. split; [right; auto|auto].
      * intros m (i & [<-|Hi] & ->); [lia|]. apply H3. eauto.
Qed.

Lemma run_app : forall a b (g : ug), run g (a ++ b) = run (run g a) b.
Proof. intros. unfold run. apply fold_left_app. Qed.

Lemma step_nobs : forall (g : ug) x, Inv g ->
  nobs (apply_op g x) =
  match x with
  | OpAdd u v o w _ _ => if w_exceeds N w then nobs g else if has_edge g u v then nobs g else raise_nobs (nobs g) o
  | OpSetBoundary _ => nobs g
  | OpMinObs m => Nat.max (nobs g) m
  end.
Proof.
  intros g x HI. destruct x as [u v o w p s|b|m]; cbn [apply_op].
  - unfold py_add. destruct (w_exceeds N w); [reflexivity|].
    destruct (find_edge (edges g) u v) as [(i & e & Hi & HJ)|Hno].
    + assert (Hh : has_edge g u v = true) by (apply (has_edge_spec g u v HI); exists e; split; [eapply nth_error_In; eauto|exact HJ]).
      rewrite Hh. rewrite (add_or_merge_old g u v o w p s i e HI Hi HJ).
      unfold merge_edge. rewrite Hi. destruct s; try reflexivity.
      destruct (w_ge N w (weight e)); reflexivity.
    + assert (Hh : has_edge g u v = false).
      { destruct (has_edge g u v) eqn:E; [|reflexivity]. apply (has_edge_spec g u v HI) in E. destruct E as (e & He & HJ). destruct (Hno e He HJ). }
      rewrite Hh. destruct (add_or_merge_new g u v o w p s HI Hno) as (g' & -> & _ & _ & _ & En & _). exact En.
  - destruct (set_boundary_props g b) as (_ & E & _). exact E.
  - unfold set_min_num_observables. cbn [nobs]. destruct (Nat.ltb_spec (nobs g) m); lia.
Qed.

Lemma asked_snoc : forall (ops : list (op N)) x m, asked_for (ops ++ [x]) m <->
  asked_for ops m \/
  match x with
  | OpMinObs m' => m' = m
  | OpAdd u v o w p s => adds_new_edge ops u v w /\ exists i, In i o /\ m = S i
  | OpSetBoundary _ => False
  end.
Proof.
  intros ops x m. split.
  - intros (be & y & af & E & H). destruct af as [|z af] using rev_ind.
    + apply app_inj_tail in E. destruct E as [<- <-]. right. exact H.
    + clear IHaf. left. rewrite app_comm_cons, app_assoc in E. apply app_inj_tail in E. destruct E as [-> _].
      exists be, y, af. auto.
  - intros [(be & y & af & -> & H)|H].
    + exists be, y, (af ++ [x]). split; [rewrite <- app_assoc; reflexivity|exact H].
    + exists ops, x, []. auto.
Qed.

Lemma num_fault_ids_exact : forall n k (ops : list (op N)),
  greatest k (asked_for ops) (nobs (run (new_graph N n k) ops)).
Proof.
  intros n k ops. induction ops as [|x ops IH] using rev_ind.
  - cbn. split; [lia|]. split; [auto|]. intros m (be & y & af & E & _). destruct be; discriminate.
  - rewrite run_app. change (run (run (new_graph N n k) ops) [x]) with (apply_op (run (new_graph N n k) ops) x).
    rewrite step_nobs by (apply run_inv; apply new_inv).
    set (g := run (new_graph N n k) ops) in *. destruct IH as (H1 & H2 & H3).
    assert (Hkeep : ~ (exists m, match x with
        | OpMinObs m' => m' = m
        | OpAdd u v o w p s => adds_new_edge ops u v w /\ exists i, In i o /\ m = S i
        | OpSetBoundary _ => False end) -> greatest k (asked_for (ops ++ [x])) (nobs g)).
    { intros Hn. split; [exact H1|]. split.
      - destruct H2 as [H2|H2]; [auto|right; apply asked_snoc; auto].
      - intros m Hm. apply asked_snoc in Hm. destruct Hm as [Hm|Hm]; [auto|]. destruct Hn. eauto. }
    destruct x as [u v o w p s|b|m].
    + pose proof (proj1 (proj2 (user_graph_simple (N := N) n k ops)) u v) as Hh. cbv zeta in Hh. fold g in Hh.
      destruct (w_exceeds N w) eqn:Ew.
      { apply Hkeep. intros (m & (Hw & _) & _). congruence. }
      destruct (has_edge g u v) eqn:Eh.
      { apply Hkeep. intros (m & (_ & Hna) & _). apply Hna. apply Hh. reflexivity. }
      assert (Hnew : adds_new_edge ops u v w) by (split; [exact Ew|intros Ha; apply Hh in Ha; discriminate]).
      destruct (raise_nobs_greatest o (nobs g)) as (R1 & R2 & R3).
      split; [lia|]. split.
      * destruct R2 as [R2|R2]; [|right; apply asked_snoc; right; auto].
        rewrite R2. destruct H2 as [H2|H2]; [auto|right; apply asked_snoc; auto].
      * intros m Hm. apply asked_snoc in Hm. destruct Hm as [Hm|(_ & Hm)]; [apply H3 in Hm; lia|auto].
    + apply Hkeep. intros (m & []).
    + split; [lia|]. split.
      * destruct (Nat.max_spec (nobs g) m) as [[_ ->]|[_ ->]]; [right; apply asked_snoc; right; auto|].
        destruct H2 as [H2|H2]; [auto|right; apply asked_snoc; auto].
      * intros m' Hm. apply asked_snoc in Hm. destruct Hm as [Hm| ->]; [apply H3 in Hm|]; lia.
Qed.

(** The flag. *)
Lemma step_flag_exact : forall (g : ug) x, (forall p, p_valid N p = negb (p_outside N p)) -> Inv g ->
  every_edge_has_probability g ->
  allp (apply_op g x) = true <-> allp g = true /\ every_edge_has_probability (apply_op g x).
Proof.
  intros g x HV HI HE.
  assert (HO : forall p, p_valid N p = true <-> p_outside N p = false).
  { intros p. rewrite HV. destruct (p_outside N p); simpl; split; intros; congruence. }
  destruct x as [u v o w p s|b|m]; cbn [apply_op].
  - unfold py_add. destruct (w_exceeds N w); [cbn [fst]; tauto|].
    destruct (find_edge (edges g) u v) as [(i & e & Hi & HJ)|Hno].
    + rewrite (add_or_merge_old g u v o w p s i e HI Hi HJ). unfold merge_edge. rewrite Hi.
      assert (Hst : forall f np, (forall e, prob (f e) = np) ->
        let g' := mkG (nodes g) (upd_nth (edges g) i f) (bnodes g) (nobs g) (if p_outside N np then false else allp g) true in
        allp g' = true <-> allp g = true /\ every_edge_has_probability g').
      { intros f np Hf g'. subst g'. cbn [allp]. split.
        - destruct (p_outside N np) eqn:E; [discriminate|]. intros Ha. split; [exact Ha|].
          intros e' He'. cbn in He'. apply in_upd_nth in He'. destruct He' as [He'|(y & Hy & ->)]; [apply HE; exact He'|].
          rewrite Hf. apply HO. exact E.
        - intros [Ha Hp]. assert (E : p_outside N np = false).
          { apply HO. rewrite <- (Hf e). apply Hp. cbn. apply nth_error_In with i.
            clear - Hi. revert i Hi. induction (edges g) as [|a l IH]; intros [|i] Hi; simpl in *; try discriminate.
            - injection Hi as ->. reflexivity.
            - apply IH. exact Hi. }
          rewrite E. exact Ha. }
      destruct s; cbn [fst]; try tauto; try (apply Hst; reflexivity).
      destruct (w_ge N w (weight e)); cbn [fst]; [tauto|]. apply Hst. reflexivity.
    + destruct (add_or_merge_new g u v o w p s HI Hno) as (g' & -> & _ & Ee & _ & _ & Ea & _). cbn [fst].
      rewrite Ea. unfold every_edge_has_probability. rewrite Ee. split.
      * destruct (p_outside N p) eqn:E; [discriminate|]. intros Ha. split; [exact Ha|].
        intros e He. apply in_app_or in He. destruct He as [He|[<-|[]]]; [apply HE; exact He|apply HO; exact E].
      * intros [Ha Hp]. assert (E : p_outside N p = false).
        { apply HO. apply (Hp (mkE u v o w p)). apply in_or_app. right. left. reflexivity. }
        rewrite E. exact Ha.
  - destruct (set_boundary_props g b) as (E1 & _ & E3 & _). rewrite E3. unfold every_edge_has_probability in *. rewrite E1. tauto.
  - unfold set_min_num_observables, every_edge_has_probability in *. cbn. tauto.
Qed.

Lemma step_flag_down : forall (g : ug) x, Inv g -> allp g = false -> allp (apply_op g x) = false.
Proof.
  intros g x HI Ha. destruct x as [u v o w p s|b|m]; cbn [apply_op].
  - unfold py_add. destruct (w_exceeds N w); [exact Ha|].
    destruct (find_edge (edges g) u v) as [(i & e & Hi & HJ)|Hno].
    + rewrite (add_or_merge_old g u v o w p s i e HI Hi HJ). unfold merge_edge. rewrite Hi.
      destruct s; cbn [fst]; try exact Ha.
      * cbn [allp]. rewrite Ha. match goal with |- (if ?b then _ else _) = _ => destruct b end; reflexivity.
      * destruct (w_ge N w (weight e)); cbn [fst]; [exact Ha|]. cbn [allp]. rewrite Ha. destruct (p_outside N p); reflexivity.
      * cbn [allp]. rewrite Ha. destruct (p_outside N p); reflexivity.
    + destruct (add_or_merge_new g u v o w p s HI Hno) as (g' & -> & _ & _ & _ & _ & Ea & _). cbn [fst].
      rewrite Ea, Ha. destruct (p_outside N p); reflexivity.
  - destruct (set_boundary_props g b) as (_ & _ & E3 & _). congruence.
  - exact Ha.
Qed.

Lemma flag_is_history : (forall p, p_valid N p = negb (p_outside N p)) ->
  forall n k (ops : list (op N)),
  allp (run (new_graph N n k) ops) = true <->
  forall before after, ops = before ++ after -> every_edge_has_probability (run (new_graph N n k) before).
Proof.
  intros HV n k ops. induction ops as [|x ops IH] using rev_ind.
  - split; [|reflexivity]. intros _ be af E. destruct be; [|discriminate]. intros e [].
  - rewrite run_app. change (run (run (new_graph N n k) ops) [x]) with (apply_op (run (new_graph N n k) ops) x).
    assert (HI : Inv (run (new_graph N n k) ops)) by (apply run_inv; apply new_inv).
    assert (Hlast : apply_op (run (new_graph N n k) ops) x = run (new_graph N n k) (ops ++ [x])) by (rewrite run_app; reflexivity).
    split.
    + intros Ha. pose proof (flag_implies_probabilities HV n k (ops ++ [x])) as HL. cbv zeta in HL. rewrite <- Hlast in HL.
      specialize (HL Ha).
      assert (Hg : allp (run (new_graph N n k) ops) = true).
      { destruct (allp (run (new_graph N n k) ops)) eqn:E; [reflexivity|].
        rewrite (step_flag_down _ x HI E) in Ha. discriminate. }
      intros be af E. destruct af as [|y af] using rev_ind.
      * rewrite app_nil_r in E. subst be. rewrite <- Hlast. exact HL.
      * clear IHaf. rewrite app_assoc in E. apply app_inj_tail in E. destruct E as [E _]. exact (proj1 IH Hg be af E).
    + intros Hall.
      assert (HE : every_edge_has_probability (run (new_graph N n k) ops)) by (apply (Hall ops [x]); reflexivity).
      apply (step_flag_exact _ x HV HI HE). split.
      * apply IH. intros be af ->. apply (Hall be (af ++ [x])). rewrite app_assoc. reflexivity.
      * rewrite Hlast. apply (Hall (ops ++ [x]) []). rewrite app_nil_r. reflexivity.
Qed.

End Proofs.
