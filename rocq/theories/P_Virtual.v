(** A check matrix loaded with a virtual boundary and with a boundary node. *)
From Coq Require Import Reals ZArith NArith List Bool Arith Lia Lra Permutation.
From Verif Require Import M_Base M_UserGraph S_UserGraph P_UserGraph M_Merge M_CheckMatrix P_CheckMatrix2 S_Virtual.
Import ListNotations.
Local Open Scope nat_scope.

Section Sim.
Context {N : numops}.
Variable n : nat.
Notation ug := (ugraph N).
Definition lone (e : uedge N) : bool := match node2 e with None => true | Some _ => false end.
Record sim (gv gb : ug) : Prop := {
  s_edges : edges gb = map (to_node n) (edges gv);
  s_below : forall e, In e (edges gv) -> node1 e < n /\ forall v, node2 e = Some v -> v < n;
  s_nv : length (nodes gv) = n;
  s_nb : length (nodes gb) = if existsb lone (edges gv) then S n else n;
  s_bv : bnodes gv = [];
  s_bb : bnodes gb = [];
  s_o : nobs gb = nobs gv;
  s_p : allp gb = allp gv;
  s_iv : Inv gv;
  s_ib : Inv gb }.
Definition simO (a b : outcome ug) : Prop := match a, b with Ok gv, Ok gb => sim gv gb | Throw, Throw => True | _, _ => False end.
Definition far (v : option nat) : option nat := Some (match v with Some v => v | None => n end).
Lemma joins_to : forall (e : uedge N) u v, node1 e < n -> (forall x, node2 e = Some x -> x < n) -> u < n -> (forall x, v = Some x -> x < n) -> (joins e u v <-> joins (to_node n e) u (far v)).
Proof.
  intros e u v H1 H2 Hu Hv. unfold joins, to_node, far; cbn [node1 node2]. destruct (node2 e) as [x|] eqn:E, v as [y|].
  - specialize (H2 x eq_refl). specialize (Hv y eq_refl). split; intros [[A B]|[A B]]; [left|right|left|right]; split; congruence.
  - specialize (H2 x eq_refl). split; intros [[A B]|[A B]]; try congruence; injection A as A || injection B as B; try lia; try congruence.
  - specialize (Hv y eq_refl). split; intros [[A B]|[A B]]; try congruence; [injection B as B; lia|]. injection A as A. injection B as B. lia.
  - split; intros [[A B]|[A B]]; try congruence; [left; split; congruence|left; split; [exact A|reflexivity]|]. injection A as A. lia.
Qed.
Lemma upd_map : forall A B (h : A -> B) f f' (l : list A) i, (forall a, h (f a) = f' (h a)) -> map h (upd_nth l i f) = upd_nth (map h l) i f'.
Proof. intros A B h f f' l. induction l as [|a l IH]; intros [|i] H; cbn; [reflexivity|reflexivity|now rewrite H|now rewrite IH]. Qed.
Lemma upd_same : forall A B (h : A -> B) f (l : list A) i, (forall a, h (f a) = h a) -> map h (upd_nth l i f) = map h l.
Proof. intros A B h f l. induction l as [|a l IH]; intros [|i] H; cbn; [reflexivity|reflexivity|now rewrite H|now rewrite IH]. Qed.
Lemma existsb_map : forall A B (h : A -> B) p l, existsb p (map h l) = existsb (fun a => p (h a)) l.
Proof. intros. induction l as [|a l IH]; cbn; [reflexivity|now rewrite IH]. Qed.
Lemma merge_sim : forall gv gb i o w p s, sim gv gb ->
  sim (fst (merge_edge gv i o w p s)) (fst (merge_edge gb i o w p s)) /\ snd (merge_edge gv i o w p s) = snd (merge_edge gb i o w p s).
Proof.
  intros gv gb i o w p s S. pose proof (merge_inv gv i o w p s (s_iv _ _ S)) as IV. pose proof (merge_inv gb i o w p s (s_ib _ _ S)) as IB. revert IV IB.
  unfold merge_edge. rewrite (s_edges _ _ S), nth_error_map. destruct (nth_error (edges gv) i) as [e|] eqn:E; cbn [option_map]; [|intros; split; [exact S|reflexivity]].
  assert (X : forall (f f' : uedge N -> uedge N) np, (forall a, to_node n (f a) = f' (to_node n a)) -> (forall a, node1 (f a) = node1 a) -> (forall a, node2 (f a) = node2 a) ->
    Inv (mkG (nodes gv) (upd_nth (edges gv) i f) (bnodes gv) (nobs gv) (if p_outside N np then false else allp gv) true) ->
    Inv (mkG (nodes gb) (upd_nth (map (to_node n) (edges gv)) i f') (bnodes gb) (nobs gb) (if p_outside N np then false else allp gb) true) ->
    sim (mkG (nodes gv) (upd_nth (edges gv) i f) (bnodes gv) (nobs gv) (if p_outside N np then false else allp gv) true)
        (mkG (nodes gb) (upd_nth (map (to_node n) (edges gv)) i f') (bnodes gb) (nobs gb) (if p_outside N np then false else allp gb) true)).
  { intros f f' np H F1 F2 IV IB. constructor; cbn [edges nodes bnodes nobs allp]; try (apply S); try assumption.
    - symmetry. now apply upd_map.
    - intros x Hx. assert (B : In (node1 x, node2 x) (map (fun a => (node1 a, node2 a)) (edges gv))) by (rewrite <- (upd_same _ _ (fun a : uedge N => (node1 a, node2 a)) f (edges gv) i) by (intros a; now rewrite F1, F2); now apply (in_map (fun a => (node1 a, node2 a)))).
      apply in_map_iff in B as (y & B & Hy). injection B as B1 B2. rewrite <- B1, <- B2. now apply (s_below _ _ S).
    - rewrite (s_nb _ _ S). replace (existsb lone (upd_nth (edges gv) i f)) with (existsb lone (edges gv)); [reflexivity|].
      assert (Q : forall l, existsb lone l = existsb (fun b => b) (map lone l)) by (intros l; now rewrite existsb_map). rewrite !Q. f_equal. symmetry. apply upd_same. intros a. unfold lone. now rewrite F2.
    - now rewrite (s_p _ _ S). }
  destruct s; cbn [weight prob obs to_node fst snd].
  - intros; split; [exact S|reflexivity].
  - intros; split; [|reflexivity]. apply X; auto.
  - destruct (w_ge N w (weight e)); cbn [fst snd]; intros; (split; [|reflexivity]); [exact S|]. apply X; auto.
  - intros; split; [exact S|reflexivity].
  - intros; split; [|reflexivity]. apply X; auto.
Qed.
Lemma add_sim : forall a b u v o w p s, simO a b -> u < n -> (forall x, v = Some x -> x < n) -> simO (addO a u v o w p s) (addO b u (far v) o w p s).
Proof.
  intros [gv| | |] [gb| | |] u v o w p s S Hu Hv; cbn [simO] in S; try contradiction; cbn [addO bindO simO]; [|exact Logic.I].
  assert (FE : forall e, In e (edges gv) -> (joins e u v <-> joins (to_node n e) u (far v))) by (intros e He; destruct (s_below _ _ S e He); now apply joins_to).
  destruct (find_edge (edges gv) u v) as [(i & e & Hi & HJ)|Hno].
  - rewrite (add_or_merge_old gv u v o w p s i e (s_iv _ _ S) Hi HJ).
    rewrite (add_or_merge_old gb u (far v) o w p s i (to_node n e) (s_ib _ _ S)); [|rewrite (s_edges _ _ S), nth_error_map, Hi; reflexivity|now apply FE; [apply nth_error_In in Hi|]].
    destruct (merge_sim gv gb i o w p s S) as [M1 M2]. destruct (merge_edge gv i o w p s) as [g1 t1], (merge_edge gb i o w p s) as [g2 t2]. cbn [fst snd] in *. subst t2. destruct t1; [exact Logic.I|exact M1].
  - destruct (add_or_merge_new gv u v o w p s (s_iv _ _ S) Hno) as (g1 & -> & I1 & E1 & B1 & O1 & A1 & _ & L1).
    destruct (add_or_merge_new gb u (far v) o w p s (s_ib _ _ S)) as (g2 & -> & I2 & E2 & B2 & O2 & A2 & _ & L2).
    { intros e He. rewrite (s_edges _ _ S) in He. apply in_map_iff in He as (x & <- & Hx). rewrite <- FE by exact Hx. now apply Hno. }
    cbn [simO]. constructor; try assumption.
    + rewrite E2, E1, map_app, (s_edges _ _ S). reflexivity.
    + intros x Hx. rewrite E1 in Hx. apply in_app_iff in Hx as [Hx|[<-|[]]]; [now apply (s_below _ _ S)|]. cbn [node1 node2]. auto.
    + rewrite L1, (s_nv _ _ S). unfold max_node. destruct v as [x|]; [specialize (Hv x eq_refl)|]; lia.
    + rewrite L2, (s_nb _ _ S), E1, existsb_app. cbn [existsb]. unfold lone at 3; cbn [node2]. unfold max_node, far. destruct v as [x|]; [specialize (Hv x eq_refl)|]; destruct (existsb lone (edges gv)); cbn [orb]; lia.
    + now rewrite B1, (s_bv _ _ S).
    + now rewrite B2, (s_bb _ _ S).
    + now rewrite O1, O2, (s_o _ _ S).
    + now rewrite A1, A2, (s_p _ _ S).
Qed.
Lemma fold_sim : forall B (f f' : outcome ug -> B -> outcome ug) l, (forall a b x, In x l -> simO a b -> simO (f a x) (f' b x)) -> forall a b, simO a b -> simO (fold_left f l a) (fold_left f' l b).
Proof. induction l as [|x l IH]; intros H a b S; [exact S|]. cbn [fold_left]. apply IH; [intros; apply H; [now right|assumption]|]. apply H; [now left|exact S]. Qed.
Lemma new_sim : forall k, sim (new_graph N n k) (new_graph N n k).
Proof. intros k. constructor; try reflexivity; try apply new_inv; cbn; rewrite ?repeat_length; try reflexivity. intros e []. Qed.
End Sim.

Section Load.
Context {N : numops}.
Lemma load_sim : forall rows cols faults fr (ws ps : list (num N)) s reps tws mes, (forall c r, In c cols -> In r c -> r < rows) ->
  match load_check_matrix rows cols faults fr ws ps s true reps tws mes, load_check_matrix rows cols faults fr ws ps s false reps tws mes with
  | Ok gv, Ok gb => same_layout (rows * reps) gv gb
  | Throw, Throw => True
  | _, _ => False
  end.
Proof.
  intros rows cols faults fr ws ps s reps tws mes HR. unfold load_check_matrix.
  destruct (negb (length ws =? length cols)); [exact Logic.I|]. destruct (negb (length ps =? length cols)); [exact Logic.I|]. destruct (negb (length cols =? length faults)); [exact Logic.I|].
  set (columns := map _ _). set (n := rows * reps).
  assert (HC : forall c, In c columns -> forall r, In r (fst (fst (fst c))) -> r < rows).
  { intros c Hc r Hr. unfold columns in Hc. apply in_map_iff in Hc as ([[c0 f0] [w0 p0]] & <- & Hc). cbn [fst] in Hr. apply in_combine_l, in_combine_l in Hc. exact (HR c0 r Hc Hr). }
  set (av := fold_left _ (seq 0 reps) _). set (ab := fold_left _ (seq 0 reps) (Ok (new_graph N n fr))).
  assert (S1 : simO n av ab).
  { unfold av, ab. apply fold_sim; [|exact (new_sim n fr)]. intros a b rep Hrep S. apply in_seq in Hrep. apply fold_sim; [|exact S]. intros a' b' [[[rs fs] w] p] Hc S'. specialize (HC _ Hc). cbn [fst] in HC.
    unfold load_column. destruct rs as [|r1 [|r2 [|r3 rs]]].
    - exact S'.
    - apply add_sim; [exact S'| |discriminate]. specialize (HC r1 (or_introl eq_refl)). unfold n. nia.
    - pose proof (HC r1 (or_introl eq_refl)). pose proof (HC r2 (or_intror (or_introl eq_refl))). apply (add_sim n a' b' (r1 + rows * rep) (Some (r2 + rows * rep))); [exact S'|unfold n; nia|]. intros x [= <-]. unfold n. nia.
    - destruct a', b'; cbn in *; tauto. }
  match goal with |- match bindO ?x _ with _ => _ end => set (bv := x) end. match goal with |- match _ with Ok _ => match bindO ?x _ with _ => _ end | _ => _ end => set (bb := x) end.
  assert (S2 : simO n bv bb).
  { unfold bv, bb. destruct (1 <? reps); [|exact S1]. destruct av as [gv| | |] eqn:Ea, ab as [gb| | |] eqn:Eb; cbn [simO] in S1; try contradiction; cbn [bindO]; [|exact Logic.I].
    destruct tws as [tws|]; [|exact Logic.I]. destruct mes as [mes|]; [|exact Logic.I]. destruct (negb (length tws =? rows)); [exact Logic.I|]. destruct (negb (length mes =? rows)); [exact Logic.I|].
    apply fold_sim; [|exact S1]. intros a b rep Hrep S. apply in_seq in Hrep. apply fold_sim; [|exact S]. intros a' b' [row [w p]] Hx S'. apply in_combine_l, in_seq in Hx.
    unfold load_timelike. apply (add_sim n a' b' (row + rep * rows) (Some (row + (rep + 1) * rows))); [exact S'|unfold n; nia|]. intros x [= <-]. unfold n. nia. }
  clearbody bv bb. destruct bv as [gv| | |], bb as [gb| | |]; cbn [simO] in S2; try contradiction; cbn [bindO negb andb]; [|exact Logic.I].
  assert (LB : existsb lone (edges gv) = true <-> exists e, In e (edges gv) /\ node2 e = None).
  { rewrite existsb_exists. split; intros (e & H & L); exists e; split; try exact H; unfold lone in *; [destruct (node2 e); [discriminate|reflexivity]|now rewrite L]. }
  destruct (length (nodes gb) =? n + 1) eqn:L.
  - apply Nat.eqb_eq in L. rewrite (s_nb _ _ _ S2) in L. destruct (existsb lone (edges gv)) eqn:X; [|lia]. destruct (set_boundary_props gb [n]) as (E & O & A & L' & _). rewrite (s_nb _ _ _ S2), X in L'.
    constructor; [rewrite E; apply S2|apply S2|apply S2|apply S2| | | |].
    + intros _. unfold num_nodes. rewrite L'. cbn [nodes_needed fold_right]. split; [lia|reflexivity].
    + intros H. destruct H. now apply LB.
    + now rewrite O, (s_o _ _ _ S2).
    + now rewrite A, (s_p _ _ _ S2).
  - apply Nat.eqb_neq in L. pose proof (s_nb _ _ _ S2) as NB. destruct (existsb lone (edges gv)) eqn:X; [lia|]. constructor; [apply S2|apply S2|apply S2|apply S2| | |apply S2|apply S2].
    + intros H. apply LB in H. discriminate.
    + intros _. split; [exact NB|apply S2].
Qed.
End Load.
