(** Proofs: the methods that make and inspect a graph behave as a table of edges. *)
From Coq Require Import Arith ZArith List Bool Lia Sorting.Sorted.
From Verif Require Import M_Base M_UserGraph S_UserGraph P_UserGraph M_GraphIO P_GraphIO S_GraphMap P_GraphMap M_PyGraph S_PyGraph.
Import ListNotations.
Local Open Scope nat_scope.

(** ** Arguments *)
Lemma sorted_same : forall o o', StronglySorted lt o -> StronglySorted lt o' -> (forall k, In k o <-> In k o') -> o = o'.
Proof.
  intros o o' H. revert o'. induction H as [|x o H IH F]; intros o' H' E.
  - destruct o' as [|y o']; [reflexivity|]. destruct (proj2 (E y) (or_introl eq_refl)).
  - destruct H' as [|y o' H' F']; [destruct (proj1 (E x) (or_introl eq_refl))|]. rewrite Forall_forall in F, F'.
    assert (x = y) as ->.
    { destruct (proj1 (E x) (or_introl eq_refl)) as [<-|Hx]; [reflexivity|]. destruct (proj2 (E y) (or_introl eq_refl)) as [->|Hy]; [reflexivity|]. apply F' in Hx. apply F in Hy. lia. }
    f_equal. apply IH; [exact H'|]. intros k. split; intros Hk.
    + destruct (proj1 (E k) (or_intror Hk)) as [<-|Hk']; [apply F in Hk; lia|exact Hk'].
    + destruct (proj2 (E k) (or_intror Hk)) as [<-|Hk']; [apply F' in Hk; lia|exact Hk'].
Qed.
Lemma same_set_unique : forall l o o', same_set l o -> same_set l o' -> o = o'.
Proof.
  intros l o o' [S1 H1] [S2 H2]. apply sorted_same; [exact S1|exact S2|]. intros k. split; intros Hk.
  - destruct (proj1 (H2 (Z.of_nat k)) (proj2 (H1 (Z.of_nat k)) (ex_intro _ k (conj Hk eq_refl)))) as (k' & Hk' & E). apply Nat2Z.inj in E. now subst.
  - destruct (proj1 (H1 (Z.of_nat k)) (proj2 (H2 (Z.of_nat k)) (ex_intro _ k (conj Hk eq_refl)))) as (k' & Hk' & E). apply Nat2Z.inj in E. now subst.
Qed.
Lemma set_of_set : forall o, is_set o -> set_of o = o.
Proof. intros o H. apply sorted_same; [apply set_of_sorted|exact H|]. intros k. apply set_of_in. Qed.
Lemma size_arg_cases : forall z, (exists k, z = Z.of_nat k /\ below (2 ^ 64) [k] /\ size_arg z = Ok (Z.of_nat k)) \/ (size_arg z = Throw /\ forall k, z = Z.of_nat k -> ~ below (2 ^ 64) [k]).
Proof.
  intros z. unfold size_arg. destruct (Z.leb_spec 0 z) as [H|H]; cbn [andb]; [destruct (Z.ltb_spec z (2 ^ 64)) as [L|L]|].
  - left. exists (Z.to_nat z). rewrite Z2Nat.id by exact H. split; [reflexivity|]. split; [|reflexivity]. intros k [<-|[]]. rewrite Z2Nat.id by exact H. exact L.
  - right. split; [reflexivity|]. intros k -> B. specialize (B k (or_introl eq_refl)). lia.
  - right. split; [reflexivity|]. intros k -> B. lia.
Qed.
Lemma int64_arg_cases : forall z, (exists k, z = Z.of_nat k /\ below (2 ^ 63) [k] /\ int64_arg z = Ok z) \/ ((int64_arg z = Throw \/ (int64_arg z = Ok z /\ (z < 0)%Z)) /\ forall k, z = Z.of_nat k -> ~ below (2 ^ 63) [k]).
Proof.
  intros z. unfold int64_arg. destruct (Z.leb_spec (- 2 ^ 63) z) as [H|H]; cbn [andb]; [destruct (Z.ltb_spec z (2 ^ 63)) as [L|L]|].
  - destruct (Z.lt_ge_cases z 0) as [Z0|Z0].
    + right. split; [right; split; [reflexivity|exact Z0]|]. intros k ->. lia.
    + left. exists (Z.to_nat z). rewrite Z2Nat.id by exact Z0. split; [reflexivity|]. split; [|reflexivity]. intros k [<-|[]]. rewrite Z2Nat.id by exact Z0. exact L.
  - right. split; [now left|]. intros k -> B. specialize (B k (or_introl eq_refl)). lia.
  - right. split; [now left|]. intros k -> B. lia.
Qed.
Lemma size_args_cases : forall l, (size_args l = Ok (map Z.to_nat l) /\ forall z, In z l -> (0 <= z < 2 ^ 64)%Z) \/ (size_args l = Throw /\ exists z, In z l /\ ~ (0 <= z < 2 ^ 64)%Z).
Proof.
  induction l as [|z l IH]; [left; split; [reflexivity|intros z []]|]. cbn [size_args]. unfold size_arg. destruct (Z.leb_spec 0 z) as [H|H]; cbn [andb]; [destruct (Z.ltb_spec z (2 ^ 64)) as [L|L]|].
  - cbn [bindO]. destruct IH as [[-> F]|[-> (y & Hy & B)]]; [left|right]; cbn [bindO].
    + split; [reflexivity|]. intros y [<-|Hy]; [lia|now apply F].
    + split; [reflexivity|]. exists y. split; [now right|exact B].
  - right. split; [reflexivity|]. exists z. split; [now left|lia].
  - right. split; [reflexivity|]. exists z. split; [now left|lia].
Qed.
Lemma set_arg_cases : forall i, (exists l o, i = IdSet l /\ same_set l o /\ below (2 ^ 64) o /\ set_arg i = Ok o) \/ (set_arg i = Throw /\ forall l o, i = IdSet l -> same_set l o -> ~ below (2 ^ 64) o).
Proof.
  intros [z|l|]; [right; split; [reflexivity|discriminate]| |right; split; [reflexivity|discriminate]]. cbn [set_arg]. destruct (size_args_cases l) as [[-> F]|[-> (z & Hz & B)]]; cbn [bindO].
  - left. exists l, (set_of (map Z.to_nat l)). split; [reflexivity|]. split; [split; [apply set_of_sorted|]|split; [|reflexivity]].
    + intros z. split.
      * intros Hz. exists (Z.to_nat z). split; [apply set_of_in; now apply in_map|]. specialize (F z Hz). lia.
      * intros (k & Hk & ->). apply (proj1 (set_of_in _ _)) in Hk. apply in_map_iff in Hk as (y & <- & Hy). specialize (F y Hy). now rewrite Z2Nat.id by lia.
    + intros k Hk. apply (proj1 (set_of_in _ _)) in Hk. apply in_map_iff in Hk as (y & <- & Hy). specialize (F y Hy). lia.
  - right. split; [reflexivity|]. intros l' o [= <-] [_ SS] BL. apply (proj1 (SS z)) in Hz as (k & Hk & ->). specialize (BL k Hk). lia.
Qed.
Lemma ids_cases : forall i, (exists o, ids_mean i o /\ ids_arg i = Ok o) \/ (ids_arg i = Throw /\ forall o, ~ ids_mean i o).
Proof.
  intros [[z|l|]|].
  - cbn [ids_arg]. destruct (Z.eqb_spec z (-1)) as [->|NE]; [left; exists []; split; [|reflexivity]; split; [intros k []|left; split; reflexivity]|].
    destruct (set_arg_cases (IdSet [z])) as [(l & o & E & SS & BL & ->)|[-> B]].
    + injection E as <-. left. exists o. split; [|reflexivity]. split; [exact BL|]. right. destruct (proj1 (proj2 SS z) (or_introl eq_refl)) as (k & Hk & ->). exists k. split; [reflexivity|].
      apply (same_set_unique [Z.of_nat k]); [exact SS|]. split; [repeat constructor|]. intros y. split; [intros [<-|[]]; exists k; split; [now left|reflexivity]|]. intros (k' & [<-|[]] & ->). now left.
    + right. split; [reflexivity|]. intros o [BL [[-> _]|(k & -> & ->)]]; [now apply NE|]. apply (B [Z.of_nat k] [k] eq_refl); [|exact BL]. split; [repeat constructor|]. intros y. split; [intros [<-|[]]; exists k; split; [now left|reflexivity]|]. intros (k' & [<-|[]] & ->). now left.
  - cbn [ids_arg]. destruct (set_arg_cases (IdSet l)) as [(l' & o & E & SS & BL & ->)|[-> B]]; [left; injection E as <-; exists o; split; [split; assumption|reflexivity]|right; split; [reflexivity|]]. intros o [BL SS]. exact (B l o eq_refl SS BL).
  - right. split; [reflexivity|]. intros o [_ []].
  - left. exists []. split; [split; [intros k []|reflexivity]|reflexivity].
Qed.
Lemma ids_unique : forall i o o', ids_mean i o -> ids_mean i o' -> o = o'.
Proof.
  intros [[z|l|]|] o o' [_ H] [_ H'].
  - destruct H as [[-> ->]|(k & -> & ->)], H' as [[E ->]|(k' & E & ->)]; try reflexivity; try lia. apply Nat2Z.inj in E. now subst.
  - exact (same_set_unique l o o' H H').
  - destruct H.
  - congruence.
Qed.
Lemma ids_set : forall i o, ids_mean i o -> is_set o.
Proof. intros [[z|l|]|] o [_ H]; [destruct H as [[_ ->]|(k & _ & ->)]; repeat constructor|apply H|destruct H|subst; constructor]. Qed.

(** ** Edges *)
Section Edges.
Context {N : numops}.
Variable cap : nat.
Notation ug := (ugraph N).
Definition edge_of (x : nat * option nat * attr N) : uedge N := let '(u, v, (o, w, p)) := x in mkE u v o w p.
Lemma edge_nodes : forall x, node1 (edge_of x) = fst (fst x) /\ node2 (edge_of x) = snd (fst x).
Proof. intros [[u v] [[o w] p]]. split; reflexivity. Qed.
Lemma edge_attributes : forall x, attributes_of (edge_of x) = snd x.
Proof. intros [[u v] [[o w] p]]. reflexivity. Qed.
Lemma pair_sym : forall u v x y, same_pair u v x y = same_pair x y u v.
Proof. intros u v x y. apply eq_true_iff_eq. rewrite !same_pair_spec. split; intros [[-> ->]|[-> ->]]; auto. Qed.
Lemma about_joins : forall u v x, about u v x = true <-> joins (edge_of x) u v.
Proof. intros u v x. destruct (edge_nodes x) as [E1 E2]. unfold about. rewrite pair_sym, joins_same_pair, E1, E2. reflexivity. Qed.

Definition stands (g : ug) (t : table N) : Prop :=
  Inv g /\ edges g = map edge_of (entries t) /\ num_nodes g = size t /\ bnodes g = declared t /\ nobs g = faults t /\
  (forall x, In x (entries t) -> is_set (fst (fst (snd x)))) /\ is_set (declared t) /\ (forall k, In k (declared t) -> k < size t) /\ size t <= cap.

Lemma lookup_data : forall g t u v, stands g t -> get_edge_data g u v = lookup t u v.
Proof.
  intros g t u v (I & E & _). unfold lookup. destruct (find (about u v) (entries t)) as [x|] eqn:F; cbn [option_map].
  - apply List.find_some in F as [F1 F2]. apply get_edge_data_spec; [exact I|]. exists (edge_of x). rewrite E, edge_attributes. split; [now apply in_map|]. split; [now apply about_joins|reflexivity].
  - destruct (get_edge_data g u v) as [a|] eqn:D; [|reflexivity]. apply (get_edge_data_spec g u v a I) in D as (e & He & HJ & _). rewrite E in He. apply in_map_iff in He as (x & <- & Hx). apply about_joins in HJ.
    rewrite (List.find_none _ _ F x Hx) in HJ. discriminate.
Qed.
Lemma lookup_has : forall g t u v, stands g t -> has_edge g u v = if lookup t u v then true else false.
Proof. intros g t u v S. rewrite has_edge_data by apply S. rewrite (lookup_data g t u v S). reflexivity. Qed.
Lemma lookup_set : forall g t u v o w p, stands g t -> lookup t u v = Some (o, w, p) -> is_set o.
Proof.
  intros g t u v o w p (_ & _ & _ & _ & _ & S & _) L. unfold lookup in L. destruct (find _ _) as [x|] eqn:F; [|discriminate]. apply List.find_some in F as [F _]. injection L as L. specialize (S x F). now rewrite L in S.
Qed.
Lemma raise_fold : forall o n, raise_nobs n o = fold_right Nat.max n (map S o).
Proof.
  unfold raise_nobs. induction o as [|x o IH]; intros n; [reflexivity|]. cbn [fold_left map fold_right]. rewrite IH. clear IH.
  assert (X : forall l m, fold_right Nat.max m l = Nat.max m (fold_right Nat.max 0 l)) by (induction l as [|y l IH]; intros m; cbn; [lia|rewrite IH; lia]).
  rewrite (X _ (if n <? x + 1 then x + 1 else n)), (X _ n). destruct (Nat.ltb_spec n (x + 1)); lia.
Qed.
Lemma needed_fold : forall o n, Nat.max n (nodes_needed (N := N) (OpSetBoundary o)) = fold_right Nat.max n (map S o).
Proof. intros o n. cbn [nodes_needed]. induction o as [|x o IH]; cbn [fold_right map]; [lia|]. rewrite <- IH. lia. Qed.
Lemma nth_error_same : forall (A : Type) (l l' : list A), (forall k, nth_error l k = nth_error l' k) -> l = l'.
Proof. induction l as [|a l IH]; intros [|b l'] H; [reflexivity|discriminate (H 0)|discriminate (H 0)|]. pose proof (H 0) as H0. injection H0 as ->. f_equal. apply IH. intros k. exact (H (S k)). Qed.
Lemma upd_map : forall (g : ug) u v i e f, Inv g -> nth_error (edges g) i = Some e -> joins e u v ->
  upd_nth (edges g) i f = map (fun x => if joins_dec x u v then f x else x) (edges g).
Proof.
  intros g u v i e f (_ & _ & SI) He HJ. apply nth_error_same. intros j. rewrite upd_nth_nth_error, nth_error_map. destruct (nth_error (edges g) j) as [x|] eqn:Hx; cbn [option_map]; [|destruct (j =? i); reflexivity].
  destruct (joins_dec x u v) as [JX|JX].
  - assert (j = i) as -> by (eapply SI; eauto; eapply joins_eq; eauto). now rewrite Nat.eqb_refl.
  - destruct (Nat.eqb_spec j i) as [->|]; [|reflexivity]. rewrite Hx in He. injection He as ->. contradiction.
Qed.
Lemma stands_new : forall n k, n <= cap -> stands (new_graph N n k) (mkT n [] [] k).
Proof.
  intros n k C. split; [apply new_inv|]. split; [reflexivity|]. split; [apply repeat_length|]. split; [reflexivity|]. split; [reflexivity|]. split; [intros x []|]. split; [constructor|split; [intros x []|exact C]].
Qed.
Lemma map_about : forall (l : list (nat * option nat * attr N)) u v f h, (forall x, edge_of (h x) = f (edge_of x)) ->
  map (fun e => if joins_dec e u v then f e else e) (map edge_of l) = map edge_of (map (fun x => if about u v x then h x else x) l).
Proof.
  intros l u v f h E. rewrite !map_map. apply map_ext. intros x. destruct (joins_dec (edge_of x) u v) as [J|J].
  - apply about_joins in J. rewrite J. symmetry. apply E.
  - destruct (about u v x) eqn:A; [apply about_joins in A; contradiction|reflexivity].
Qed.
Lemma entry_eta : forall (x : nat * option nat * attr N), x = (fst x, snd x).
Proof. now intros [a b]. Qed.
Lemma map_about_same : forall (l : list (nat * option nat * attr N)) u v h, (forall x, In x l -> about u v x = true -> h x = x) -> map (fun x => if about u v x then h x else x) l = l.
Proof. intros l u v h E. rewrite <- (map_id l) at 2. apply map_ext_in. intros x Hx. destruct (about u v x) eqn:A; [now apply E|reflexivity]. Qed.
Lemma add_stands : forall g t u v o w p s, stands g t -> is_set o -> largest u v < cap -> let g' := fst (add_or_merge g u v o w p s) in
  match s, lookup t u v with
  | DISALLOW, Some _ => add_or_merge g u v o w p s = (g, true)
  | _, _ => snd (add_or_merge g u v o w p s) = false /\ stands g' (enter t u v (o, w, p) s)
  end.
Proof.
  intros g t u v o w p s ST SO LC g'. pose proof ST as (I & E & SZ & BN & NO & SS & SD & DB & SC). destruct (find_edge (edges g) u v) as [(i & e & He & HJ)|Hno].
  - pose proof (add_or_merge_old g u v o w p s i e I He HJ) as A. assert (HX : exists x, In x (entries t) /\ edge_of x = e /\ about u v x = true).
    { pose proof (nth_error_In _ _ He) as Hin. rewrite E in Hin. apply in_map_iff in Hin as (x & <- & Hx). exists x. split; [exact Hx|]. split; [reflexivity|now apply about_joins]. }
    destruct HX as (x & Hx & Ex & Ax). assert (LK : lookup t u v = Some (attributes_of e)).
    { rewrite <- (lookup_data g t u v ST). apply get_edge_data_spec; [exact I|]. exists e. split; [exact (nth_error_In _ _ He)|]. now split. }
    assert (UN : forall y, In y (entries t) -> about u v y = true -> y = x).
    { intros y Hy Ay. destruct (In_nth_error _ _ Hy) as [j Hj]. destruct (In_nth_error _ _ Hx) as [j' Hj']. assert (j = j'); [|congruence].
      apply (proj2 (proj2 I) j j' (edge_of y) (edge_of x)); [rewrite E; now apply map_nth_error|rewrite E; now apply map_nth_error|]. apply about_joins in Ay, Ax. eapply joins_eq; eauto. }
    assert (ENT : entries (enter t u v (o, w, p) s) = map (fun y => if about u v y then (fst y, merged s (snd y) (o, w, p)) else y) (entries t)) by (unfold enter; now rewrite LK).
    assert (SAME : merged s (snd x) (o, w, p) = snd x -> entries (enter t u v (o, w, p) s) = entries t).
    { intros M. rewrite ENT. apply map_about_same. intros y Hy Ay. rewrite (UN y Hy Ay), M. symmetry. apply entry_eta. }
    assert (REST : size (enter t u v (o, w, p) s) = size t /\ declared (enter t u v (o, w, p) s) = declared t /\ faults (enter t u v (o, w, p) s) = faults t) by (unfold enter; now rewrite LK).
    destruct REST as (R1 & R2 & R3).
    assert (SE : forall y, In y (entries (enter t u v (o, w, p) s)) -> is_set (fst (fst (snd y)))).
    { rewrite ENT. intros y Hy. apply in_map_iff in Hy as (z & <- & Hz). destruct (about u v z); [|now apply SS]. specialize (SS z Hz). destruct z as [[zu zv] [[zo zw] zp]]. cbn [snd fst merged] in *. destruct s; cbn [fst]; try assumption. destruct (w_ge N w zw); assumption. }
    assert (KEEP : entries (enter t u v (o, w, p) s) = entries t -> stands g (enter t u v (o, w, p) s)).
    { intros EE. split; [exact I|]. split; [now rewrite EE|]. rewrite R1, R2, R3. split; [exact SZ|]. split; [exact BN|]. split; [exact NO|]. split; [exact SE|]. split; [exact SD|]. split; assumption. }
    assert (STORE : forall f b, (forall y, In y (entries t) -> about u v y = true -> edge_of (fst y, merged s (snd y) (o, w, p)) = f (edge_of y)) -> (forall e, node1 (f e) = node1 e /\ node2 (f e) = node2 e) ->
              stands (mkG (nodes g) (upd_nth (edges g) i f) (bnodes g) (nobs g) b true) (enter t u v (o, w, p) s)).
    { intros f b Hf Kf. split; [eapply Inv_upd; eauto|]. split; [|rewrite R1, R2, R3; split; [exact SZ|]; split; [exact BN|]; split; [exact NO|]; split; [exact SE|]; split; [exact SD|]; split; assumption].
      cbn [edges]. rewrite (upd_map g u v i e f I He HJ), ENT, E, !map_map. apply map_ext_in. intros y Hy. destruct (joins_dec (edge_of y) u v) as [J|J].
      - apply about_joins in J. rewrite J. symmetry. now apply Hf.
      - destruct (about u v y) eqn:AY; [apply about_joins in AY; contradiction|reflexivity]. }
    unfold g'. rewrite LK, A. unfold merge_edge. rewrite He. destruct x as [[xu xv] [[xo xw] xp]]. cbn in Ex. subst e. cbn [attributes_of obs weight prob snd] in *.
    destruct s; [reflexivity| | | |]; cbn [fst snd].
    + split; [reflexivity|]. apply STORE; [|intros; split; reflexivity]. intros y Hy Ay. rewrite (UN y Hy Ay). reflexivity.
    + destruct (w_ge N w xw) eqn:W; cbn [fst snd].
      * split; [reflexivity|]. apply KEEP, SAME. cbn [merged]. now rewrite W.
      * split; [reflexivity|]. apply STORE; [|intros; split; reflexivity]. intros y Hy Ay. rewrite (UN y Hy Ay). cbn [snd merged fst]. rewrite W. reflexivity.
    + split; [reflexivity|]. apply KEEP, SAME. reflexivity.
    + split; [reflexivity|]. apply STORE; [|intros; split; reflexivity]. intros y Hy Ay. rewrite (UN y Hy Ay). reflexivity.
  - destruct (add_or_merge_new g u v o w p s I Hno) as (g1 & A & I1 & E1 & B1 & N1 & _ & _ & L1).
    assert (LK : lookup t u v = None). { rewrite <- (lookup_data g t u v ST). apply data_none; assumption. }
    unfold g'. rewrite LK, A. cbn [fst snd]. assert (X : false = false /\ stands g1 (enter t u v (o, w, p) s)); [|destruct s; exact X]. split; [reflexivity|].
    unfold enter. rewrite LK. split; [exact I1|]. cbn [entries size declared faults]. split; [rewrite E1, E, map_app; reflexivity|]. split; [unfold num_nodes in *; rewrite L1, SZ; destruct v; reflexivity|].
    split; [congruence|]. split; [rewrite N1, NO; apply raise_fold|]. split; [|split; [exact SD|split; [intros k Hk; specialize (DB k Hk); lia|lia]]].
    intros y Hy. apply in_app_or in Hy as [Hy|[<-|[]]]; [now apply SS|exact SO].
Qed.
Lemma filter_split : forall A (f : A -> bool) l, length (filter f l) + length (filter (fun x => negb (f x)) l) = length l.
Proof. induction l as [|a l IH]; [reflexivity|]. cbn [filter]. destruct (f a); cbn [negb length]; lia. Qed.
Lemma not_declared : forall (d : list nat) n, is_set d -> (forall k, In k d -> k < n) -> n - length d = length (filter (fun v => negb (existsb (Nat.eqb v) d)) (seq 0 n)).
Proof.
  intros d n SD DB. assert (ND : NoDup d) by now apply sorted_nodup.
  assert (L : length (filter (fun v => existsb (Nat.eqb v) d) (seq 0 n)) = length d).
  { apply Nat.le_antisymm.
    - apply NoDup_incl_length; [apply NoDup_filter, seq_NoDup|]. intros v Hv. apply filter_In in Hv as [_ Hv]. apply existsb_exists in Hv as (y & Hy & Ey). apply Nat.eqb_eq in Ey. now subst.
    - apply NoDup_incl_length; [exact ND|]. intros v Hv. apply filter_In. split; [apply in_seq; specialize (DB v Hv); lia|]. apply existsb_exists. exists v. split; [exact Hv|apply Nat.eqb_refl]. }
  pose proof (filter_split _ (fun v => existsb (Nat.eqb v) d) (seq 0 n)) as FL. rewrite seq_length, L in FL. lia.
Qed.

(** ** Calls *)
Definition cap_add (g : ug) (u : nat) (v : option nat) (o : list nat) (w p : num N) (s : strategy) : ug * bool :=
  if (num_nodes g <? largest u v + 1) && (cap <? largest u v + 1) then (g, true) else add_or_merge g u v o w p s.
Lemma cap_add_eq : forall g t u v o w p s, stands g t -> cap_add g u v o w p s = if cap <=? largest u v then (g, true) else add_or_merge g u v o w p s.
Proof.
  intros g t u v o w p s (_ & _ & SZ & _ & _ & _ & _ & _ & SC). unfold cap_add. rewrite SZ. destruct (Nat.leb_spec cap (largest u v)), (Nat.ltb_spec (size t) (largest u v + 1)), (Nat.ltb_spec cap (largest u v + 1)); cbn [andb]; try reflexivity; lia.
Qed.
Notation pycall := (pycall N). Notation pyreply := (pyreply N).
Definition adding (c : pycall) : bool := match c with AddEdge _ _ _ _ _ _ _ | AddBoundaryEdge _ _ _ _ _ _ => true | _ => false end.
Lemma asked_once : forall (c : pycall) u v a s u' v' a' s', asks_for c u v a s -> asks_for c u' v' a' s' -> u = u' /\ v = v' /\ a = a' /\ s = s'.
Proof.
  intros c u v [[o w] p] s u' v' [[o' w'] p'] s' H H'. destruct c; cbn in H, H'; try contradiction.
  - destruct H as (-> & (x & -> & -> & _) & H & -> & -> & ->), H' as (E & (x' & -> & E' & _) & H' & -> & -> & ->). apply Nat2Z.inj in E, E'. subst. repeat split.
    f_equal. f_equal. destruct fault_ids as [i|], qubit_id as [q|]; try contradiction; eapply ids_unique; eauto.
  - destruct H as (-> & -> & _ & H & -> & -> & ->), H' as (E & -> & _ & H' & -> & -> & ->). apply Nat2Z.inj in E. subst. repeat split. f_equal. f_equal. eapply ids_unique; eauto.
Qed.
Lemma asked_set : forall (c : pycall) u v o w p s, asks_for c u v (o, w, p) s -> is_set o.
Proof.
  intros c u v o w p s H. destruct c; cbn in H; try contradiction.
  - destruct H as (_ & _ & H & _). destruct fault_ids as [i|], qubit_id as [q|]; try contradiction; eapply ids_set; eauto.
  - destruct H as (_ & _ & _ & H & _). eapply ids_set; eauto.
Qed.
Lemma add_cases : forall (g : ug) (c : pycall), adding c = true ->
  (exists u v o w p s, asks_for c u v (o, w, p) s /\ pystep cap g c = done (if w_exceeds N w then (g, false) else match s with None => (g, true) | Some s => cap_add g u v o w p s end)) \/
  (pystep cap g c = (g, Raised) /\ forall u v a s, ~ asks_for c u v a s).
Proof.
  intros g c AC. destruct c; try discriminate AC; cbn [pystep].
  - unfold add_edge. assert (X : forall i, (exists o, ids_mean i o /\ ids_arg i = Ok o) \/ (ids_arg i = Throw /\ forall o, ~ ids_mean i o)) by apply ids_cases.
    assert (Y : forall i, (forall o, match fault_ids, qubit_id with Some _, Some _ => False | None, Some q => ids_mean q o | _, None => ids_mean fault_ids o end <-> ids_mean i o) ->
      let r := or_raised (bindO (ids_arg i) (fun o => bindO (int64_arg u) (fun u' => bindO (int64_arg v) (fun v' => Ok (o, u', v'))))) g (fun '(o, u', v') => done (pybind_add cap g u' (Some v') o w (prob_arg p) s)) in
      (exists u0 v0 o w0 p0 s0, asks_for (AddEdge u v fault_ids qubit_id w p s) u0 v0 (o, w0, p0) s0 /\ r = done (if w_exceeds N w0 then (g, false) else match s0 with None => (g, true) | Some s => cap_add g u0 v0 o w0 p0 s end)) \/
      (r = (g, Raised) /\ forall u0 v0 a s0, ~ asks_for (AddEdge u v fault_ids qubit_id w p s) u0 v0 a s0)).
    { intros i HI r. unfold r. destruct (X i) as [(o & HO & ->)|[-> HO]]; cbn [bindO or_raised].
      2: { right. split; [reflexivity|]. intros u0 v0 [[o w0] p0] s0 (_ & _ & H & _). apply (HO o), HI, H. }
      destruct (int64_arg_cases u) as [(ku & Eu & Bu & ->)|[[->|[-> Nu]] Bu]]; cbn [bindO or_raised].
      2: { right. split; [reflexivity|]. intros u0 v0 [[o' w0] p0] s0 (-> & (x & _ & _ & B) & _). apply (Bu u0 eq_refl). intros k [<-|[]]. apply B. now left. }
      - destruct (int64_arg_cases v) as [(kv & Ev & Bv & ->)|[[->|[-> Nv]] Bv]]; cbn [bindO or_raised].
        + left. exists ku, (Some kv), o, w, (match p with Some p => p | None => p_none N end), s. split.
          * split; [exact Eu|]. split; [exists kv; split; [reflexivity|]; split; [exact Ev|]; intros k [<-|[<-|[]]]; [apply Bu|apply Bv]; now left|]. split; [apply HI, HO|]. auto.
          * unfold pybind_add. subst u v. rewrite !Nat2Z.id. destruct (Z.ltb_spec (Z.of_nat ku) 0); [lia|]. destruct (Z.ltb_spec (Z.of_nat kv) 0); [lia|]. reflexivity.
        + right. split; [reflexivity|]. intros u0 v0 [[o' w0] p0] s0 (_ & (x & _ & -> & B) & _). apply (Bv x eq_refl). intros k [<-|[]]. apply B. right. now left.
        + right. split; [unfold pybind_add; destruct (Z.ltb_spec v 0); [|lia]; rewrite orb_true_r; reflexivity|]. intros u0 v0 [[o' w0] p0] s0 (_ & (x & _ & -> & B) & _). lia.
      - right. split; [|intros u0 v0 [[o' w0] p0] s0 (-> & _); lia]. destruct (int64_arg_cases v) as [(kv & Ev & Bv & ->)|[[->|[-> Nv]] Bv]]; cbn [bindO or_raised]; try reflexivity; unfold pybind_add; (destruct (Z.ltb_spec u 0); [reflexivity|lia]). }
    destruct fault_ids as [i|], qubit_id as [q|].
    + right. split; [reflexivity|]. intros u0 v0 [[o w0] p0] s0 (_ & _ & [] & _).
    + apply (Y (Some i)). intros o. reflexivity.
    + apply (Y q). intros o. reflexivity.
    + apply (Y None). intros o. reflexivity.
  - unfold add_boundary_edge. destruct (ids_cases fault_ids) as [(o & HO & ->)|[-> HO]]; cbn [bindO or_raised].
    2: { right. split; [reflexivity|]. intros u0 v0 [[o w0] p0] s0 (_ & _ & _ & H & _). apply (HO o H). }
    destruct (int64_arg_cases u) as [(ku & Eu & Bu & ->)|[[->|[-> Nu]] Bu]]; cbn [bindO or_raised].
    + left. exists ku, None, o, w, (match p with Some p => p | None => p_none N end), s. split.
      * split; [exact Eu|]. split; [reflexivity|]. split; [exact Bu|]. split; [exact HO|]. auto.
      * unfold pybind_add. subst u. rewrite !Nat2Z.id. destruct (Z.ltb_spec (Z.of_nat ku) 0); [lia|]. reflexivity.
    + right. split; [reflexivity|]. intros u0 v0 [[o' w0] p0] s0 (-> & _ & B & _). apply (Bu u0 eq_refl B).
    + right. split; [unfold pybind_add; destruct (Z.ltb_spec u 0); [reflexivity|lia]|]. intros u0 v0 [[o' w0] p0] s0 (-> & _). lia.
Qed.
Definition adding_right (t : table N) (c : pycall) (r : pyreply) (t' : table N) : Prop :=
  (forall u v o w p s, asks_for c u v (o, w, p) s ->
     if w_exceeds N w then r = Done /\ t' = t
     else match s, lookup t u v with
          | None, _ | Some DISALLOW, Some _ => r = Raised /\ t' = t
          | Some s, _ => if cap <=? largest u v then r = Raised /\ t' = t else r = Done /\ t' = enter t u v (o, w, p) s
          end) /\
  ((forall u v a s, ~ asks_for c u v a s) -> r = Raised /\ t' = t).
Lemma add_right : forall (g : ug) t (c : pycall), stands g t -> adding c = true -> let r := pystep cap g c in
  exists t', adding_right t c (snd r) t' /\ stands (fst r) t' /\ (snd r = Raised -> fst r = g).
Proof.
  intros g t c ST AC r. unfold r. clear r. destruct (add_cases g c AC) as [(u & v & o & w & p & s & AF & ->)|[-> NA]].
  - match goal with |- context[done ?x] => set (r := done x) end.
    assert (Q : exists t', (if w_exceeds N w then snd r = Done /\ t' = t
     else match s, lookup t u v with
          | None, _ | Some DISALLOW, Some _ => snd r = Raised /\ t' = t
          | Some s', _ => if cap <=? largest u v then snd r = Raised /\ t' = t else snd r = Done /\ t' = enter t u v (o, w, p) s'
          end) /\ stands (fst r) t' /\ (snd r = Raised -> fst r = g)).
    { unfold r. destruct (w_exceeds N w) eqn:W; [exists t; split; [split; reflexivity|]; split; [exact ST|reflexivity]|]. destruct s as [s|]; [|exists t; split; [split; reflexivity|]; split; [exact ST|reflexivity]].
      rewrite (cap_add_eq g t u v o w p s ST). destruct (Nat.leb_spec cap (largest u v)) as [LC|LC]; [exists t; cbn [done fst snd]; split; [destruct s, (lookup t u v); split; reflexivity|]; split; [exact ST|reflexivity]|].
      pose proof (add_stands g t u v o w p s ST (asked_set _ _ _ _ _ _ _ AF) LC) as A. cbv zeta in A. destruct s; try (destruct A as [A1 A2]; exists (enter t u v (o, w, p) INDEPENDENT) + exists (enter t u v (o, w, p) SMALLEST_WEIGHT) + exists (enter t u v (o, w, p) KEEP_ORIGINAL) + exists (enter t u v (o, w, p) REPLACE); unfold done; cbn [fst snd]; rewrite A1; split; [split; reflexivity|]; split; [exact A2|discriminate]).
      destruct (lookup t u v) as [a|]; [rewrite A; exists t; split; [split; reflexivity|]; split; [exact ST|reflexivity]|]. destruct A as [A1 A2]. exists (enter t u v (o, w, p) DISALLOW). unfold done. cbn [fst snd]. rewrite A1. split; [split; reflexivity|]. split; [exact A2|discriminate]. }
    destruct Q as (t' & Q1 & Q2). exists t'. split; [|exact Q2]. split; [|intros NA; destruct (NA _ _ _ _ AF)]. intros u' v' o' w' p' s' AF'. destruct (asked_once _ _ _ _ _ _ _ _ _ AF AF') as (<- & <- & E & <-). injection E as <- <- <-. exact Q1.
  - exists t. split; [|split; [exact ST|reflexivity]]. split; [|split; reflexivity]. intros u v o w p s AF. destruct (NA _ _ _ _ AF).
Qed.
Lemma target_node : forall k, Z.of_nat k <> (2 ^ 64 - 1)%Z -> target (Z.of_nat k) = Some k.
Proof. intros k H. unfold target. destruct (Z.eqb_spec (Z.of_nat k) (2 ^ 64 - 1)); [contradiction|]. now rewrite Nat2Z.id. Qed.
Lemma data_right : forall (g : ug) t u v, stands g t -> data g (Z.of_nat u) v = (g, match lookup t u v with Some (o, w, p) => Data o w p | None => Raised end).
Proof.
  intros g t u v ST. unfold data. rewrite Nat2Z.id, (lookup_data g t u v ST). destruct (lookup t u v) as [[[o w] p]|] eqn:L; [|reflexivity]. now rewrite set_of_set by (eapply lookup_set; eauto).
Qed.
Lemma two_args : forall (g : ug) u v f,
  (exists ku kv, u = Z.of_nat ku /\ v = Z.of_nat kv /\ below (2 ^ 64) [ku; kv] /\ or_raised (bindO (size_arg u) (fun u' => bindO (size_arg v) (fun v' => Ok (u', v')))) g f = f (u, v)) \/
  (or_raised (bindO (size_arg u) (fun u' => bindO (size_arg v) (fun v' => Ok (u', v')))) g f = (g, Raised) /\ forall ku kv, u = Z.of_nat ku -> v = Z.of_nat kv -> ~ below (2 ^ 64) [ku; kv]).
Proof.
  intros g u v f. destruct (size_arg_cases u) as [(ku & Eu & Bu & ->)|[-> Bu]]; cbn [bindO or_raised].
  - destruct (size_arg_cases v) as [(kv & Ev & Bv & ->)|[-> Bv]]; cbn [bindO or_raised].
    + left. exists ku, kv. subst. split; [reflexivity|]. split; [reflexivity|]. split; [|reflexivity]. intros k [<-|[<-|[]]]; [apply Bu|apply Bv]; now left.
    + right. split; [reflexivity|]. intros a b _ E B. apply (Bv b E). intros k [<-|[]]. apply B. right. now left.
  - right. split; [reflexivity|]. intros a b E _ B. apply (Bu a E). intros k [<-|[]]. apply B. now left.
Qed.
Lemma listed_shown : forall x : nat * option nat * attr N, is_set (fst (fst (snd x))) -> listed_edge (edge_of x) = (fst x, shown (snd x)).
Proof. intros [[u v] [[o w] p]] H. cbn in H. unfold listed_edge. cbn. now rewrite set_of_set. Qed.
Lemma set_boundary_done : forall (g : ug) t o, stands g t -> (forall k, In k o -> k < cap) -> set_boundary_nodes cap g o = (set_boundary g o, Done).
Proof.
  intros g t o (_ & _ & SZ & BN & _ & _ & _ & DB & _) HO. unfold set_boundary_nodes. destruct (existsb _ (bnodes g)) eqn:X.
  - apply existsb_exists in X as (k & Hk & L). apply Nat.leb_le in L. rewrite BN in Hk. specialize (DB k Hk). lia.
  - assert (F : filter (fun n => n <? cap) o = o /\ filter (fun n => negb (n <? cap)) o = []); [|destruct F as [-> ->]; reflexivity].
    clear -HO. induction o as [|x o IH]; [split; reflexivity|]. destruct IH as [I1 I2]; [intros k Hk; apply HO; now right|]. cbn [filter]. destruct (Nat.ltb_spec x cap) as [|X]; cbn [negb]; [rewrite I1, I2; split; reflexivity|]. specialize (HO x (or_introl eq_refl)). lia.
Qed.
Lemma or_raised_defined : forall A (x : outcome A) (g : ug) k, (forall a, snd (k a) <> Undefined) -> snd (or_raised x g k) <> (@Undefined N).
Proof. intros A [a| | |] g k H; cbn [or_raised]; [apply H|..]; discriminate. Qed.
Lemma done_defined : forall r : ug * bool, snd (done r) <> (@Undefined N).
Proof. intros [g []]; discriminate. Qed.
Lemma data_defined : forall (g : ug) u v, snd (data g u v) <> Undefined.
Proof. intros g u v. unfold data. destruct (get_edge_data g (Z.to_nat u) v) as [[[o w] p]|]; discriminate. Qed.
Lemma mostly_defined : forall (g : ug) (c : pycall), match c with SetBoundaryNodes _ => True | _ => snd (pystep cap g c) <> Undefined end.
Proof.
  intros g c. destruct c; try exact Logic.I; cbn [pystep]; try discriminate; try (apply or_raised_defined; intros; repeat match goal with x : _ * _ |- _ => destruct x end; first [discriminate | apply data_defined]).
  - unfold add_edge. destruct fault_ids, qubit_id; try discriminate; apply or_raised_defined; intros [[x y] z]; apply done_defined.
  - unfold add_boundary_edge. apply or_raised_defined. intros [x y]. apply done_defined.
Qed.
Lemma step_right : forall (g : ug) t (c : pycall), stands g t -> plain cap c -> let r := pystep cap g c in
  exists t', right_step cap t c (snd r) t' /\ stands (fst r) t' /\ (snd r = Raised -> fst r = g).
Proof.
  intros g t c ST PL r. unfold r. clear r. pose proof ST as (I & E & SZ & BN & NO & SS & SD & DB & SC). destruct c; try (match goal with |- context[right_step _ _ ?c _ _] => exact (add_right g t c ST eq_refl) end); cbn [pystep plain right_step] in *.
  - destruct (set_arg_cases b) as [(l & o & Eb & SL & BL & ->)|[-> NB]]; cbn [or_raised].
    + assert (CO : forall k, In k o -> k < cap) by (intros k Hk; specialize (PL (Z.of_nat k)); rewrite Eb in PL; cbn [names] in PL; assert (In (Z.of_nat k) l) by (apply SL; eauto); specialize (PL H); lia).
      rewrite (set_boundary_done g t o ST CO). cbn [fst snd]. exists (mkT (fold_right Nat.max (size t) (map S o)) (entries t) o (faults t)). split; [|split; [|discriminate]].
      * split; [|intros NB; destruct (NB l o Eb SL BL)]. intros l' o' Eb' SL' BL'. rewrite Eb in Eb'. injection Eb' as <-. rewrite (same_set_unique l o' o SL' SL). now split.
      * destruct (set_boundary_props g o) as (P1 & P2 & _ & P4 & _). split; [now apply set_boundary_inv|]. cbn [entries size declared faults]. split; [congruence|]. split; [unfold num_nodes in *; rewrite P4, SZ; apply needed_fold|].
        split; [reflexivity|]. split; [congruence|]. split; [exact SS|]. split; [apply SL|]. split; [|clear -SC CO; induction o as [|x o IH]; [exact SC|]; cbn [map fold_right]; specialize (IH (fun k Hk => CO k (or_intror Hk))); specialize (CO x (or_introl eq_refl)); lia]. intros k Hk. clear -Hk. induction o as [|x o IH]; [destruct Hk|]. cbn [map fold_right]. destruct Hk as [<-|Hk]; [lia|specialize (IH Hk); lia].
    + exists t. split; [|split; [exact ST|reflexivity]]. split; [|split; reflexivity]. intros l o Eb SL BL. destruct (NB l o Eb SL BL).
  - destruct (size_arg_cases n) as [(k & En & Bk & ->)|[-> NB]]; cbn [or_raised fst snd].
    + exists (mkT (size t) (entries t) (declared t) (Nat.max (faults t) k)). split; [|split; [|discriminate]].
      * split; [|intros NB; destruct (NB k En Bk)]. intros k' En' _. rewrite En in En'. apply Nat2Z.inj in En'. subst k'. now split.
      * rewrite Nat2Z.id. split; [exact I|]. split; [exact E|]. split; [exact SZ|]. split; [exact BN|]. split; [|split; [exact SS|split; [exact SD|split; assumption]]]. cbn [set_min_num_observables nobs faults]. rewrite NO. destruct (Nat.ltb_spec (faults t) k); lia.
    + exists t. split; [|split; [exact ST|reflexivity]]. split; [|split; reflexivity]. intros k En Bk. destruct (NB k En Bk).
  - destruct (two_args g u v (fun '(u', v') => (g, Truth (has_edge g (Z.to_nat u') (target v'))))) as [(ku & kv & Eu & Ev & Bk & ->)|[-> NB]]; cbn [fst snd]; exists t.
    + split; [split; [reflexivity|]; split|split; [exact ST|discriminate]].
      * intros u0 v0 (Eu' & x & -> & Ev' & _). subst u v. apply Nat2Z.inj in Eu', Ev'. subst u0 x. rewrite Nat2Z.id, (target_node kv PL), (lookup_has g t ku (Some kv) ST). reflexivity.
      * intros NA. destruct (NA ku (Some kv)). split; [exact Eu|]. exists kv. auto.
    + split; [split; [reflexivity|]; split|split; [exact ST|reflexivity]]; [|reflexivity]. intros u0 v0 (Eu' & x & -> & Ev' & B). destruct (NB u0 x Eu' Ev' B).
  - destruct (size_arg_cases u) as [(ku & Eu & Bk & ->)|[-> NB]]; cbn [or_raised fst snd]; exists t.
    + split; [split; [reflexivity|]; split|split; [exact ST|discriminate]].
      * intros u0 v0 (Eu' & -> & _). subst u. apply Nat2Z.inj in Eu'. subst u0. rewrite Nat2Z.id, (lookup_has g t ku None ST). reflexivity.
      * intros NA. destruct (NA ku None). split; [exact Eu|]. auto.
    + split; [split; [reflexivity|]; split|split; [exact ST|reflexivity]]; [|reflexivity]. intros u0 v0 (Eu' & -> & B). destruct (NB u0 Eu' B).
  - destruct (two_args g u v (fun '(u', v') => data g u' (target v'))) as [(ku & kv & Eu & Ev & Bk & ->)|[-> NB]]; cbn [fst snd]; exists t.
    + subst u v. rewrite (target_node kv PL), (data_right g t ku (Some kv) ST). cbn [fst snd]. split; [split; [reflexivity|]; split|split; [exact ST|reflexivity]].
      * intros u0 v0 (Eu' & x & -> & Ev' & _). apply Nat2Z.inj in Eu', Ev'. subst u0 x. reflexivity.
      * intros NA. destruct (NA ku (Some kv)). split; [reflexivity|]. exists kv. auto.
    + split; [split; [reflexivity|]; split|split; [exact ST|reflexivity]]; [|reflexivity]. intros u0 v0 (Eu' & x & -> & Ev' & B). destruct (NB u0 x Eu' Ev' B).
  - destruct (size_arg_cases u) as [(ku & Eu & Bk & ->)|[-> NB]]; cbn [or_raised]; exists t.
    + subst u. rewrite (data_right g t ku None ST). cbn [fst snd]. split; [split; [reflexivity|]; split|split; [exact ST|reflexivity]].
      * intros u0 v0 (Eu' & -> & _). apply Nat2Z.inj in Eu'. subst u0. reflexivity.
      * intros NA. destruct (NA ku None). split; [reflexivity|]. auto.
    + cbn [fst snd]. split; [split; [reflexivity|]; split|split; [exact ST|reflexivity]]; [|reflexivity]. intros u0 v0 (Eu' & -> & B). destruct (NB u0 Eu' B).
  - exists t. split; [|split; [exact ST|discriminate]]. split; [reflexivity|]. cbn [snd]. f_equal. rewrite E, map_map. apply map_ext_in. intros x Hx. apply listed_shown, SS, Hx.
  - exists t. split; [|split; [exact ST|discriminate]]. split; [reflexivity|]. cbn [snd]. now rewrite BN.
  - exists t. split; [|split; [exact ST|discriminate]]. split; [reflexivity|]. cbn [snd]. now rewrite SZ.
  - exists t. split; [|split; [exact ST|discriminate]]. split; [reflexivity|]. cbn [snd]. unfold num_edges. now rewrite E, map_length.
  - exists t. split; [|split; [exact ST|discriminate]]. split; [reflexivity|]. cbn [snd]. unfold num_detectors. rewrite SZ, BN. f_equal. apply not_declared; assumption.
  - exists t. split; [|split; [exact ST|discriminate]]. split; [reflexivity|]. cbn [snd]. now rewrite NO.
Qed.
Lemma step_defined : forall (g : ug) t (c : pycall), stands g t -> plain cap c -> snd (pystep cap g c) <> Undefined.
Proof.
  intros g t c ST PL. pose proof (mostly_defined g c) as M. destruct c; try exact M. cbn [pystep plain] in *. destruct (set_arg_cases b) as [(l & o & Eb & SL & BL & ->)|[-> NB]]; cbn [or_raised]; [|discriminate].
  rewrite (set_boundary_done g t o ST); [discriminate|]. intros k Hk. specialize (PL (Z.of_nat k)). rewrite Eb in PL. cbn [names] in PL. assert (H : In (Z.of_nat k) l) by (apply SL; eauto). specialize (PL H). lia.
Qed.
Lemma run_right : forall (cs : list pycall) (g : ug) t, stands g t -> Forall (plain cap) cs -> right_replies cap t cs (snd (pyrun cap g cs)).
Proof.
  induction cs as [|c cs IH]; intros g t ST PL; [exact I|]. apply Forall_cons_iff in PL as [P0 PL]. cbn [pyrun]. destruct (step_right g t c ST P0) as (t' & R & ST' & _). assert (U : snd (pystep cap g c) <> Undefined) by now apply (step_defined g t). destruct (pystep cap g c) as [g1 r]. cbn [fst snd] in *.
  specialize (IH g1 t' ST' PL). destruct (pyrun cap g1 cs) as [g2 rs]. destruct r; try (destruct (U eq_refl)); exists t'; (split; [exact R|exact IH]).
Qed.
Lemma session_right : forall n k (cs : list pycall), n <= cap -> Forall (plain cap) cs -> right_replies cap (mkT n [] [] k) cs (snd (pyrun cap (new_graph N n k) cs)).
Proof. intros n k cs C PL. apply run_right; [now apply stands_new|exact PL]. Qed.
Lemma run_stands : forall (cs : list pycall) (g : ug) t, stands g t -> Forall (plain cap) cs -> exists t', stands (fst (pyrun cap g cs)) t'.
Proof.
  induction cs as [|c cs IH]; intros g t ST PL; [exists t; exact ST|]. apply Forall_cons_iff in PL as [P0 PL]. cbn [pyrun]. destruct (step_right g t c ST P0) as (t' & R & ST' & _).
  assert (U : snd (pystep cap g c) <> Undefined) by now apply (step_defined g t). destruct (pystep cap g c) as [g1 r]. cbn [fst snd] in *. specialize (IH g1 t' ST' PL). destruct (pyrun cap g1 cs) as [g2 rs]. destruct r; try (destruct (U eq_refl)); exact IH.
Qed.
Lemma session_raised : forall n k (cs : list pycall) c, n <= cap -> Forall (plain cap) cs -> plain cap c -> let g := fst (pyrun cap (new_graph N n k) cs) in
  snd (pystep cap g c) = Raised -> fst (pystep cap g c) = g.
Proof. intros n k cs c C PL PC g R. destruct (run_stands cs _ _ (stands_new n k C) PL) as [t ST]. destruct (step_right _ t c ST PC) as (t' & _ & _ & H). exact (H R). Qed.

(** ** The specification leaves no choice *)
Lemma set_cases : forall b, (exists l o, b = IdSet l /\ same_set l o /\ below (2 ^ 64) o) \/ (forall l o, b = IdSet l -> same_set l o -> ~ below (2 ^ 64) o).
Proof. intros b. destruct (set_arg_cases b) as [(l & o & H1 & H2 & H3 & _)|[_ H]]; [left; exists l, o; auto|now right]. Qed.
Lemma asked_cases : forall c : pycall, adding c = true -> (exists u v a s, asks_for c u v a s) \/ (forall u v a s, ~ asks_for c u v a s).
Proof. intros c AC. destruct (add_cases (new_graph N 0 0) c AC) as [(u & v & o & w & p & s & H & _)|[_ H]]; [left; exists u, v, (o, w, p), s; exact H|now right]. Qed.
Lemma about_once : forall (c : pycall) u v u' v', asks_about c u v -> asks_about c u' v' -> u = u' /\ v = v'.
Proof.
  intros c u v u' v' H H'. destruct c; cbn in H, H'; try contradiction.
  - destruct H as (-> & x & -> & -> & _), H' as (E & x' & -> & E' & _). apply Nat2Z.inj in E, E'. now subst.
  - destruct H as (-> & -> & _), H' as (E & -> & _). apply Nat2Z.inj in E. now subst.
  - destruct H as (-> & x & -> & -> & _), H' as (E & x' & -> & E' & _). apply Nat2Z.inj in E, E'. now subst.
  - destruct H as (-> & -> & _), H' as (E & -> & _). apply Nat2Z.inj in E. now subst.
Qed.
Lemma about_cases : forall c : pycall, (exists u v, asks_about c u v) \/ (forall u v, ~ asks_about c u v).
Proof.
  intros c. destruct c; try (right; intros ? ? X; exact X).
  - destruct (two_args (new_graph N 0 0) u v (fun _ => (new_graph N 0 0, Done))) as [(ku & kv & E1 & E2 & B & _)|[_ H]]; [left; exists ku, (Some kv); split; [exact E1|]; exists kv; auto|right]. intros u' v' (E1 & x & -> & E2 & B). exact (H u' x E1 E2 B).
  - destruct (size_arg_cases u) as [(k & E & B & _)|[_ H]]; [left; exists k, None; repeat split; auto|right]. intros u' v' (E & -> & B). exact (H u' E B).
  - destruct (two_args (new_graph N 0 0) u v (fun _ => (new_graph N 0 0, Done))) as [(ku & kv & E1 & E2 & B & _)|[_ H]]; [left; exists ku, (Some kv); split; [exact E1|]; exists kv; auto|right]. intros u' v' (E1 & x & -> & E2 & B). exact (H u' x E1 E2 B).
  - destruct (size_arg_cases u) as [(k & E & B & _)|[_ H]]; [left; exists k, None; repeat split; auto|right]. intros u' v' (E & -> & B). exact (H u' E B).
Qed.
Lemma adding_once : forall t (c : pycall) r1 t1 r2 t2, adding c = true -> adding_right t c r1 t1 -> adding_right t c r2 t2 -> r1 = r2 /\ t1 = t2.
Proof.
  intros t c r1 t1 r2 t2 AC [H1 H1'] [H2 H2']. destruct (asked_cases c AC) as [(u & v & [[o w] p] & s & A)|NA].
  - specialize (H1 u v o w p s A). specialize (H2 u v o w p s A). clear H1' H2'. destruct (w_exceeds N w); [destruct H1 as [-> ->], H2 as [-> ->]; auto|]. destruct s as [[]|], (lookup t u v), (cap <=? largest u v); destruct H1 as [-> ->], H2 as [-> ->]; auto.
  - destruct (H1' NA) as [-> ->], (H2' NA) as [-> ->]. auto.
Qed.
Lemma right_once : forall t (c : pycall) r1 t1 r2 t2, right_step cap t c r1 t1 -> right_step cap t c r2 t2 -> r1 = r2 /\ t1 = t2.
Proof.
  intros t c r1 t1 r2 t2 H1 H2. destruct c; try (exact (adding_once t (AddEdge u v fault_ids qubit_id w p s) r1 t1 r2 t2 eq_refl H1 H2)); try (exact (adding_once t (AddBoundaryEdge u fault_ids qubit_id w p s) r1 t1 r2 t2 eq_refl H1 H2)); cbn [right_step] in H1, H2;
    try (destruct H1 as [-> ->], H2 as [-> ->]; auto; fail).
  - destruct H1 as [H1 H1'], H2 as [H2 H2']. destruct (set_cases b) as [(l & o & E & S & B)|NB]; [destruct (H1 l o E S B) as [-> ->], (H2 l o E S B) as [-> ->]; auto|destruct (H1' NB) as [-> ->], (H2' NB) as [-> ->]; auto].
  - destruct H1 as [H1 H1'], H2 as [H2 H2']. destruct (size_arg_cases n) as [(k & E & B & _)|[_ NB]]; [destruct (H1 k E B) as [-> ->], (H2 k E B) as [-> ->]; auto|destruct (H1' NB) as [-> ->], (H2' NB) as [-> ->]; auto].
  - destruct H1 as (-> & H1 & H1'), H2 as (-> & H2 & H2'). split; [|reflexivity]. destruct (about_cases (HasEdge u v)) as [(u' & v' & A)|NA]; [rewrite (H1 u' v' A), (H2 u' v' A); reflexivity|rewrite H1', H2' by exact NA; reflexivity].
  - destruct H1 as (-> & H1 & H1'), H2 as (-> & H2 & H2'). split; [|reflexivity]. destruct (about_cases (HasBoundaryEdge u)) as [(u' & v' & A)|NA]; [rewrite (H1 u' v' A), (H2 u' v' A); reflexivity|rewrite H1', H2' by exact NA; reflexivity].
  - destruct H1 as (-> & H1 & H1'), H2 as (-> & H2 & H2'). split; [|reflexivity]. destruct (about_cases (GetEdgeData u v)) as [(u' & v' & A)|NA]; [rewrite (H1 u' v' A), (H2 u' v' A); reflexivity|rewrite H1', H2' by exact NA; reflexivity].
  - destruct H1 as (-> & H1 & H1'), H2 as (-> & H2 & H2'). split; [|reflexivity]. destruct (about_cases (GetBoundaryEdgeData u)) as [(u' & v' & A)|NA]; [rewrite (H1 u' v' A), (H2 u' v' A); reflexivity|rewrite H1', H2' by exact NA; reflexivity].
Qed.
Lemma replies_once : forall (cs : list pycall) t rs1 rs2, right_replies cap t cs rs1 -> right_replies cap t cs rs2 -> rs1 = rs2.
Proof.
  induction cs as [|c cs IH]; intros t [|r1 rs1] [|r2 rs2] H1 H2; cbn [right_replies] in *; try contradiction; [reflexivity|]. destruct H1 as (t1 & S1 & H1), H2 as (t2 & S2 & H2). destruct (right_once _ _ _ _ _ _ S1 S2) as [-> ->]. f_equal. exact (IH _ _ _ H1 H2).
Qed.

(** ** An edge that was added is read back *)
Lemma lookup_entered : forall (t : table N) u v a s, lookup t u v = None -> lookup (enter t u v a s) u v = Some a.
Proof.
  intros t u v a s L. unfold enter. rewrite L. unfold lookup in *. cbn [entries]. destruct (find (about u v) (entries t)) as [x|] eqn:F; [discriminate|]. clear L.
  assert (X : find (about u v) (entries t ++ [(u, v, a)]) = Some (u, v, a)); [|now rewrite X]. revert F. induction (entries t) as [|y l IH]; cbn [find app].
  - intros _. unfold about. cbn [fst snd]. replace (same_pair u v u v) with true; [reflexivity|]. symmetry. apply same_pair_spec. auto.
  - destruct (about u v y); [discriminate|exact IH].
Qed.
Lemma lookup_sym : forall (t : table N) u v, lookup t u (Some v) = lookup t v (Some u).
Proof.
  intros t u v. unfold lookup. f_equal. induction (entries t) as [|y l IH]; [reflexivity|]. cbn [find]. replace (about u (Some v) y) with (about v (Some u) y); [now rewrite IH|].
  unfold about. apply eq_true_iff_eq. rewrite !same_pair_spec. split; intros [[E1 E2]|[E1 E2]]; [right|left|right|left]; (split; congruence).
Qed.
Lemma small_node : forall k, (Z.of_nat k < 2 ^ 63)%Z -> Z.of_nat k <> (2 ^ 64 - 1)%Z.
Proof. intros k H. lia. Qed.
Lemma read_back : forall n k (cs : list pycall) u v l o w p s, n <= cap -> Forall (plain cap) cs -> let g := fst (pyrun cap (new_graph N n k) cs) in
  below (2 ^ 63) [u; v] -> u < cap -> v < cap -> snd (pystep cap g (HasEdge (Z.of_nat u) (Z.of_nat v))) = Truth false -> same_set l o -> below (2 ^ 64) o -> w_exceeds N w = false ->
  snd (pyrun cap g [AddEdge (Z.of_nat u) (Z.of_nat v) (Some (IdSet l)) None w (Some p) (Some s); GetEdgeData (Z.of_nat u) (Z.of_nat v); GetEdgeData (Z.of_nat v) (Z.of_nat u)]) = [Done; Data o w p; Data o w p].
Proof.
  intros n k cs u v l o w p s C PL g BN UC VC HF SL BL W. destruct (run_stands cs _ _ (stands_new n k C) PL) as [t ST]. fold g in ST.
  assert (Bu : (Z.of_nat u < 2 ^ 63)%Z) by (apply BN; now left). assert (Bv : (Z.of_nat v < 2 ^ 63)%Z) by (apply BN; right; now left).
  assert (B64 : forall x y, (Z.of_nat x < 2 ^ 63)%Z -> (Z.of_nat y < 2 ^ 63)%Z -> below (2 ^ 64) [x; y]) by (intros x y Hx Hy z [<-|[<-|[]]]; lia).
  assert (L : lookup t u (Some v) = None).
  { destruct (step_right g t (HasEdge (Z.of_nat u) (Z.of_nat v)) ST (small_node v Bv)) as (t' & (_ & R & _) & _ & _). rewrite HF in R. specialize (R u (Some v)). destruct (lookup t u (Some v)); [|reflexivity].
    discriminate R. split; [reflexivity|]. exists v. split; [reflexivity|]. split; [reflexivity|]. now apply B64. }
  set (c0 := AddEdge (Z.of_nat u) (Z.of_nat v) (Some (IdSet l)) None w (Some p) (Some s)).
  assert (S0 : exists g1, pystep cap g c0 = (g1, Done) /\ stands g1 (enter t u (Some v) (o, w, p) s)).
  { destruct (add_right g t c0 ST eq_refl) as (t' & [R _] & ST' & _). specialize (R u (Some v) o w p (Some s)). rewrite W, L in R. destruct (Nat.leb_spec cap (largest u (Some v))) as [X|_]; [cbn [largest] in X; lia|].
    assert (A : asks_for c0 u (Some v) (o, w, p) (Some s)). { split; [reflexivity|]. split; [exists v; repeat split; assumption|]. split; [split; assumption|]. auto. }
    specialize (R A). assert (Q : snd (pystep cap g c0) = Done /\ t' = enter t u (Some v) (o, w, p) s) by (destruct s; exact R). destruct Q as [Q ->]. exists (fst (pystep cap g c0)). rewrite <- Q. split; [now destruct (pystep cap g c0)|exact ST']. }
  destruct S0 as (g1 & E0 & ST1).
  assert (R1 : forall x y, (Z.of_nat x < 2 ^ 63)%Z -> (Z.of_nat y < 2 ^ 63)%Z -> lookup (enter t u (Some v) (o, w, p) s) x (Some y) = Some (o, w, p) -> pystep cap g1 (GetEdgeData (Z.of_nat x) (Z.of_nat y)) = (g1, Data o w p)).
  { intros x y Hx Hy HL. cbn [pystep]. destruct (two_args g1 (Z.of_nat x) (Z.of_nat y) (fun '(u', v') => data g1 u' (target v'))) as [(ku & kv & _ & _ & _ & ->)|[_ NB]]; [|destruct (NB x y eq_refl eq_refl (B64 x y Hx Hy))].
    rewrite (target_node y (small_node y Hy)), (data_right g1 _ x (Some y) ST1), HL. reflexivity. }
  pose proof (lookup_entered t u (Some v) (o, w, p) s L) as L1. cbn [pyrun]. rewrite E0, (R1 u v Bu Bv L1). rewrite lookup_sym in L1. rewrite (R1 v u Bv Bu L1). reflexivity.
Qed.

(** ** What goes wrong *)
Lemma one_set : forall k, is_set [k].
Proof. intros k. repeat constructor. Qed.
Lemma one_arg : forall k, (Z.of_nat k < 2 ^ 64)%Z -> set_arg (IdSet [Z.of_nat k]) = Ok [k].
Proof. intros k H. cbn [set_arg size_args]. unfold size_arg. destruct (Z.leb_spec 0 (Z.of_nat k)); [|lia]. destruct (Z.ltb_spec (Z.of_nat k) (2 ^ 64)); [|lia]. cbn [andb bindO]. now rewrite Nat2Z.id. Qed.
Lemma out_of_memory : forall n k, n <= cap -> (Z.of_nat cap < 2 ^ 64 - 1)%Z -> exists g, pyrun cap (new_graph N n k) [SetBoundaryNodes (IdSet [Z.of_nat cap])] = (g, [Raised]) /\
  snd (pyrun cap g [NumNodes; Boundary; SetBoundaryNodes (IdSet [])]) = [Count n; Nodes [cap]; Undefined].
Proof.
  intros n k C H. set (g0 := new_graph N n k). exists (mkG (nodes (set_boundary g0 [])) [] [cap] k (allp g0) (needs g0)).
  assert (L : length (nodes (set_boundary g0 [])) = n) by (cbn; rewrite ?map_length, repeat_length; reflexivity).
  assert (E : pystep cap g0 (SetBoundaryNodes (IdSet [Z.of_nat cap])) = (mkG (nodes (set_boundary g0 [])) [] [cap] k (allp g0) (needs g0), Raised)).
  { cbn [pystep]. rewrite one_arg by lia. cbn [or_raised]. unfold set_boundary_nodes. cbn [g0 new_graph bnodes existsb filter]. rewrite Nat.ltb_irrefl. cbn [negb]. destruct (Z.eqb_spec (Z.of_nat cap) (2 ^ 64 - 1)); [lia|reflexivity]. }
  split; [cbn [pyrun]; rewrite E; reflexivity|]. cbn [pyrun pystep]. cbn [set_arg size_args bindO or_raised]. unfold set_boundary_nodes, num_nodes. cbn [nodes bnodes existsb]. rewrite L. destruct (Nat.leb_spec n cap); [|lia]. cbn [orb snd]. reflexivity.
Qed.
Lemma largest_boundary : forall n k, (Z.of_nat cap <= 2 ^ 64 - 1)%Z -> snd (pyrun cap (new_graph N n k) [SetBoundaryNodes (IdSet [(2 ^ 64 - 1)%Z])]) = [Undefined].
Proof.
  intros n k H. set (m := Z.to_nat (2 ^ 64 - 1)). assert (M : (2 ^ 64 - 1)%Z = Z.of_nat m) by (unfold m; rewrite Z2Nat.id; lia). rewrite M. cbn [pyrun pystep]. rewrite one_arg by lia. cbn [or_raised]. unfold set_boundary_nodes. cbn [new_graph bnodes existsb filter].
  destruct (Nat.ltb_spec m cap) as [X|_]; [lia|]. cbn [negb]. rewrite M, Z.eqb_refl. reflexivity.
Qed.
Lemma reserved_node : forall w p, 1 <= cap -> w_exceeds N w = false -> snd (pyrun cap (new_graph N 0 0) [AddBoundaryEdge 0 None None w (Some p) (Some DISALLOW); HasEdge 0 (2 ^ 64 - 1)]) = [Done; Truth true].
Proof.
  intros w p C W. cbn [pyrun pystep]. unfold add_boundary_edge. cbn [ids_arg bindO]. unfold int64_arg. change (((- 2 ^ 63 <=? 0) && (0 <? 2 ^ 63))%Z) with true. cbn [bindO or_raised]. unfold pybind_add. change (0 <? 0)%Z with false. cbn [orb].
  rewrite W. change (Z.to_nat 0) with 0. destruct (Nat.ltb_spec cap (0 + 1)); [lia|]. rewrite andb_false_r. reflexivity.
Qed.
End Edges.
