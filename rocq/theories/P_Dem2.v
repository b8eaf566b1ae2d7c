(** Loading a detector error model with correlations: proofs. *)
From Coq Require Import Arith List Bool Lia Reals Lra.
From Verif Require Import M_Base M_UserGraph S_UserGraph P_UserGraph S_GraphMap P_GraphMap M_Merge P_Merge S_Merge P_Merge2 M_Dem S_Dem P_Dem.
Import ListNotations.
Local Open Scope nat_scope.

(** *** parsing *)
Definition sorted_comp (c : nat * option nat * list nat) : component := (ordered c, snd c).

Definition graphlikes (cs : list (list nat * list nat)) : list (nat * option nat * list nat) :=
  flat_map (fun c => match graphlike c with Some k => [k] | None => [] end) cs.

Definition all_graphlike (cs : list (list nat * list nat)) : bool :=
  forallb (fun c => match graphlike c with Some _ => true | None => false end) cs.

Definition st1 (ds : list nat) : option nat := match ds with [] => None | [a] => Some a | a :: b :: _ => Some (Nat.min a b) end.
Definition st2 (ds : list nat) : option nat := match ds with a :: b :: _ => Some (Nat.max a b) | _ => None end.

Lemma all_cons : forall c cs, all_graphlike (c :: cs) = match graphlike c with Some _ => all_graphlike cs | None => false end.
Proof. intros. unfold all_graphlike. cbn. destruct (graphlike c); reflexivity. Qed.

Lemma graphlike_long : forall a b c ds os, graphlike (a :: b :: c :: ds, os) = None.
Proof. reflexivity. Qed.

Lemma parse_spec : forall ts done ds os sep, length ds <= 2 ->
  parse_targets ts done (st1 ds) (st2 ds) os (length ds) sep =
    let cs := prefix ds os (components ts) in
    if all_graphlike cs then Ok (done ++ map sorted_comp (graphlikes cs))
    else match cs with
         | [([], _)] => if sep then Throw else Ok []
         | _ => Throw
         end.
Proof.
  induction ts as [|t ts IH]; intros done ds os sep HL; cbv zeta.
  - cbn [parse_targets components prefix]. rewrite !app_nil_r.
    destruct ds as [|a [|b [|]]]; cbn [length] in *; try lia; cbn; reflexivity.
  - pose proof (components_nonnil ts) as Hne. destruct t as [d|o|]; cbn [parse_targets components].
    + destruct (components ts) as [|[ds' os'] cs] eqn:EC; [congruence|]. cbn [prefix].
      destruct ds as [|a [|b [|]]]; cbn [length] in *; try lia.
      * cbn [st1 st2]. specialize (IH done [d] os sep ltac:(cbn; lia)). cbn [st1 st2 length] in IH. rewrite IH.
        cbv zeta. cbn [prefix app]. reflexivity.
      * specialize (IH done [a; d] os sep ltac:(cbn; lia)). cbn [st1 st2 length] in *.
        assert (E : (if a <=? d then parse_targets ts done (Some a) (Some d) os 2 sep
                     else parse_targets ts done (Some d) (Some a) os 2 sep) =
                    parse_targets ts done (Some (Nat.min a d)) (Some (Nat.max a d)) os 2 sep).
        { destruct (Nat.leb_spec a d); [rewrite Nat.min_l, Nat.max_r by lia|rewrite Nat.min_r, Nat.max_l by lia]; reflexivity. }
        rewrite E, IH. cbv zeta. cbn [prefix app]. reflexivity.
      * cbn [app]. rewrite all_cons. rewrite graphlike_long. reflexivity.
    + rewrite IH by exact HL. cbv zeta. destruct (components ts) as [|[ds' os'] cs] eqn:EC; [congruence|]. cbn [prefix].
      rewrite <- app_assoc. cbn [app]. reflexivity.
    + cbn [prefix]. rewrite !app_nil_r.
      assert (E0 : forall l, prefix [] [] l = l) by (intros [|[? ?] ?]; reflexivity).
      destruct ds as [|a [|b [|]]]; cbn [length] in *; try lia; cbn [st1 st2].
      * rewrite all_cons. cbn [graphlike]. destruct (components ts) as [|? ?]; [congruence|reflexivity].
      * specialize (IH (done ++ [(a, None, os)]) [] [] true ltac:(cbn; lia)). cbn [st1 st2 length] in IH. rewrite IH.
        cbv zeta. rewrite E0, all_cons. cbn [graphlike]. unfold graphlikes at 2. cbn [flat_map graphlike]. fold (graphlikes (components ts)).
        destruct (all_graphlike (components ts)); [rewrite <- app_assoc; reflexivity|].
        destruct (components ts) as [|[[|? ?] ?] [|? ?]]; try congruence; reflexivity.
      * specialize (IH (done ++ [(Nat.min a b, Some (Nat.max a b), os)]) [] [] true ltac:(cbn; lia)). cbn [st1 st2 length] in IH. rewrite IH.
        cbv zeta. rewrite E0, all_cons. cbn [graphlike]. unfold graphlikes at 2. cbn [flat_map graphlike]. fold (graphlikes (components ts)).
        destruct (all_graphlike (components ts)); [rewrite <- app_assoc; reflexivity|].
        destruct (components ts) as [|[[|? ?] ?] [|? ?]]; try congruence; reflexivity.
Qed.

Lemma all_graphlike_spec : forall cs, all_graphlike cs = true <-> forall c, In c cs -> graphlike c <> None.
Proof.
  intros. unfold all_graphlike. rewrite forallb_forall. split; intros H c Hc; specialize (H c Hc); destruct (graphlike c); try discriminate; try congruence; reflexivity.
Qed.

Lemma parse_ok : forall ts cs, parse_targets ts [] None None [] 0 false = Ok cs ->
  acceptable ts /\ cs = map sorted_comp (graphlike_components ts).
Proof.
  intros ts cs H. pose proof (parse_spec ts [] [] [] false ltac:(cbn; lia)) as HS. cbn [st1 st2 length] in HS.
  rewrite H in HS. cbv zeta in HS.
  assert (E0 : forall l, prefix [] [] l = l) by (intros [|[? ?] ?]; reflexivity). rewrite E0 in HS.
  unfold acceptable, graphlike_components. fold (graphlikes (components ts)).
  destruct (all_graphlike (components ts)) eqn:E.
  - injection HS as ->. split; [left; apply all_graphlike_spec; exact E|reflexivity].
  - destruct (components ts) as [|[[|? ?] os] [|? ?]]; try discriminate. injection HS as ->.
    split; [right; eauto|reflexivity].
Qed.

Lemma parse_acceptable : forall ts, acceptable ts -> parse_targets ts [] None None [] 0 false = Ok (map sorted_comp (graphlike_components ts)).
Proof.
  intros ts H. pose proof (parse_spec ts [] [] [] false ltac:(cbn; lia)) as HS. cbn [st1 st2 length] in HS.
  rewrite HS. cbv zeta.
  assert (E0 : forall l, prefix [] [] l = l) by (intros [|[? ?] ?]; reflexivity). rewrite E0.
  unfold graphlike_components. fold (graphlikes (components ts)).
  destruct H as [H|[os H]].
  - apply all_graphlike_spec in H. rewrite H. reflexivity.
  - rewrite H. reflexivity.
Qed.

Lemma parse_not_acceptable : forall ts, ~ acceptable ts -> parse_targets ts [] None None [] 0 false = Throw.
Proof.
  intros ts H. pose proof (parse_spec ts [] [] [] false ltac:(cbn; lia)) as HS. cbn [st1 st2 length] in HS.
  rewrite HS. cbv zeta.
  assert (E0 : forall l, prefix [] [] l = l) by (intros [|[? ?] ?]; reflexivity). rewrite E0.
  destruct (all_graphlike (components ts)) eqn:E.
  - exfalso. apply H. left. apply all_graphlike_spec. exact E.
  - unfold acceptable in H. destruct (components ts) as [|[[|? ?] os] [|? ?]]; try reflexivity. exfalso. apply H. right. eauto.
Qed.

(** *** keys *)
Lemma key_eqb_eq : forall a b, key_eqb a b = true <-> a = b.
Proof.
  intros [a a'] [b b']. unfold key_eqb. cbn [fst snd]. rewrite andb_true_iff, Nat.eqb_eq, opt_eqb_eq. split; [intros [-> ->]; reflexivity|intros H; injection H; auto].
Qed.
Lemma key_eqb_refl : forall a, key_eqb a a = true.
Proof. intros. apply key_eqb_eq. reflexivity. Qed.
Lemma key_eqb_neq : forall a b, key_eqb a b = false <-> a <> b.
Proof. intros. rewrite <- key_eqb_eq. destruct (key_eqb a b); split; congruence. Qed.
Definition key_dec := prod_eq_dec Nat.eq_dec (option_eq_dec Nat.eq_dec).

Lemma minmax_ordered : forall u v os, minmax u v = ordered (u, v, os).
Proof.
  intros u [v|] os; [|reflexivity]. cbn. destruct (Nat.leb_spec u v); [rewrite Nat.min_l, Nat.max_r by lia|rewrite Nat.min_r, Nat.max_l by lia]; reflexivity.
Qed.

Lemma ordered_pair : forall u v os, same_pair (fst (ordered (u, v, os))) (snd (ordered (u, v, os))) u v = true.
Proof.
  intros u [v|] os; cbn.
  - apply same_pair_spec. destruct (Nat.le_ge_cases u v); [left|right].
    + rewrite Nat.min_l, Nat.max_r by lia. auto.
    + rewrite Nat.min_r, Nat.max_l by lia. auto.
  - apply same_pair_spec. auto.
Qed.

Lemma same_pair_ordered : forall u v os x y, same_pair u v x y = true <-> ordered (u, v, os) = minmax x y.
Proof.
  intros u v os x y. rewrite (minmax_ordered x y os), same_pair_spec. split.
  - intros [[-> ->]|[-> ->]]; [reflexivity|]. cbn. rewrite Nat.min_comm, Nat.max_comm. reflexivity.
  - destruct v as [v|], y as [y|]; cbn; intros H; injection H; intros; try discriminate.
    + assert ((u = x /\ v = y) \/ (u = y /\ v = x)) by lia. destruct H2 as [[-> ->]|[-> ->]]; auto.
    + left. auto.
Qed.

Lemma ckey_sorted : forall c, ckey (sorted_comp c) = ordered c.
Proof.
  intros [[u v] os]. unfold sorted_comp. cbn [snd]. destruct v as [v|]; cbn; [|reflexivity].
  replace (Nat.min u v <=? Nat.max u v) with true; [reflexivity|]. symmetry. apply Nat.leb_le. lia.
Qed.

(** *** the joint map *)
Section Joint.
Variable D : demops.
Notation N := (base D).
Notation bern := (bernoulli D).

Lemma joint_get_xor : forall (j : joint D) a b p c d,
  joint_get D (joint_xor D j a b p) c d =
    if key_eqb c a && key_eqb d b then Some (bern match joint_get D j a b with Some q => q | None => p_zero D end p)
    else joint_get D j c d.
Proof.
  induction j as [|[[a' b'] q] j IH]; intros a b p c d; cbn [joint_xor joint_get]; [reflexivity|].
  destruct (key_eqb a a' && key_eqb b b') eqn:E.
  - apply andb_true_iff in E. destruct E as [E1 E2]. apply key_eqb_eq in E1, E2. subst a' b'. cbn [joint_get].
    destruct (key_eqb c a && key_eqb d b); reflexivity.
  - cbn [joint_get]. rewrite IH. destruct (key_eqb c a' && key_eqb d b') eqn:E'; [|reflexivity].
    destruct (key_eqb c a && key_eqb d b) eqn:E''; [|reflexivity].
    apply andb_true_iff in E', E''. destruct E' as [E1 E2], E'' as [E3 E4]. apply key_eqb_eq in E1, E2, E3, E4. subst.
    rewrite !key_eqb_refl in E. discriminate.
Qed.

Lemma joint_xor_keys : forall (j : joint D) a b p, 
  map fst (joint_xor D j a b p) = map fst j /\ In (a, b) (map fst j) \/
  map fst (joint_xor D j a b p) = map fst j ++ [(a, b)] /\ ~ In (a, b) (map fst j).
Proof.
  induction j as [|[[a' b'] q] j IH]; intros a b p; cbn [joint_xor map].
  - right. auto.
  - destruct (key_eqb a a' && key_eqb b b') eqn:E.
    + apply andb_true_iff in E. destruct E as [E1 E2]. apply key_eqb_eq in E1, E2. subst. left. split; [reflexivity|left; reflexivity].
    + cbn [map fst]. destruct (IH a b p) as [[-> H]|[-> H]]; [left|right]; split; auto.
      * right. exact H.
      * intros [H'|H']; [|auto]. injection H' as -> ->. rewrite !key_eqb_refl in E. discriminate.
Qed.

Lemma joint_xor_nodup : forall (j : joint D) a b p, NoDup (map fst j) -> NoDup (map fst (joint_xor D j a b p)).
Proof.
  intros j a b p H. destruct (joint_xor_keys j a b p) as [[-> _]|[-> H']]; [exact H|].
  apply NoDup_rev in H. rewrite <- (rev_involutive (_ ++ _)). apply NoDup_rev. rewrite rev_app_distr. cbn. constructor; [|exact H].
  rewrite <- in_rev. exact H'.
Qed.

Lemma joint_get_in : forall (j : joint D) a b q, NoDup (map fst j) -> (In (a, b, q) j <-> joint_get D j a b = Some q).
Proof.
  induction j as [|[[a' b'] q'] j IH]; intros a b q H; cbn [joint_get].
  - split; [intros []|discriminate].
  - cbn in H. inversion H as [|? ? H1 H2]; subst. destruct (key_eqb a a' && key_eqb b b') eqn:E.
    + apply andb_true_iff in E. destruct E as [E1 E2]. apply key_eqb_eq in E1, E2. subst. split.
      * intros [H'|H']; [congruence|]. exfalso. apply H1. apply in_map_iff. exists (a', b', q). auto.
      * intros H'. injection H' as ->. left. reflexivity.
    + rewrite <- (IH a b q H2). split; [|right; assumption]. intros [H'|H']; [|exact H']. injection H' as -> -> ->. rewrite !key_eqb_refl in E. discriminate.
Qed.

(** the list of map entries updated by an error with component keys ks *)
Fixpoint pair_ops (ks : list key) : list (key * key) :=
  match ks with
  | [] => []
  | a :: ks' => flat_map (fun b => [(a, b); (b, a)]) ks' ++ pair_ops ks'
  end.
Definition error_ops (ks : list key) : list (key * key) := pair_ops ks ++ map (fun k => (k, k)) ks.

Definition xors (j : joint D) (ops : list (key * key)) (p : num N) : joint D :=
  fold_left (fun j ab => joint_xor D j (fst ab) (snd ab) p) ops j.

Lemma add_pairs_xors : forall ks j p, add_pairs D j ks p = xors j (pair_ops ks) p.
Proof.
  induction ks as [|a ks IH]; intros j p; [reflexivity|]. cbn [add_pairs pair_ops]. rewrite IH. unfold xors.
  rewrite fold_left_app. f_equal. clear IH. revert j. induction ks as [|b ks IH]; intros j; [reflexivity|]. cbn. apply IH.
Qed.

Lemma add_error_xors : forall j cs p, add_decomposed_error D j cs p = xors j (error_ops (map ckey cs)) p.
Proof.
  intros. unfold add_decomposed_error, error_ops, xors. rewrite fold_left_app. rewrite add_pairs_xors. fold (xors j (pair_ops (map ckey cs)) p).
  generalize (xors j (pair_ops (map ckey cs)) p). generalize (map ckey cs). clear. induction l as [|k l IH]; intros j; [reflexivity|]. cbn. apply IH.
Qed.

Definition kk_dec := prod_eq_dec key_dec key_dec.

Definition step_get (p : num N) (o : option (num N)) : option (num N) :=
  Some (bern match o with Some q => q | None => p_zero D end p).

Lemma iter_sw : forall {A} n (f : A -> A) x, Nat.iter n f (f x) = Nat.iter (S n) f x.
Proof. induction n as [|n IH]; intros f x; [reflexivity|]. cbn [Nat.iter nat_rect]. f_equal. apply IH. Qed.

Lemma xors_get : forall ops j p c d,
  joint_get D (xors j ops p) c d = Nat.iter (count_occ kk_dec ops (c, d)) (step_get p) (joint_get D j c d).
Proof.
  induction ops as [|[a b] ops IH]; intros j p c d; [reflexivity|].
  change (xors j ((a, b) :: ops) p) with (xors (joint_xor D j a b p) ops p). rewrite IH, joint_get_xor. cbn [count_occ].
  destruct (kk_dec (a, b) (c, d)) as [E|E].
  - injection E as -> ->. rewrite !key_eqb_refl. cbn [andb]. rewrite <- iter_sw. reflexivity.
  - destruct (key_eqb c a && key_eqb d b) eqn:E'; [|reflexivity].
    apply andb_true_iff in E'. destruct E' as [E1 E2]. apply key_eqb_eq in E1, E2. congruence.
Qed.

Lemma xors_nodup : forall ops j p, NoDup (map fst j) -> NoDup (map fst (xors j ops p)).
Proof. induction ops as [|[a b] ops IH]; intros j p H; [exact H|]. apply IH. apply joint_xor_nodup. exact H. Qed.

Lemma pair_ops_in : forall ks c d, In (c, d) (pair_ops ks) -> In c ks /\ In d ks.
Proof.
  induction ks as [|a ks IH]; intros c d H; [destruct H|]. cbn [pair_ops] in H. apply in_app_or in H. destruct H as [H|H].
  - apply in_flat_map in H. destruct H as (b & Hb & [H|[H|[]]]); injection H as <- <-; cbn; auto.
  - apply IH in H. destruct H. cbn. auto.
Qed.

Lemma error_ops_in : forall ks c d, In (c, d) (error_ops ks) -> In c ks /\ In d ks.
Proof.
  intros ks c d H. unfold error_ops in H. apply in_app_or in H. destruct H as [H|H]; [apply pair_ops_in; exact H|].
  apply in_map_iff in H. destruct H as (k & E & Hk). injection E as <- <-. auto.
Qed.

Lemma count_flat : forall ks a c d, ~ In a ks -> NoDup ks ->
  count_occ kk_dec (flat_map (fun b => [(a, b); (b, a)]) ks) (c, d) =
   (if key_dec a c then if in_dec key_dec d ks then 1 else 0 else 0) + (if key_dec a d then if in_dec key_dec c ks then 1 else 0 else 0).
Proof.
  induction ks as [|b ks IH]; intros a c d Ha Hn.
  - cbn. destruct (key_dec a c), (key_dec a d); reflexivity.
  - inversion Hn as [|? ? Hb Hn']; subst. cbn [flat_map]. rewrite count_occ_app, IH; [|intros H; apply Ha; right; exact H|exact Hn'].
    assert (Hab : a <> b) by (intros ->; apply Ha; left; reflexivity).
    assert (Ha' : ~ In a ks) by (intros H; apply Ha; right; exact H).
    cbn [count_occ]. 
    destruct (kk_dec (a, b) (c, d)) as [E1|E1].
    + injection E1 as <- <-.
      destruct (kk_dec (b, a) (a, b)) as [E2|E2]; [congruence|].
      destruct (key_dec a a) as [_|]; [|congruence]. destruct (key_dec a b); [congruence|].
      destruct (in_dec key_dec b ks); [contradiction|]. destruct (in_dec key_dec b (b :: ks)) as [|H]; [reflexivity|exfalso; apply H; left; reflexivity].
    + destruct (kk_dec (b, a) (c, d)) as [E2|E2].
      * injection E2 as <- <-. destruct (key_dec a a) as [_|]; [|congruence]. destruct (key_dec a b); [congruence|].
        destruct (in_dec key_dec b ks); [contradiction|]. destruct (in_dec key_dec b (b :: ks)) as [|H]; [reflexivity|exfalso; apply H; left; reflexivity].
      * cbn [Nat.add]. f_equal.
        -- destruct (key_dec a c) as [->|]; [|reflexivity].
           destruct (in_dec key_dec d ks) as [H|H], (in_dec key_dec d (b :: ks)) as [H'|H']; try reflexivity.
           ++ exfalso. apply H'. right. exact H.
           ++ destruct H' as [->|H']; [congruence|contradiction].
        -- destruct (key_dec a d) as [->|]; [|reflexivity].
           destruct (in_dec key_dec c ks) as [H|H], (in_dec key_dec c (b :: ks)) as [H'|H']; try reflexivity.
           ++ exfalso. apply H'. right. exact H.
           ++ destruct H' as [->|H']; [congruence|contradiction].
Qed.

Lemma count_pairs : forall ks c d, NoDup ks ->
  count_occ kk_dec (pair_ops ks) (c, d) = if key_dec c d then 0 else if in_dec key_dec c ks then if in_dec key_dec d ks then 1 else 0 else 0.
Proof.
  induction ks as [|a ks IH]; intros c d H.
  - cbn. destruct (key_dec c d); reflexivity.
  - inversion H as [|? ? Ha Hn]; subst. cbn [pair_ops]. rewrite count_occ_app, count_flat, IH by assumption.
    destruct (key_dec c d) as [->|Hcd].
    + destruct (key_dec a d) as [->|]; [|reflexivity]. destruct (in_dec key_dec d ks); [contradiction|reflexivity].
    + destruct (in_dec key_dec c (a :: ks)) as [Hc|Hc]; destruct (in_dec key_dec d (a :: ks)) as [Hd|Hd]; cbn [In] in Hc, Hd;
      destruct (in_dec key_dec c ks) as [Hc'|Hc'], (in_dec key_dec d ks) as [Hd'|Hd'], (key_dec a c), (key_dec a d);
      subst; try reflexivity; exfalso; intuition congruence.
Qed.

Lemma count_error : forall ks c d, NoDup ks ->
  count_occ kk_dec (error_ops ks) (c, d) = if in_dec key_dec c ks then if in_dec key_dec d ks then 1 else 0 else 0.
Proof.
  intros ks c d H. unfold error_ops. rewrite count_occ_app, count_pairs by exact H.
  assert (E : count_occ kk_dec (map (fun k => (k, k)) ks) (c, d) = if key_dec c d then if in_dec key_dec c ks then 1 else 0 else 0).
  { assert (Hm : NoDup (map (fun k : key => (k, k)) ks)).
    { apply FinFun.Injective_map_NoDup; [|exact H]. intros a b E. injection E. auto. }
    destruct (key_dec c d) as [->|Hcd].
    - destruct (in_dec key_dec d ks) as [Hd|Hd].
      + apply NoDup_count_occ'; [exact Hm|]. apply in_map_iff. exists d. auto.
      + apply count_occ_not_In. intros Hin. apply in_map_iff in Hin. destruct Hin as (k & E & Hk). injection E as ->. contradiction.
    - apply count_occ_not_In. intros Hin. apply in_map_iff in Hin. destruct Hin as (k & E & Hk). injection E as -> ->. congruence. }
  etransitivity; [apply f_equal; exact E|].
  destruct (key_dec c d) as [->|]; [|rewrite Nat.add_0_r; reflexivity].
  destruct (in_dec key_dec d ks); reflexivity.
Qed.
End Joint.

(** *** the correlated loader over the reals *)
Definition use (x : instruction RD) : bool := p_pos RD (fst x).
Definition kcount (c d : key) (x : instruction RD) : nat := count_occ kk_dec (error_ops (pairs_of (snd x))) (c, d).

Lemma map_ckey : forall ts, map ckey (map sorted_comp (graphlike_components ts)) = pairs_of ts.
Proof. intros. rewrite map_map. apply map_ext. apply ckey_sorted. Qed.

Lemma Rzero_spec : forall p, p_is_zero RD p = true <-> p = 0%R.
Proof.
  intros p. cbn. unfold Rleb. destruct (Rle_dec p 0), (Rle_dec 0 p); cbn; split; intros; try discriminate; try lra; reflexivity.
Qed.

Definition add_comps (p : R) (g : ugraph RN) (cs : list component) : ugraph RN := fold_left (add_component RD p) cs g.

Lemma add_comps_calls : forall cs p g, add_comps p g cs = do_calls g (map (fun c : component => mcall RD (p, c)) cs).
Proof.
  induction cs as [|[[a b] os] cs IH]; intros p g; [reflexivity|]. cbn [add_comps fold_left map].
  unfold add_comps in IH. rewrite IH. cbn [do_calls fold_left]. f_equal. destruct b; reflexivity.
Qed.

Definition instr_calls (x : instruction RD) : list (call RN) :=
  if use x then map (fun c => mcall RD (fst x, sorted_comp c)) (graphlike_components (snd x)) else [].

Definition instr_joint (j : joint RD) (x : instruction RD) : joint RD :=
  if use x then xors RD j (error_ops (pairs_of (snd x))) (fst x) else j.

Lemma correlated_instruction_ok : forall g j x g' j', (0 <= fst x)%R ->
  correlated_instruction RD (g, j) x = Ok (g', j') ->
  (fst x <= 1/2)%R /\ (use x = true -> acceptable (snd x)) /\ g' = do_calls g (instr_calls x) /\ j' = instr_joint j x.
Proof.
  intros g j [p ts] g' j' Hp H. cbn [fst] in Hp. cbn [correlated_instruction] in H.
  destruct (p_gt_half RD p) eqn:Eh; [discriminate|]. apply Rltb_false in Eh. cbn [fst snd].
  unfold instr_calls, instr_joint, use. cbn [fst snd].
  destruct (p_is_zero RD p) eqn:Ez.
  - apply Rzero_spec in Ez. subst p. injection H as <- <-. cbn [p_pos RD].
    assert (E : Rltb 0%R 0%R = false) by (apply Rltb_false; lra). rewrite E. split; [exact Eh|]. split; [discriminate|]. auto.
  - assert (E : Rltb 0%R p = true).
    { apply Rltb_true. destruct (Req_dec p 0%R) as [->|]; [|lra]. rewrite (proj2 (Rzero_spec 0%R) eq_refl) in Ez. discriminate. }
    cbn [p_pos RD]. rewrite E.
    destruct (parse_targets ts [] None None [] 0 false) as [cs| | |] eqn:EP; cbn [bindO] in H; try discriminate.
    apply parse_ok in EP. destruct EP as [Ha ->]. split; [exact Eh|]. split; [auto|].
    rewrite <- map_ckey, <- add_error_xors, <- map_map with (f := sorted_comp) (g := fun c => mcall RD (p, c)), <- add_comps_calls.
    destruct (map sorted_comp (graphlike_components ts)) as [|c cs]; injection H as <- <-; auto.
Qed.

Lemma correlated_instruction_throw : forall st x, (0 <= fst x)%R ->
  correlated_instruction RD st x = Throw <-> (1/2 < fst x)%R \/ ((0 < fst x)%R /\ ~ acceptable (snd x)).
Proof.
  intros [g j] [p ts] Hp. cbn [fst snd] in *. cbn [correlated_instruction].
  destruct (p_gt_half RD p) eqn:Eh.
  - apply Rltb_true in Eh. split; auto.
  - apply Rltb_false in Eh. destruct (p_is_zero RD p) eqn:Ez.
    + apply Rzero_spec in Ez. subst p. split; [discriminate|]. intros [H|[H _]]; lra.
    + assert (p <> 0%R) by (intros ->; rewrite (proj2 (Rzero_spec 0%R) eq_refl) in Ez; discriminate).
      assert (HD : acceptable ts \/ ~ acceptable ts) by apply Classical_Prop.classic.
      destruct HD as [HA|HA].
      * rewrite (parse_acceptable ts HA). cbn [bindO]. split; [|intros [H'|[_ H']]; [lra|contradiction]].
        destruct (map sorted_comp (graphlike_components ts)); discriminate.
      * rewrite (parse_not_acceptable ts HA). cbn [bindO]. split; [|reflexivity]. intros _. right. split; [lra|exact HA].
Qed.

Lemma correlated_instruction_ok_or_throw : forall st x, correlated_instruction RD st x = Throw \/ exists st', correlated_instruction RD st x = Ok st'.
Proof.
  intros [g j] [p ts]. cbn [correlated_instruction]. destruct (p_gt_half RD p); [auto|]. destruct (p_is_zero RD p); [eauto|].
  assert (HD : acceptable ts \/ ~ acceptable ts) by apply Classical_Prop.classic. destruct HD as [HA|HA].
  - rewrite (parse_acceptable ts HA). cbn [bindO]. destruct (map sorted_comp (graphlike_components ts)); eauto.
  - rewrite (parse_not_acceptable ts HA). auto.
Qed.

Lemma correlated_instructions_ok : forall dem g j g' j', (forall x, In x dem -> (0 <= fst x)%R) ->
  correlated_instructions RD (g, j) dem = Ok (g', j') ->
  (forall x, In x dem -> (fst x <= 1/2)%R /\ (use x = true -> acceptable (snd x))) /\
  g' = do_calls g (flat_map instr_calls dem) /\ j' = fold_left instr_joint dem j.
Proof.
  induction dem as [|x dem IH]; intros g j g' j' Hp H.
  - injection H as <- <-. split; [intros ? []|auto].
  - cbn [correlated_instructions] in H. destruct (correlated_instruction RD (g, j) x) as [[g1 j1]| | |] eqn:E; cbn [bindO] in H; try discriminate.
    apply correlated_instruction_ok in E; [|apply Hp; left; reflexivity]. destruct E as (E1 & E2 & -> & ->).
    apply IH in H; [|intros; apply Hp; right; assumption]. destruct H as (H1 & -> & ->).
    split; [|split; [|reflexivity]].
    + intros y [<-|Hy]; auto.
    + cbn [flat_map]. symmetry. apply do_calls_app.
Qed.

Lemma correlated_instructions_throw : forall dem st, (forall x, In x dem -> (0 <= fst x)%R) ->
  (correlated_instructions RD st dem = Throw <-> exists x, In x dem /\ ((1/2 < fst x)%R \/ ((0 < fst x)%R /\ ~ acceptable (snd x)))) /\
  (correlated_instructions RD st dem = Throw \/ exists st', correlated_instructions RD st dem = Ok st').
Proof.
  induction dem as [|x dem IH]; intros st Hp.
  - cbn. split; [|eauto]. split; [discriminate|intros (x & [] & _)].
  - cbn [correlated_instructions]. destruct (correlated_instruction_ok_or_throw st x) as [E|[st' E]].
    + rewrite E. cbn [bindO]. apply correlated_instruction_throw in E; [|apply Hp; left; reflexivity].
      split; [|auto]. split; [|reflexivity]. intros _. exists x. split; [left; reflexivity|exact E].
    + pose proof (proj2 (correlated_instruction_throw st x (Hp x (or_introl eq_refl)))) as HT.
      rewrite E in HT |- *. cbn [bindO]. destruct (IH st' (fun y Hy => Hp y (or_intror Hy))) as [I1 I2]. split; [|exact I2].
      rewrite I1. split.
      * intros (y & Hy & H). exists y. split; [right; exact Hy|exact H].
      * intros (y & [<-|Hy] & H); [specialize (HT H); discriminate|]. exists y. auto.
Qed.

(** values in the joint map *)
Lemma fold_joint_nodup : forall dem j, NoDup (map fst j) -> NoDup (map fst (fold_left instr_joint dem j)).
Proof.
  induction dem as [|x dem IH]; intros j H; [exact H|]. cbn [fold_left]. apply IH. unfold instr_joint. destruct (use x); [|exact H].
  apply xors_nodup. exact H.
Qed.

Lemma xor_half : forall r p : R, (0 < r <= 1/2 -> 0 < p <= 1/2 -> 0 < bernoulli_xor r p <= 1/2)%R.
Proof.
  intros r p Hr Hp. unfold bernoulli_xor.
  pose proof (Rmult_lt_0_compat r (1 - p) ltac:(lra) ltac:(lra)). pose proof (Rmult_lt_0_compat p (1 - r) ltac:(lra) ltac:(lra)).
  pose proof (Rmult_le_pos (1/2 - r) (1/2 - p) ltac:(lra) ltac:(lra)). split; lra.
Qed.

Lemma iter_step_range : forall n p o, (0 < p <= 1/2)%R -> (forall q, o = Some q -> (0 < q <= 1/2)%R) ->
  forall q, Nat.iter n (step_get RD p) o = Some q -> (0 < q <= 1/2)%R.
Proof.
  induction n as [|n IH]; intros p o Hp Ho q H; [apply Ho; exact H|].
  cbn [Nat.iter nat_rect] in H. fold (Nat.iter n (step_get RD p) o) in H. specialize (IH p o Hp Ho).
  assert (HX : forall X : option R, (forall q, X = Some q -> (0 < q <= 1/2)%R) ->
    (0 < bernoulli_xor (match X with Some q => q | None => 0 end) p <= 1/2)%R).
  { intros [r|] HX; [apply xor_half; [apply HX; reflexivity|exact Hp]|].
    replace (bernoulli_xor 0 p) with p by (unfold bernoulli_xor; ring). exact Hp. }
  unfold step_get at 1 in H. injection H as <-. exact (HX _ IH).
Qed.

Lemma iter_step_some : forall n p o, n <> 0 \/ o <> None -> Nat.iter n (step_get RD p) o <> None.
Proof.
  intros [|n] p o [H|H]; try discriminate; [congruence|exact H].
Qed.

Lemma iter_step_none : forall n p o, Nat.iter n (step_get RD p) o <> None -> n <> 0 \/ o <> None.
Proof. intros [|n] p o H; [right; exact H|left; lia]. Qed.

Lemma use_spec : forall x, use x = true <-> (0 < fst x)%R.
Proof. intros. unfold use. cbn. apply Rltb_true. Qed.

Lemma fold_joint_range : forall dem j, (forall x, In x dem -> (fst x <= 1/2)%R) ->
  (forall c d q, joint_get RD j c d = Some q -> (0 < q <= 1/2)%R) ->
  forall c d q, joint_get RD (fold_left instr_joint dem j) c d = Some q -> (0 < q <= 1/2)%R.
Proof.
  induction dem as [|x dem IH]; intros j Hh Hj; [exact Hj|]. cbn [fold_left]. apply IH; [intros; apply Hh; right; assumption|].
  unfold instr_joint. destruct (use x) eqn:E; [|exact Hj]. intros c d q. rewrite xors_get.
  apply iter_step_range; [|apply Hj]. apply use_spec in E. split; [exact E|exact (Hh x (or_introl eq_refl))].
Qed.

Lemma fold_joint_some : forall dem j c d, joint_get RD (fold_left instr_joint dem j) c d <> None <->
  joint_get RD j c d <> None \/ exists x, In x dem /\ use x = true /\ In (c, d) (error_ops (pairs_of (snd x))).
Proof.
  induction dem as [|x dem IH]; intros j c d.
  - cbn. split; [auto|]. intros [H|(x & [] & _)]. exact H.
  - cbn [fold_left]. rewrite IH. unfold instr_joint. destruct (use x) eqn:E.
    + rewrite xors_get. split.
      * intros [H|(y & Hy & H)]; [|right; exists y; cbn; tauto].
        apply iter_step_none in H. destruct H as [H|H]; [|auto]. right. exists x. split; [left; reflexivity|]. split; [exact E|].
        apply (count_occ_In kk_dec). lia.
      * intros [H|(y & [<-|Hy] & H)]; [left; apply iter_step_some; auto| |right; exists y; tauto].
        left. apply iter_step_some. left. destruct H as [_ H]. apply (count_occ_In kk_dec) in H. lia.
    + split.
      * intros [H|(y & Hy & H)]; [auto|]. right. exists y. cbn. tauto.
      * intros [H|(y & [<-|Hy] & H)]; [auto| |right; exists y; tauto]. destruct H as [H _]. congruence.
Qed.

(** distinct components: the value is the odd probability of the errors with both *)
Fixpoint xfold (o : option R) (ps : list R) : option R := match ps with [] => o | p :: ps => xfold (step_get RD p o) ps end.

Lemma fold_joint_value : forall dem j c d, (forall x, In x dem -> NoDup (pairs_of (snd x))) ->
  joint_get RD (fold_left instr_joint dem j) c d = xfold (joint_get RD j c d) (errors_with c d dem).
Proof.
  induction dem as [|x dem IH]; intros j c d H; [reflexivity|]. cbn [fold_left]. rewrite IH by (intros; apply H; right; assumption).
  unfold errors_with. cbn [filter]. unfold instr_joint. fold (use x). destruct (use x); [|reflexivity].
  destruct x as [p ts]. cbn [flat_map fst snd]. rewrite xors_get, count_error by (apply (H (p, ts)); left; reflexivity).
  fold key_dec. 
  destruct (in_dec key_dec c (pairs_of ts)) as [?|?]; [|reflexivity].
  destruct (in_dec key_dec d (pairs_of ts)); reflexivity.
Qed.

Lemma xfold_some : forall ps q, xfold (Some q) ps = Some (merge_probs q ps).
Proof.
  unfold merge_probs. induction ps as [|p ps IH]; intros q; [reflexivity|]. cbn [xfold fold_left]. unfold step_get, bernoulli. cbn [p_xor base RD RN].
  rewrite IH. do 2 f_equal. apply xor_comm.
Qed.

Lemma xfold_none : forall ps, xfold None ps = match ps with [] => None | _ => Some (odd_probability ps) end.
Proof.
  intros [|p ps]; [reflexivity|]. cbn [xfold]. unfold step_get at 1, bernoulli. cbn [p_xor base RD RN p_zero]. rewrite xfold_some, merge_probs_odd.
  cbn [odd_probability]. do 2 f_equal. unfold bernoulli_xor. ring.
Qed.

(** rules *)
Lemma mapO_spec : forall {A B} (f : A -> outcome B) l r, mapO f l = Ok r -> length r = length l /\
  forall i a b, nth_error l i = Some a -> nth_error r i = Some b -> f a = Ok b.
Proof.
  induction l as [|a l IH]; intros r H; cbn in H.
  - injection H as <-. split; [reflexivity|]. intros [|i]; discriminate.
  - destruct (f a) as [b| | |] eqn:E; cbn [bindO] in H; try discriminate.
    destruct (mapO f l) as [bs| | |]; cbn [bindO] in H; try discriminate. injection H as <-.
    destruct (IH bs eq_refl) as [L H]. split; [cbn; lia|]. intros [|i] a' b' Ha Hb; cbn in Ha, Hb; [congruence|eauto].
Qed.

Lemma mapO_ok : forall {A B} (f : A -> outcome B) l, (forall a, In a l -> exists b, f a = Ok b) -> exists r, mapO f l = Ok r.
Proof.
  induction l as [|a l IH]; intros H; [eexists; reflexivity|]. cbn. destruct (H a (or_introl eq_refl)) as [b ->].
  destruct IH as [r ->]; [intros; apply H; right; assumption|]. cbn. eexists. reflexivity.
Qed.

Lemma error_ops_diag : forall ks k, In k ks -> In (k, k) (error_ops ks).
Proof. intros. unfold error_ops. apply in_or_app. right. apply in_map_iff. exists k. auto. Qed.

Lemma joint_diag : forall dem c d, joint_get RD (fold_left instr_joint dem []) c d <> None ->
  joint_get RD (fold_left instr_joint dem []) c c <> None /\ joint_get RD (fold_left instr_joint dem []) d d <> None.
Proof.
  intros dem c d H. apply fold_joint_some in H. destruct H as [H|(x & Hx & Hu & Hin)]; [destruct H; reflexivity|].
  apply error_ops_in in Hin. destruct Hin as [Hc Hd].
  split; apply fold_joint_some; right; exists x; split; auto using error_ops_diag.
Qed.

Lemma implied_rules_ok : forall dem e, exists rs, implied_rules RD (fold_left instr_joint dem []) e = Ok rs.
Proof.
  intros dem e. unfold implied_rules. set (J := fold_left instr_joint dem []). set (c := minmax (node1 e) (node2 e)).
  destruct (existsb _ J) eqn:E; [|eauto]. destruct (joint_get RD J c c) eqn:E'; [destruct (p_is_zero RD _); eauto|].
  apply existsb_exists in E. destruct E as ([[a b] q] & Hin & Hk). apply key_eqb_eq in Hk. subst a.
  assert (HN : NoDup (map fst J)) by (apply fold_joint_nodup; constructor).
  apply (joint_get_in RD J c b q HN) in Hin. exfalso.
  assert (H0 : joint_get RD J c b <> None) by congruence. destruct (joint_diag dem c b H0) as [H _]. apply H. exact E'.
Qed.

Lemma load_correlated_total : forall nd no (dem : list (instruction RD)), (forall x, In x dem -> (0 <= fst x)%R) ->
  (load_dem_correlated RD nd no dem = Throw <-> exists x, In x dem /\ ((1/2 < fst x)%R \/ ((0 < fst x)%R /\ ~ acceptable (snd x)))) /\
  (load_dem_correlated RD nd no dem = Throw \/ exists r, load_dem_correlated RD nd no dem = Ok r).
Proof.
  intros nd no dem Hp. unfold load_dem_correlated.
  destruct (correlated_instructions_throw dem (new_graph (base RD) nd no, []) Hp) as [H1 H2].
  destruct H2 as [E|[[g j] E]].
  - rewrite E. cbn [bindO]. split; [|auto]. split; [intros _; apply H1; exact E|reflexivity].
  - rewrite <- H1, E. cbn [bindO].
    apply correlated_instructions_ok in E; [|exact Hp]. destruct E as (_ & _ & ->).
    destruct (mapO_ok (implied_rules RD (fold_left instr_joint dem [])) (edges g)) as [r ->]; [intros; apply implied_rules_ok|].
    cbn [bindO]. split; [|eauto]. split; discriminate.
Qed.

Lemma mechanisms_calls : forall x y dem a, effects x y a (flat_map instr_calls dem) = effects x y a (map (mcall RD) (mechanisms RD dem)).
Proof.
  intros x y. induction dem as [|[p ts] dem IH]; intros a; [reflexivity|].
  cbn [flat_map mechanisms]. rewrite map_app. unfold effects in *. rewrite !fold_left_app, IH. f_equal.
  unfold instr_calls, use. cbn [fst snd]. destruct (p_pos RD p); [|reflexivity]. rewrite map_map. clear IH.
  revert a. induction (graphlike_components ts) as [|[[u v] os] cs IH]; intros a; [reflexivity|]. cbn [map fold_left].
  rewrite IH. f_equal. unfold effect, sorted_comp. cbn [snd].
  pose proof (ordered_pair u v os) as HO. destruct (ordered (u, v, os)) as [u' v'] eqn:EO. cbn [fst snd] in HO. cbn [mcall c_u c_v c_obs c_w c_p c_s].
  replace (same_pair u' v' x y) with (same_pair u v x y); [reflexivity|].
  apply eq_iff_eq_true. rewrite !same_pair_spec. apply same_pair_spec in HO. destruct HO as [[-> ->]|[E1 E2]]; [tauto|].
  subst. split; intros [[H1 H2]|[H1 H2]]; try (left; split; congruence); right; split; congruence.
Qed.

Lemma load_correlated_graph : forall nd no (dem : list (instruction RD)) g j rules, (forall x, In x dem -> (0 <= fst x)%R) ->
  load_dem_correlated RD nd no dem = Ok (g, j, rules) ->
  Inv g /\ (forall x y, get_edge_data g x y = get_edge_data (load_dem RD nd no dem) x y) /\
  j = fold_left instr_joint dem [] /\ mapO (implied_rules RD j) (edges g) = Ok rules /\
  (forall x, In x dem -> (fst x <= 1/2)%R /\ (use x = true -> acceptable (snd x))).
Proof.
  intros nd no dem g j rules Hp H. unfold load_dem_correlated in H.
  destruct (correlated_instructions RD _ dem) as [[g0 j0]| | |] eqn:E; cbn [bindO] in H; try discriminate.
  apply correlated_instructions_ok in E; [|exact Hp]. destruct E as (E0 & E1 & E2).
  destruct (mapO _ _) as [r| | |] eqn:EM; cbn [bindO] in H; try discriminate. injection H as <- <- <-.
  destruct (calls_effect (flat_map instr_calls dem) (new_graph RN nd no) (new_inv nd no)) as (HI & HD & _).
  split; [rewrite E1; exact HI|]. split; [|auto].
  intros x y. rewrite load_dem_map. etransitivity; [rewrite E1; apply HD|].
  etransitivity; [apply mechanisms_calls|]. f_equal. apply data_none; [apply new_inv|]. intros e [].
Qed.

Lemma minmax_joins : forall (e : uedge RN) b, minmax (node1 e) (node2 e) = b -> joins e (fst b) (snd b).
Proof.
  intros e b <-. rewrite (minmax_ordered _ _ []). apply joins_same_pair.
  pose proof (ordered_pair (node1 e) (node2 e) []) as H. apply same_pair_spec in H. apply same_pair_spec.
  destruct H as [[H1 H2]|[H1 H2]]; [left|right]; split; congruence.
Qed.

Lemma joins_minmax : forall (e : uedge RN) x y, joins e x y -> minmax (node1 e) (node2 e) = minmax x y.
Proof.
  intros e x y H. apply joins_same_pair in H. apply (same_pair_ordered _ _ []) in H. rewrite <- H. apply minmax_ordered.
Qed.

Lemma minmax_idem : forall u v os, minmax (fst (ordered (u, v, os))) (snd (ordered (u, v, os))) = ordered (u, v, os).
Proof.
  intros u [v|] os; cbn; [|reflexivity]. replace (Nat.min u v <=? Nat.max u v) with true; [reflexivity|]. symmetry. apply Nat.leb_le. lia.
Qed.

(** every key of the joint map has an edge *)
Lemma key_has_edge : forall nd no dem b x, In x dem -> use x = true -> In b (pairs_of (snd x)) ->
  get_edge_data (load_dem RD nd no dem) (fst b) (snd b) <> None /\ minmax (fst b) (snd b) = b.
Proof.
  intros nd no dem b [p ts] Hx Hu Hb. unfold pairs_of in Hb. apply in_map_iff in Hb. destruct Hb as ([[u v] os] & <- & Hc). cbn [snd] in Hc.
  split; [|apply minmax_idem]. rewrite load_dem_map.
  assert (Hm : In (p, (u, v, os)) (mechanisms RD dem)).
  { unfold mechanisms. apply in_flat_map. exists (p, ts). split; [exact Hx|]. unfold use in Hu. cbn [fst] in Hu. rewrite Hu. apply in_map_iff. exists (u, v, os). auto. }
  pose proof (effects_independent_none (fst (ordered (u, v, os))) (snd (ordered (u, v, os))) (map (mcall RD) (mechanisms RD dem))) as HE.
  intros HN. specialize (HE ltac:(intros c Hc'; apply in_map_iff in Hc'; destruct Hc' as ([p' [[u' v'] os']] & <- & _); reflexivity)).
  pose proof (eq_trans (eq_sym HE) HN) as HN'. clear HE HN.
  assert (Hf : In (mcall RD (p, (u, v, os))) (filter (on_pair (fst (ordered (u, v, os))) (snd (ordered (u, v, os)))) (map (mcall RD) (mechanisms RD dem)))).
  { apply filter_In. split; [apply in_map; exact Hm|]. unfold on_pair. cbn [mcall c_u c_v].
    pose proof (ordered_pair u v os) as HO. apply same_pair_spec in HO. apply same_pair_spec.
    destruct HO as [[H1 H2]|[H1 H2]]; [left|right]; split; congruence. }
  destruct (filter _ _); [destruct Hf|discriminate].
Qed.

Lemma rules_well_formed : forall nd no (dem : list (instruction RD)) g j rules, (forall x, In x dem -> (0 <= fst x)%R) ->
  load_dem_correlated RD nd no dem = Ok (g, j, rules) ->
  length rules = length (edges g) /\
  forall i e rs b w, nth_error (edges g) i = Some e -> nth_error rules i = Some rs -> In (b, w) rs ->
    (exists e', In e' (edges g) /\ joins e' (fst b) (snd b)) /\ ~ joins e (fst b) (snd b) /\
    exists jp mp, joint_get RD j (minmax (node1 e) (node2 e)) b = Some jp /\
      joint_get RD j (minmax (node1 e) (node2 e)) (minmax (node1 e) (node2 e)) = Some mp /\
      (0 < jp)%R /\ (0 < mp)%R /\ (0 < Rmin (1/2) (jp / mp) <= 1/2)%R /\
      w = log_likelihood_ratio (Rmin (1/2) (jp / mp)) /\ (0 <= w)%R.
Proof.
  intros nd no dem g j rules Hp H. destruct (load_correlated_graph nd no dem g j rules Hp H) as (HI & HG & Ej & HM & Hh).
  destruct (mapO_spec _ _ _ HM) as [HL HS]. split; [exact HL|].
  intros i e rs b w He Hrs Hin. specialize (HS i e rs He Hrs). unfold implied_rules in HS.
  set (c := minmax (node1 e) (node2 e)) in *.
  assert (HN : NoDup (map fst j)) by (rewrite Ej; apply fold_joint_nodup; constructor).
  assert (HR : forall c d q, joint_get RD j c d = Some q -> (0 < q <= 1/2)%R).
  { rewrite Ej. apply fold_joint_range; [intros x Hx; apply Hh; exact Hx|]. intros ? ? ? H'. discriminate. }
  destruct (existsb _ j); [|injection HS as <-; destruct Hin].
  destruct (joint_get RD j c c) as [mp|] eqn:Em; [|discriminate].
  destruct (p_is_zero RD mp); [injection HS as <-; destruct Hin|]. injection HS as <-.
  apply in_flat_map in Hin. destruct Hin as ([[a b'] q] & Hq & Hin).
  destruct (key_eqb a c && negb (key_eqb b' c)) eqn:Ek; [|destruct Hin].
  destruct Hin as [Hin|[]]. injection Hin as -> <-.
  apply andb_true_iff in Ek. destruct Ek as [Ea Eb]. apply key_eqb_eq in Ea. subst a. apply negb_true_iff, key_eqb_neq in Eb.
  apply (joint_get_in RD j c b q HN) in Hq.
  assert (Hbb : joint_get RD j c b <> None) by congruence. rewrite Ej in Hbb. apply fold_joint_some in Hbb.
  destruct Hbb as [Hbb|(x & Hx & Hu & Hops)]; [destruct Hbb; reflexivity|]. apply error_ops_in in Hops. destruct Hops as [_ Hb].
  destruct (key_has_edge nd no dem b x Hx Hu Hb) as [HE Hmm].
  split; [|split].
  - assert (HE' : get_edge_data g (fst b) (snd b) <> None) by (intros E0; apply HE; exact (eq_trans (eq_sym (HG _ _)) E0)).
    destruct (get_edge_data g (fst b) (snd b)) as [at'|] eqn:ED; [|exfalso; apply HE'; reflexivity].
    apply get_edge_data_spec in ED; [|exact HI]. destruct ED as (e' & He' & HJ & _). eauto.
  - intros HJ. apply joins_minmax in HJ. rewrite Hmm in HJ. apply Eb. symmetry. exact HJ.
  - exists q, mp. pose proof (HR _ _ _ Hq) as Hq'. pose proof (HR _ _ _ Em) as Hm'.
    destruct (implied_weight_ok q mp ltac:(lra) ltac:(lra)) as (cc & Hc1 & Hc2 & Hc3 & Hc4). rewrite Hc2 in Hc1.
    repeat split; try tauto; try lra.
Qed.

Lemma joint_is_odd : forall nd no (dem : list (instruction RD)) g j rules, (forall x, In x dem -> (0 <= fst x)%R) ->
  (forall x, In x dem -> NoDup (pairs_of (snd x))) ->
  load_dem_correlated RD nd no dem = Ok (g, j, rules) ->
  forall a b q, joint_get RD j a b = Some q -> q = odd_probability (errors_with a b dem).
Proof.
  intros nd no dem g j rules Hp Hn H a b q Hq. destruct (load_correlated_graph nd no dem g j rules Hp H) as (_ & _ & Ej & _).
  rewrite Ej, fold_joint_value in Hq by exact Hn. cbn [joint_get] in Hq. rewrite xfold_none in Hq.
  destruct (errors_with a b dem); [discriminate|]. congruence.
Qed.

Lemma load_correlated_same_graph : forall nd no (dem : list (instruction RD)) g j rules, (forall x, In x dem -> (0 <= fst x)%R) ->
  load_dem_correlated RD nd no dem = Ok (g, j, rules) ->
  forall x y, get_edge_data g x y = get_edge_data (load_dem RD nd no dem) x y.
Proof. intros. eapply load_correlated_graph; eauto. Qed.

(** complete description of the rules under distinct components *)
Lemma rules_conditional : forall nd no (dem : list (instruction RD)) g j rules, (forall x, In x dem -> (0 <= fst x)%R) ->
  (forall x, In x dem -> NoDup (pairs_of (snd x))) ->
  load_dem_correlated RD nd no dem = Ok (g, j, rules) ->
  forall i e rs b w, nth_error (edges g) i = Some e -> nth_error rules i = Some rs ->
  let c := minmax (node1 e) (node2 e) in
  (In (b, w) rs <-> b <> c /\ errors_with c b dem <> [] /\
     w = log_likelihood_ratio (Rmin (1/2) (odd_probability (errors_with c b dem) / odd_probability (errors_with c c dem)))).
Proof.
  intros nd no dem g j rules Hp Hn H i e rs b w He Hrs c. destruct (load_correlated_graph nd no dem g j rules Hp H) as (HI & HG & Ej & HM & Hh).
  destruct (mapO_spec _ _ _ HM) as [HL HS]. specialize (HS i e rs He Hrs). unfold implied_rules in HS. fold c in HS.
  assert (HN : NoDup (map fst j)) by (rewrite Ej; apply fold_joint_nodup; constructor).
  assert (HR : forall c d q, joint_get RD j c d = Some q -> (0 < q <= 1/2)%R).
  { rewrite Ej. apply fold_joint_range; [intros x Hx; apply Hh; exact Hx|]. intros ? ? ? H'. discriminate. }
  assert (HV : forall a b, joint_get RD j a b = match errors_with a b dem with [] => None | _ => Some (odd_probability (errors_with a b dem)) end).
  { intros. rewrite Ej, fold_joint_value by exact Hn. apply xfold_none. }
  destruct (existsb _ j) eqn:EX.
  - destruct (joint_get RD j c c) as [mp|] eqn:Em; [|discriminate].
    assert (Ez : p_is_zero RD mp = false).
    { destruct (p_is_zero RD mp) eqn:Ez; [|reflexivity]. apply Rzero_spec in Ez. specialize (HR _ _ _ Em). lra. }
    rewrite Ez in HS. injection HS as <-.
    assert (Emp : mp = odd_probability (errors_with c c dem)) by (rewrite HV in Em; destruct (errors_with c c dem); [discriminate|congruence]).
    rewrite in_flat_map. split.
    + intros ([[a b'] q] & Hq & Hin). destruct (key_eqb a c && negb (key_eqb b' c)) eqn:Ek; [|destruct Hin].
      destruct Hin as [Hin|[]]. injection Hin as -> <-.
      apply andb_true_iff in Ek. destruct Ek as [Ea Eb]. apply key_eqb_eq in Ea. subst a. apply negb_true_iff, key_eqb_neq in Eb.
      apply (joint_get_in RD j c b q HN) in Hq. rewrite HV in Hq. split; [exact Eb|].
      destruct (errors_with c b dem) eqn:Ew; [discriminate|]. split; [discriminate|]. injection Hq as <-. rewrite <- Emp. reflexivity.
    + intros (Hb & Hne & ->). exists (c, b, odd_probability (errors_with c b dem)). split.
      * apply (joint_get_in RD j c b _ HN). rewrite HV. destruct (errors_with c b dem); [congruence|reflexivity].
      * rewrite key_eqb_refl. apply key_eqb_neq in Hb. rewrite Hb. cbn [andb negb]. left. rewrite Emp. reflexivity.
  - injection HS as <-. split; [intros []|]. intros (Hb & Hne & _). exfalso.
    assert (Hex : exists q, joint_get RD j c b = Some q) by (rewrite HV; destruct (errors_with c b dem); [congruence|eauto]).
    destruct Hex as [q Hq]. apply (joint_get_in RD j c b q HN) in Hq.
    assert (existsb (fun '(a, _, _) => key_eqb a c) j = true); [|congruence].
    apply existsb_exists. exists (c, b, q). split; [exact Hq|apply key_eqb_refl].
Qed.
