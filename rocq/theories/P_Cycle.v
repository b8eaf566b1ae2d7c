(** Splitting odd cycles (C20). *)
From Coq Require Import List Arith Lia Bool Permutation.
From Verif Require Import M_Core S_Tree.
Import ListNotations.

Lemma flat_two : forall (A : Type) (f : nat -> A) m s, flat_map (fun k => [f (s + 2 * k); f (s + 2 * k + 1)]) (seq 0 m) = map f (seq s (2 * m)).
Proof.
  intros A f m. induction m; intros s; [reflexivity|].
  rewrite seq_S, flat_map_app, IHm. simpl flat_map. replace (2 * S m) with (2 * m + 2) by lia.
  rewrite seq_app, map_app. simpl. repeat f_equal; lia.
Qed.
Lemma flat_two_down : forall (A : Type) (f : nat -> A) m s, 2 * m <= s + 1 ->
  flat_map (fun k => [f (s - 2 * k); f (s - 2 * k - 1)]) (seq 0 m) = map f (rev (seq (s + 1 - 2 * m) (2 * m))).
Proof.
  intros A f m. induction m; intros s H; [reflexivity|].
  rewrite seq_S, flat_map_app, IHm by lia.
  replace (seq (s + 1 - 2 * S m) (2 * S m)) with ([s - 2 * m - 1; s - 2 * m] ++ seq (s + 1 - 2 * m) (2 * m)).
  - rewrite rev_app_distr, map_app. reflexivity.
  - replace (2 * S m) with (2 + 2 * m) by lia. rewrite (seq_app 2). cbn [seq app].
    f_equal; [lia|]. f_equal; [lia|]. f_equal. lia.
Qed.

(** The indices (x + j) mod n for n consecutive j are all indices. *)
Lemma mod_range : forall n x y, 0 < n -> y < n -> exists j, j < n /\ (x + j) mod n = y.
Proof.
  intros n x y Hn Hy. exists ((y + n - x mod n) mod n). split; [apply Nat.mod_upper_bound; lia|].
  pose proof (Nat.mod_upper_bound x n ltac:(lia)) as Hx.
  rewrite Nat.add_mod_idemp_r by lia. rewrite <- Nat.add_mod_idemp_l by lia.
  replace (x mod n + (y + n - x mod n)) with (y + 1 * n) by lia. rewrite Nat.mod_add by lia. apply Nat.mod_small. exact Hy.
Qed.
Lemma mod_inj : forall n x j j', 0 < n -> j < n -> j' < n -> (x + j) mod n = (x + j') mod n -> j = j'.
Proof.
  intros n x j j' Hn H1 H2 E. pose proof (Nat.div_mod (x + j) n ltac:(lia)) as D1. pose proof (Nat.div_mod (x + j') n ltac:(lia)) as D2.
  rewrite E in D1. set (a := (x + j) / n) in *. set (b := (x + j') / n) in *.
  assert (a = b \/ a < b \/ b < a) as [|[|]] by lia; nia.
Qed.
Lemma map_NoDup_in : forall (A B : Type) (f : A -> B) l,
  (forall x y, In x l -> In y l -> f x = f y -> x = y) -> NoDup l -> NoDup (map f l).
Proof.
  intros A B f l. induction l as [|a l IH]; intros Hi Hnd; simpl; [constructor|]. inversion Hnd; subst. constructor.
  - intros Hin. apply in_map_iff in Hin as [x [E Hx]]. apply H1. rewrite <- (Hi x a); auto; [now right|now left].
  - apply IH; auto. intros x y Hx Hy. apply Hi; now right.
Qed.
Lemma rotation : forall n x s, 0 < n -> Permutation (map (fun j => (x + j) mod n) (seq s n)) (seq 0 n).
Proof.
  intros n x s Hn. apply NoDup_Permutation_bis.
  - apply map_NoDup_in; [|apply seq_NoDup]. intros j j' Hj Hj' E. apply in_seq in Hj, Hj'.
    assert (j - s = j' - s); [|lia]. apply (mod_inj n (x + s)); try lia.
    replace (x + s + (j - s)) with (x + j) by lia. replace (x + s + (j' - s)) with (x + j') by lia. exact E.
  - now rewrite map_length, !seq_length.
  - intros y Hy. apply in_map_iff in Hy as [j [<- _]]. apply in_seq. split; [lia|]. apply Nat.mod_upper_bound. lia.
Qed.
Lemma map_nth_seq : forall (A : Type) (d : A) l, map (fun i => nth i l d) (seq 0 (length l)) = l.
Proof.
  intros A d l. induction l as [|a l IH]; [reflexivity|]. simpl. f_equal. rewrite <- seq_shift, map_map. exact IH.
Qed.
Lemma regions_perm : forall cyc x s, cyc <> [] ->
  Permutation (map (fun j => region_at cyc (x + j)) (seq s (length cyc))) (map fst cyc).
Proof.
  intros cyc x s Hne. assert (0 < length cyc) by (destruct cyc; [congruence|simpl; lia]).
  assert (E : map fst cyc = map (fun i => fst (nth i cyc dflt)) (seq 0 (length cyc))).
  { rewrite <- (map_nth_seq _ dflt cyc) at 1. now rewrite map_map. }
  rewrite E. unfold region_at.
  transitivity (map (fun i => fst (nth i cyc dflt)) (map (fun j => (x + j) mod length cyc) (seq s (length cyc)))).
  - rewrite map_map. apply Permutation_refl.
  - apply Permutation_map. now apply rotation.
Qed.

Lemma region_mod : forall cyc i j, i mod length cyc = j mod length cyc -> region_at cyc i = region_at cyc j.
Proof. intros cyc i j E. unfold region_at. now rewrite E. Qed.
Lemma edge_mod : forall cyc i j, i mod length cyc = j mod length cyc -> edge_at cyc i = edge_at cyc j.
Proof. intros cyc i j E. unfold edge_at. now rewrite E. Qed.
Lemma mod_S : forall n i, n <> 0 -> S (i mod n) mod n = S i mod n.
Proof. intros n i H. replace (S (i mod n)) with (i mod n + 1) by lia. rewrite Nat.add_mod_idemp_l by lia. f_equal. lia. Qed.
Lemma link_fwd : forall cyc i, cyc <> [] -> cyc_link cyc (region_at cyc i) (region_at cyc (S i)) (edge_at cyc i).
Proof.
  intros cyc i H. assert (length cyc <> 0) by (destruct cyc; simpl; congruence).
  exists (i mod length cyc). split; [apply Nat.mod_upper_bound; lia|]. left. repeat split.
  - apply region_mod. now rewrite Nat.mod_mod.
  - apply region_mod. symmetry. now apply mod_S.
  - apply edge_mod. now rewrite Nat.mod_mod.
Qed.
Lemma link_bwd : forall cyc i, cyc <> [] -> cyc_link cyc (region_at cyc (S i)) (region_at cyc i) (rev_e (edge_at cyc i)).
Proof.
  intros cyc i H. destruct (link_fwd cyc i H) as (j & Hj & [(E1 & E2 & E3)|(E1 & E2 & E3)]).
  - exists j. split; [assumption|]. right. rewrite E1, E2, E3. auto.
  - exists j. split; [assumption|]. left. rewrite E1, E2, E3. repeat split. now destruct (edge_at cyc j).
Qed.

Lemma odd_ne : forall (A : Type) (l : list A), Nat.odd (length l) = true -> l <> [].
Proof. intros A l H ->. discriminate. Qed.

(** Extraction: everything but child number [idx] is paired with a neighbour. *)
Lemma child_pairs_spec : forall cyc idx, Nat.odd (length cyc) = true -> idx < length cyc ->
  Permutation (region_at cyc idx :: pair_regions (child_pairs cyc idx)) (map fst cyc) /\
  Forall (fun x => cyc_link cyc (fst (fst x)) (snd (fst x)) (snd x)) (child_pairs cyc idx).
Proof.
  intros cyc idx Hodd Hidx. pose proof (odd_ne _ _ Hodd) as Hne. split.
  - unfold pair_regions, child_pairs. rewrite flat_map_concat_map, map_map, <- flat_map_concat_map.
    cbn [fst snd].
    transitivity (map (fun j => region_at cyc (idx + j)) (seq 0 (length cyc))); [|now apply regions_perm].
    apply Nat.odd_spec in Hodd as [m Hm]. assert (Hdiv : length cyc / 2 = m) by (rewrite Hm; replace (2 * m + 1) with (1 + m * 2) by lia; rewrite Nat.div_add; [reflexivity|lia]).
    rewrite Hdiv. replace (seq 0 (length cyc)) with (0 :: seq 1 (2 * m)) by (rewrite Hm; replace (2 * m + 1) with (S (2 * m)) by lia; reflexivity).
    cbn [map]. rewrite <- (flat_two nat (fun j => region_at cyc (idx + j)) m 1).
    rewrite Nat.add_0_r. apply perm_skip.
    erewrite flat_map_ext; [apply Permutation_refl|]. intros k. cbn beta.
    unfold region_at. replace (idx + (1 + 2 * k)) with (idx + 2 * k + 1) by lia.
    replace (idx + (1 + 2 * k + 1)) with (idx + 2 * k + 2) by lia. reflexivity.
  - unfold child_pairs. apply Forall_forall. intros x Hx. apply in_map_iff in Hx as [k [<- _]]. cbn [fst snd].
    replace (idx + 2 * k + 2) with (S (idx + 2 * k + 1)) by lia. apply (link_fwd cyc (idx + 2 * k + 1) Hne).
Qed.

Lemma seg_path_gen : forall cyc m s (f : nat -> nat * nat * cedge * cedge) (g : nat -> nat),
  (forall k, s <= k < s + m -> let '(i, o, e, e') := f k in i = region_at cyc (g k) /\ cyc_link cyc i o e /\ cyc_link cyc o (region_at cyc (g (S k))) e') ->
  seg_path cyc (region_at cyc (g s)) (map f (seq s m)) (region_at cyc (g (s + m))).
Proof.
  intros cyc m. induction m; intros s f g H; simpl.
  - now rewrite Nat.add_0_r.
  - pose proof (H s ltac:(lia)) as H1. destruct (f s) as [[[i o] e] e'] eqn:Ef. destruct H1 as (-> & H2 & H3).
    split; [reflexivity|]. split; [exact H2|]. exists (region_at cyc (g (S s))). split; [exact H3|].
    replace (s + S m) with (S s + m) by lia. apply IHm. intros k Hk. apply H. lia.
Qed.

(** Shattering during growth. *)
Lemma split_cycle_spec : forall cyc pi ci, Nat.odd (length cyc) = true -> pi < length cyc -> ci < length cyc ->
  let (pairs, seg) := split_cycle cyc pi ci in
  Permutation (pair_regions pairs ++ seg_regions seg ++ [region_at cyc ci]) (map fst cyc) /\
  Forall (fun x => cyc_link cyc (fst (fst x)) (snd (fst x)) (snd x)) pairs /\
  seg_path cyc (region_at cyc pi) seg (region_at cyc ci).
Proof.
  intros cyc pi ci Hodd Hpi Hci. pose proof (odd_ne _ _ Hodd) as Hne. unfold split_cycle.
  set (n := length cyc) in *. set (gap := (ci + n - pi) mod n).
  assert (Hn : n <> 0) by lia.
  assert (Hgap : gap < n) by (apply Nat.mod_upper_bound; lia).
  assert (Eci : (pi + gap) mod n = ci).
  { unfold gap. rewrite Nat.add_mod_idemp_r by lia. replace (pi + (ci + n - pi)) with (ci + 1 * n) by lia.
    rewrite Nat.mod_add by lia. now apply Nat.mod_small. }
  assert (Rci : region_at cyc ci = region_at cyc (pi + gap)).
  { apply region_mod. fold n. rewrite Eci. now apply Nat.mod_small. }
  apply Nat.odd_spec in Hodd as [m Hm].
  assert (Esplit : (gap mod 2 = 0 /\ exists g, gap = 2 * g) \/ (gap mod 2 = 1 /\ exists g, gap = 2 * g + 1)).
  { pose proof (Nat.div_mod gap 2 ltac:(lia)). pose proof (Nat.mod_upper_bound gap 2 ltac:(lia)).
    assert (gap mod 2 = 0 \/ gap mod 2 = 1) as [E|E] by lia; [left|right]; split; auto; exists (gap / 2); lia. }
  assert (Hdiv : forall x, (2 * x) / 2 = x) by (intros x; rewrite Nat.mul_comm; apply Nat.div_mul; lia).
  assert (Hdiv1 : forall x, (2 * x + 1) / 2 = x) by (intros x; replace (2 * x + 1) with (1 + x * 2) by lia; rewrite Nat.div_add; [reflexivity|lia]).
  assert (Hfwd : forall st c, Forall (fun x => cyc_link cyc (fst (fst x)) (snd (fst x)) (snd x))
     (map (fun k => (fst (nth ((st + 2 * k) mod n) cyc dflt), fst (nth ((st + 2 * k + 1) mod n) cyc dflt), snd (nth ((st + 2 * k) mod n) cyc dflt))) (seq 0 c))).
  { intros st c. apply Forall_forall. intros x Hx. apply in_map_iff in Hx as [k [<- _]]. cbn [fst snd].
    replace (st + 2 * k + 1) with (S (st + 2 * k)) by lia. exact (link_fwd cyc (st + 2 * k) Hne). }
  destruct Esplit as [[E [g Hg]]|[E [g Hg]]]; rewrite E; cbn [Nat.eqb].
  - (* even gap *)
    replace (ci + n - gap - (ci + 1) + 1) with (2 * (m - g) + 1) by lia. rewrite Hdiv1.
    replace ((gap + 1) / 2) with g by (rewrite Hg, Hdiv1; reflexivity).
    split; [|split].
    + unfold pair_regions, seg_regions. rewrite !flat_map_concat_map, !map_map, <- !flat_map_concat_map. cbn [fst snd].
      transitivity (map (fun j => region_at cyc (pi + j)) (seq 0 n)); [|now apply regions_perm].
      replace (seq 0 n) with (seq 0 (2 * g + (1 + 2 * (m - g)))) by (f_equal; lia).
      rewrite seq_app, map_app, seq_app, map_app.
      assert (E1 : flat_map (fun x => [fst (nth ((pi + 2 * x) mod n) cyc dflt); fst (nth ((pi + 2 * x + 1) mod n) cyc dflt)]) (seq 0 g)
        = map (fun j => region_at cyc (pi + j)) (seq 0 (2 * g))).
      { rewrite <- (flat_two nat (fun j => region_at cyc (pi + j)) g 0). apply flat_map_ext. intros k. 
        replace (0 + 2 * k + 1) with (2 * k + 1) by lia. rewrite Nat.add_0_l, Nat.add_assoc. reflexivity. }
      rewrite E1.
      assert (E2 : flat_map (fun x => [fst (nth ((ci + 1 + 2 * x) mod n) cyc dflt); fst (nth ((ci + 1 + 2 * x + 1) mod n) cyc dflt)]) (seq 0 (m - g))
        = map (fun j => region_at cyc (pi + j)) (seq (0 + 2 * g + 1) (2 * (m - g)))).
      { rewrite <- (flat_two nat (fun j => region_at cyc (pi + j)) (m - g) (0 + 2 * g + 1)). apply flat_map_ext. intros k.
        assert (X : forall j, region_at cyc (ci + j) = region_at cyc (pi + (gap + j))).
        { intros j. apply region_mod. fold n.
          rewrite <- Eci at 1. rewrite Nat.add_mod_idemp_l by lia. f_equal. lia. }
        change (fst (nth ((ci + 1 + 2 * k) mod n) cyc dflt)) with (region_at cyc (ci + 1 + 2 * k)).
        change (fst (nth ((ci + 1 + 2 * k + 1) mod n) cyc dflt)) with (region_at cyc (ci + 1 + 2 * k + 1)).
        replace (ci + 1 + 2 * k) with (ci + (1 + 2 * k)) by lia. replace (ci + (1 + 2 * k) + 1) with (ci + (2 + 2 * k)) by lia.
        rewrite !X. replace (gap + (1 + 2 * k)) with (0 + 2 * g + 1 + 2 * k) by lia.
        replace (gap + (2 + 2 * k)) with (0 + 2 * g + 1 + 2 * k + 1) by lia. reflexivity. }
      rewrite E2. cbn [seq map]. rewrite Rci. replace (pi + (0 + 2 * g)) with (pi + gap) by lia.
      rewrite Permutation_app_comm, <- app_assoc. apply Permutation_refl.
    + apply Hfwd.
    + replace (region_at cyc ci) with (region_at cyc (pi + 2 * (0 + g))) by (rewrite Rci; f_equal; lia).
      replace (region_at cyc pi) with (region_at cyc (pi + 2 * 0)) by (f_equal; lia).
      apply (seg_path_gen cyc g 0 _ (fun k => pi + 2 * k)). intros k Hk. split; [reflexivity|]. split.
      * replace (pi + 2 * k + 1) with (S (pi + 2 * k)) by lia. exact (link_fwd cyc (pi + 2 * k) Hne).
      * replace (pi + 2 * S k) with (S (pi + 2 * k + 1)) by lia. exact (link_fwd cyc (pi + 2 * k + 1) Hne).
  - (* odd gap *)
    replace (pi + gap - (pi + 1) + 1) with (2 * g + 1) by lia. rewrite Hdiv1.
    replace ((n - gap + 1) / 2) with (m - g) by (replace (n - gap + 1) with (2 * (m - g) + 1) by lia; rewrite Hdiv1; reflexivity).
    split; [|split].
    + unfold pair_regions, seg_regions. rewrite !flat_map_concat_map, !map_map, <- !flat_map_concat_map. cbn [fst snd].
      transitivity (map (fun j => region_at cyc (pi + j)) (seq 1 n)); [|now apply regions_perm].
      replace (seq 1 n) with (seq 1 (2 * g + (1 + 2 * (m - g)))) by (f_equal; lia).
      rewrite seq_app, map_app, seq_app, map_app.
      assert (E1 : flat_map (fun x => [fst (nth ((pi + 1 + 2 * x) mod n) cyc dflt); fst (nth ((pi + 1 + 2 * x + 1) mod n) cyc dflt)]) (seq 0 g)
        = map (fun j => region_at cyc (pi + j)) (seq 1 (2 * g))).
      { rewrite <- (flat_two nat (fun j => region_at cyc (pi + j)) g 1). apply flat_map_ext. intros k. 
        replace (pi + (1 + 2 * k)) with (pi + 1 + 2 * k) by lia. replace (pi + (1 + 2 * k + 1)) with (pi + 1 + 2 * k + 1) by lia. reflexivity. }
      rewrite E1.
      assert (E2 : flat_map (fun x => [fst (nth ((pi + n - 2 * x) mod n) cyc dflt); fst (nth ((pi + n - 2 * x - 1) mod n) cyc dflt)]) (seq 0 (m - g))
        = map (region_at cyc) (rev (seq (pi + n + 1 - 2 * (m - g)) (2 * (m - g))))).
      { rewrite <- flat_two_down by lia. reflexivity. }
      rewrite E2, Rci. rewrite map_rev, <- Permutation_rev. cbn [seq map].
      apply Permutation_app_head. rewrite Permutation_app_comm. cbn [app].
      replace (pi + (1 + 2 * g)) with (pi + gap) by lia. apply perm_skip.
      replace (pi + n + 1 - 2 * (m - g)) with (pi + (1 + 2 * g + 1)) by lia.
      assert (X : forall j l a, map (region_at cyc) (seq (a + l) j) = map (fun x => region_at cyc (a + x)) (seq l j)).
      { induction j; intros l a; simpl; [reflexivity|]. f_equal. rewrite <- IHj. f_equal. f_equal. lia. }
      rewrite X. apply Permutation_refl.
    + apply Hfwd.
    + replace (region_at cyc ci) with (region_at cyc (pi + n - 2 * (0 + (m - g)))) by (rewrite Rci; f_equal; lia).
      replace (region_at cyc pi) with (region_at cyc (pi + n - 2 * 0)).
      2:{ apply region_mod. fold n. replace (pi + n - 2 * 0) with (pi + 1 * n) by lia. apply Nat.mod_add. lia. }
      apply (seg_path_gen cyc (m - g) 0 _ (fun k => pi + n - 2 * k)). intros k Hk. split; [reflexivity|].
      pose proof (link_bwd cyc (pi + n - 2 * k - 1) Hne) as L1. replace (S (pi + n - 2 * k - 1)) with (pi + n - 2 * k) in L1 by lia.
      pose proof (link_bwd cyc (pi + n - 2 * k - 2) Hne) as L2. replace (S (pi + n - 2 * k - 2)) with (pi + n - 2 * k - 1) in L2 by lia.
      split; [exact L1|]. replace (pi + n - 2 * S k) with (pi + n - 2 * k - 2) by lia. exact L2.
Qed.
