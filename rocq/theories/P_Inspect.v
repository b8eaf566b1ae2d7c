(** Proofs about the functions that look at the decoder's data. *)
From Coq Require Import ZArith NArith List Bool Arith Lia Permutation.
From Verif Require Import M_Base M_Varying M_Tracker M_Core M_Session S_Core S_Session S_Decode S_Tree P_Session P_Sum P_Dual P_Up P_Tree P_CoreGeo P_CoreSched P_CoreArea P_CoreRoles P_CoreHit P_CoreSelf2 P_CoreEvent P_CoreAdd P_CoreExt1 P_CoreExt2 P_CorePath P_CoreDecode P_Decode M_Inspect S_Inspect.
Import ListNotations.
Local Open Scope nat_scope.

(** ** The invariant *)
Lemma reached_Inv : forall G I s evs s', wf_graph G -> idle G s -> valid_events G evs -> valid_events G (neg_events I) ->
  reached G exact_ints I s evs s' -> exists ev, Inv G ev s'.
Proof.
  intros G I s evs s' WF HI [V1 V2] [V3 V4] H.
  destruct (add_events_spec (NI := exact_ints) G WF I s evs HI V1 V2 V3 V4) as (s1 & ev & E1 & HInv & Hev). exists ev.
  induction H as [s2 E2|fuel orc s2 s3 e s4 H IH E2 E3]; [congruence|]. destruct IH as (ls & ch & al & c & AO & HGeo & HQ & HR).
  pose proof (run_until_event_spec G WF ev ls ch al c fuel orc fuel s2 HGeo HR HQ) as S. rewrite E2 in S. cbn [safe fst snd] in S. destruct S as (K & G1 & H1 & HE).
  assert (AO1 : arena_ok (ra s3) ls) by now rewrite (k_ra _ _ _ K). pose proof (process_event_spec (NI := exact_ints) G WF ev s3 ls ch al c e G1 AO1 H1 HE) as PE. destruct e as [|r1 r2 e|r e|b x y]; [cbn [process_event] in E3; injection E3 as <-; exists ls, ch, al, c; destruct HE as [_ HE]; split; [assumption|]; split; [assumption|]; now split| | |];
    specialize (proj2 (PE ltac:(discriminate)) fuel); cbv beta; rewrite E3; intros (_ & _ & PI); exact PI.
Qed.
Lemma arena_uses : forall a l x, arena_ok a l -> (In x l <-> in_use a x).
Proof.
  intros a l x H. split; [|now apply arena_in_use]. intros Hx. split.
  - assert (X : In x (seq 0 (next a))) by (apply (Permutation_in _ H), in_or_app; now left). apply in_seq in X. lia.
  - intros Hf. assert (N : NoDup (l ++ free a)) by (eapply Permutation_NoDup; [apply Permutation_sym; exact H|apply seq_NoDup]).
    apply in_split in Hx as (l1 & l2 & ->). rewrite <- app_assoc in N. cbn [app] in N. apply NoDup_remove in N as [_ N]. apply N. apply in_or_app. right. apply in_or_app. now right.
Qed.

(** ** Equality *)
Lemma cedge_equal_refl : forall e, cedge_equal e e = true.
Proof. intros [[a|] [b|] o]; unfold cedge_equal; cbn; rewrite ?Nat.eqb_refl, ?N.eqb_refl; reflexivity. Qed.
Lemma nodes_equal_spec : forall l m, nodes_equal l m = true <-> l = m.
Proof.
  induction l as [|x l IH]; intros [|y m]; cbn; split; intros H; try discriminate; auto.
  - apply andb_true_iff in H as [H1 H2]. apply Nat.eqb_eq in H1. apply IH in H2. congruence.
  - injection H as -> ->. rewrite Nat.eqb_refl. cbn. now apply IH.
Qed.
Lemma children_equal_refl : forall eq l, (forall a, In a (map fst l) -> eq a a = Ok true) -> children_equal eq l l = Ok true.
Proof.
  induction l as [|[a e] l IH]; intros H; cbn; [reflexivity|]. rewrite cedge_equal_refl. cbn. rewrite (H a) by now left. cbn. apply IH. intros b Hb. apply H. now right.
Qed.
Lemma same_opt_refl : forall a, same_opt a a = true.
Proof. intros [a|]; cbn; [apply Nat.eqb_refl|reflexivity]. Qed.

(** ** Forests in a list *)
Section Forest.
Variables (ls : list nat) (p : nat -> option nat) (c : nat -> list nat).
Hypothesis U : up_ok (fun x => In x ls) p c.
Lemma up_short : forall a, In a ls -> length (c a) <= length ls.
Proof. intros a Ha. apply NoDup_incl_length; [apply (up_NoDup _ _ _ U a Ha)|intros x Hx; apply (up_all_L _ _ _ U a Ha x Hx)]. Qed.
Lemma down_ind : forall P : nat -> Prop, (forall a, In a ls -> (forall b, In b ls -> p b = Some a -> P b) -> P a) -> forall a, In a ls -> P a.
Proof.
  intros P H. assert (X : forall n a, length ls - length (c a) <= n -> In a ls -> P a).
  { induction n; intros a Hn Ha; apply H; auto; intros b Hb E; pose proof (up_short b Hb); rewrite (up_eq _ _ _ U b Hb), E in *; cbn [length] in *; [lia|].
    apply IHn; [|assumption]. rewrite (up_eq _ _ _ U b Hb), E. cbn [length]. lia. }
  intros a Ha. exact (X _ a (Nat.le_refl _) Ha).
Qed.
Lemma child_length : forall a b, In b ls -> p b = Some a -> length (c b) = S (length (c a)).
Proof. intros a b Hb E. rewrite (up_eq _ _ _ U b Hb), E. reflexivity. Qed.
End Forest.

Section State.
Variables (G : graph) (ev : list nat) (s : state) (ls : list nat) (ch : nat -> list nat) (al : list nat) (c : nat -> list nat).
Hypothesis AO : arena_ok (ra s) ls.
Hypothesis HC : Core G ev ls ch s al c.
Let HGeo : Geo G ev s ls ch := proj1 HC.
Let HG := proj1 HGeo.
Let HR := proj2 (proj2 HC).
Let U : up_ok (fun R => In R ls) (bpar (rg s)) ch := g_up _ _ _ _ _ _ _ HG.
Let ST := b_str _ _ _ _ _ _ _ _ _ _ _ _ HR.
Let AT := b_arena _ _ _ _ _ _ _ _ _ _ _ _ HR.
Let UT : up_ok (fun x => In x al) (par (tr s)) c := ts_up _ _ _ _ ST.

(** ** The order of regions *)
Lemma inside_up : forall b a, In a ls -> (inside (rg s) a b <-> In b (ch a)).
Proof.
  intros b a Ha. revert a Ha. apply (up_ind _ _ _ U (fun a => inside (rg s) a b <-> In b (ch a))).
  - intros a Ha E. rewrite (up_eq _ _ _ U a Ha), E. split; [intros H; inversion H; subst; [now left|congruence]|intros [<-|[]]; constructor].
  - intros a q Ha E Hq IH. rewrite (up_eq _ _ _ U a Ha), E. cbn [In]. rewrite <- IH. split.
    + intros H. inversion H; subst; [now left|]. right. congruence.
    + intros [<-|H]; [constructor|]. econstructor; eauto.
Qed.
Lemma le_spec : forall b a, In a ls -> forall k, length (ch a) < k -> le_loop k (rg s) (Some a) b = Ok (memb b (ch a)).
Proof.
  intros b. apply (up_ind _ _ _ U (fun a => forall k, length (ch a) < k -> le_loop k (rg s) (Some a) b = Ok (memb b (ch a)))).
  - intros a Ha E k Hk. rewrite (up_eq _ _ _ U a Ha), E in *. cbn [length] in Hk. destruct k as [|[|k]]; try lia. cbn [le_loop memb existsb]. rewrite E, Nat.eqb_sym. destruct (b =? a); reflexivity.
  - intros a q Ha E Hq IH k Hk. rewrite (up_eq _ _ _ U a Ha), E in *. cbn [length] in Hk. destruct k as [|k]; [lia|]. cbn [le_loop memb existsb]. rewrite E, (Nat.eqb_sym b a). destruct (a =? b); [reflexivity|]. cbn [orb]. apply IH. lia.
Qed.
Definition over (B C : nat) : bool := negb (B =? C) && memb C (ch B).
Lemma over_spec : forall B C, In B ls -> (over B C = true <-> around (rg s) C B).
Proof.
  intros B C HB. unfold over, around. rewrite andb_true_iff, negb_true_iff, Nat.eqb_neq, memb_In, (inside_up C B HB). split; intros [H1 H2]; split; auto.
Qed.
Section Fuel.
Variable fuel : nat.
Hypothesis HF : length ls < fuel.
Lemma region_le_ok : forall a b, In a ls -> region_le fuel s a b = Ok (memb b (ch a)).
Proof. intros a b Ha. apply le_spec; [assumption|]. pose proof (up_short ls _ _ U a Ha). lia. Qed.
Lemma region_gt_ok : forall a b, In b ls -> region_gt fuel s a b = Ok (over b a).
Proof. intros a b Hb. unfold region_gt, region_lt, over. rewrite region_le_ok by assumption. destruct (b =? a); reflexivity. Qed.

(** ** Equality of regions *)
Lemma region_equal_spec : forall a, In a ls -> forall b k, In b ls -> length ls - length (ch a) < k -> region_equal_loop s k a b = Ok (a =? b).
Proof.
  apply (down_ind ls _ _ U (fun a => forall b k, In b ls -> length ls - length (ch a) < k -> region_equal_loop s k a b = Ok (a =? b))).
  intros a Ha IH b k Hb Hk. destruct k as [|k]; [lia|]. cbn [region_equal_loop].
  assert (D : forall x, In x (map fst (chl (rg s) a)) -> forall y, In y ls -> region_equal_loop s k x y = Ok (x =? y)).
  { intros x Hx y Hy. apply (g_chl _ _ _ _ _ _ _ HG a x Ha) in Hx as [Lx Ex]. apply IH; auto. pose proof (up_short ls _ _ U x Lx). pose proof (child_length ls _ _ U a x Lx Ex). lia. }
  destruct (Nat.eqb_spec a b) as [<-|Hne].
  - rewrite same_opt_refl, Z.eqb_refl, Nat.eqb_refl, (proj2 (nodes_equal_spec _ _) eq_refl). cbn [negb orb]. apply children_equal_refl. intros x Hx. rewrite D, Nat.eqb_refl; auto.
    apply (g_chl _ _ _ _ _ _ _ HG a x Ha) in Hx. apply Hx.
  - destruct (_ || _) eqn:E; [reflexivity|]. rewrite !orb_false_iff, !negb_false_iff in E. destruct E as [[_ E2] E3]. apply Nat.eqb_eq in E2. apply nodes_equal_spec in E3.
    destruct (chl (rg s) a) as [|[x e] l] eqn:Ea.
    + destruct (g_leaf _ _ _ _ _ _ _ HG a Ha Ea) as (l & v & Ev & _). assert (X1 : In v (shl (rg s) a)) by (rewrite Ev; apply in_or_app; right; now left).
      assert (X2 := X1). rewrite E3 in X2. apply (g_shl _ _ _ _ _ _ _ HG) in X1, X2; auto. destruct X1 as [_ X1], X2 as [_ X2]. congruence.
    + destruct (chl (rg s) b) as [|[y f] m] eqn:Eb; [discriminate|]. cbn [children_equal]. destruct (cedge_equal e f); [|reflexivity]. cbn [negb].
      assert (Hx : In x ls /\ bpar (rg s) x = Some a) by (apply (g_chl _ _ _ _ _ _ _ HG a x Ha); rewrite Ea; now left).
      assert (Hy : In y ls /\ bpar (rg s) y = Some b) by (apply (g_chl _ _ _ _ _ _ _ HG b y Hb); rewrite Eb; now left).
      rewrite D by (try apply Hy; now left). cbn [bindO]. destruct (Nat.eqb_spec x y) as [<-|_]; [|reflexivity]. destruct Hx, Hy. congruence.
Qed.
Lemma region_equal_ok : forall a b, In a ls -> In b ls -> region_equal fuel s a b = Ok (a =? b).
Proof. intros a b Ha Hb. apply region_equal_spec; auto. lia. Qed.

(** ** The radius of a node within a region *)
Lemma over_up : forall B C D, In B ls -> over B C = true -> In D (ch C) -> over B D = true.
Proof.
  intros B C D HB H HD. unfold over in *. apply andb_true_iff in H as [H1 H2]. apply memb_In in H2. apply negb_true_iff, Nat.eqb_neq in H1.
  apply andb_true_iff. split; [|apply memb_In; eapply (up_trans _ _ _ U B C D); eauto]. apply negb_true_iff, Nat.eqb_neq. intros <-. apply H1.
  apply (up_antisym _ _ _ U B C HB (up_all_L _ _ _ U B HB C H2) HD H2).
Qed.
Definition kept (B : nat) (l : list nat) : list nat := filter (fun C => negb (over B C)) l.
Lemma kept_none : forall B l, (forall C, In C l -> over B C = true) -> kept B l = [].
Proof. intros B. induction l as [|x l IH]; intros H; cbn; [reflexivity|]. rewrite (H x) by now left. cbn. apply IH. intros C HC'. apply H. now right. Qed.
Lemma radius_loop_spec : forall t B, In B ls -> forall R, In R ls -> forall k acc, length (ch R) < k ->
  radius_loop fuel s k t B (Some R) acc = Ok (acc + total_radius (rg s) t (kept B (ch R)))%Z.
Proof.
  intros t B HB.
  assert (X : forall R, In R ls -> over B R = true -> kept B (ch R) = []) by (intros R _ H; apply kept_none; intros C HC'; eapply over_up; eauto).
  assert (Y : forall q, bpar (rg s) B = Some q -> kept B (ch q) = []).
  { intros q E. apply kept_none. intros C HC'. assert (HC2 : In C (ch B)) by (rewrite (up_eq _ _ _ U B HB), E; now right). unfold over. apply andb_true_iff. split; [|now apply memb_In].
    apply negb_true_iff, Nat.eqb_neq. intros <-. pose proof (up_strict _ _ _ U B q B HB E HC'). lia. }
  apply (up_ind _ _ _ U (fun R => forall k acc, length (ch R) < k -> radius_loop fuel s k t B (Some R) acc = Ok (acc + total_radius (rg s) t (kept B (ch R)))%Z)).
  - intros R Hr E k acc Hk. destruct k as [|k]; [lia|]. cbn [radius_loop]. rewrite (region_gt_ok R B HB). cbn [bindO]. destruct (over B R) eqn:O; [rewrite (X R Hr O); cbn; f_equal; lia|].
    rewrite (region_equal_ok R B Hr HB). cbn [bindO]. rewrite (up_eq _ _ _ U R Hr), E in *. cbn [length] in Hk. unfold kept. cbn [filter]. rewrite O. cbn [negb total_radius map fold_right].
    destruct (R =? B); [f_equal; unfold total_radius; cbn; lia|]. destruct k as [|k]; [lia|]. cbn [radius_loop]. f_equal. unfold total_radius. cbn. lia.
  - intros R q Hr E Hq IH k acc Hk. destruct k as [|k]; [lia|]. cbn [radius_loop]. rewrite (region_gt_ok R B HB). cbn [bindO]. destruct (over B R) eqn:O; [rewrite (X R Hr O); cbn; f_equal; lia|].
    rewrite (region_equal_ok R B Hr HB). cbn [bindO]. rewrite (up_eq _ _ _ U R Hr), E in *. cbn [length] in Hk. unfold kept at 1. cbn [filter]. rewrite O. cbn [negb]. fold (kept B (ch q)).
    destruct (Nat.eqb_spec R B) as [->|Hne].
    + rewrite (Y q E). f_equal. unfold total_radius. cbn. lia.
    + rewrite IH by lia. f_equal. unfold total_radius. cbn [map fold_right]. lia.
Qed.
Lemma total_zsum : forall t l, total_radius (rg s) t l = zsum (rval (rg s) t) l.
Proof. intros t. induction l as [|x l IH]; [reflexivity|]. unfold total_radius in *. cbn [map fold_right zsum]. rewrite IH. reflexivity. Qed.
Lemma total_perm : forall t l m, NoDup l -> NoDup m -> (forall x, In x l <-> In x m) -> total_radius (rg s) t l = total_radius (rg s) t m.
Proof. intros t l m Nl Nm H. rewrite !total_zsum. apply zsum_perm. now apply NoDup_Permutation. Qed.
Lemma bounded_spec : forall v t B, In B ls -> v < length G ->
  bounded_radius fuel s v t B = Ok (match arr (nd s) v with None => 0 | Some R => if over B R then 0 else total_radius (rg s) t (kept B (ch R)) - rar (nd s) v end)%Z.
Proof.
  intros v t B HB Hv. unfold bounded_radius. destruct (arr (nd s) v) as [R|] eqn:Ea; [|reflexivity]. pose proof (g_arr _ _ _ _ _ _ _ HG v R Hv Ea) as HRl.
  rewrite (region_gt_ok R B HB). cbn [bindO]. destruct (over B R); [reflexivity|]. rewrite radius_loop_spec; auto. pose proof (up_short ls _ _ U R HRl). lia.
Qed.
(** Within its outermost region a node has its local radius. *)
Lemma bounded_top : forall v t R, v < length G -> arr (nd s) v = Some R ->
  bounded_radius fuel s v t (P_Up.root ch R) = Ok (get_distance_at_time (local_radius s v) t).
Proof.
  intros v t R Hv Ea. pose proof (g_arr _ _ _ _ _ _ _ HG v R Hv Ea) as HRl. destruct (root_spec _ _ ch U R HRl) as (R1 & R2 & R3).
  rewrite bounded_spec by assumption. rewrite Ea.
  assert (N : forall C, over (P_Up.root ch R) C = false).
  { intros C. unfold over. rewrite (up_eq _ _ _ U _ R2), R3. cbn [memb existsb]. rewrite orb_false_r, (Nat.eqb_sym C). destruct (_ =? C); reflexivity. }
  rewrite N. replace (kept (P_Up.root ch R) (ch R)) with (ch R)
    by (unfold kept; revert N; generalize (over (P_Up.root ch R)) as q; intros q N; clear - N; induction (ch R) as [|x l IH]; cbn; [reflexivity|rewrite N; cbn; now f_equal]).
  f_equal. destruct (lr_occ G ev s ls ch HGeo v R Hv Ea) as (V1 & V2 & V3). unfold nsl, icp in V2, V3. rewrite (vok_distance _ t V1), V3, V2. unfold rho. rewrite Ea, total_zsum.
  set (u := now (sc s)) in *.
  assert (D : forall x, In x ls -> rval (rg s) t x = (rval (rg s) u x + slp (rad (rg s) x) * (t - u))%Z).
  { intros x Hx. unfold rval. rewrite !(vok_distance _ _ (s_vok _ _ _ _ _ _ (proj2 HGeo) x Hx)). lia. }
  rewrite (up_last _ _ _ U R HRl) at 1 2. rewrite !zsum_app. cbn [zsum]. rewrite (D _ R2).
  assert (Z : zsum (rval (rg s) t) (removelast (ch R)) = zsum (rval (rg s) u) (removelast (ch R))).
  { apply zsum_ext. intros x Hx. assert (Hx2 : In x (ch R)) by (rewrite (up_last _ _ _ U R HRl); apply in_or_app; now left). pose proof (up_all_L _ _ _ U R HRl x Hx2) as Lx. rewrite (D x Lx).
    rewrite (s_frz _ _ _ _ _ _ (proj2 HGeo) x Lx); [lia|]. intros E. pose proof (up_root_only _ _ _ U R x HRl Hx2 E) as Ex. pose proof (up_NoDup _ _ _ U R HRl) as ND. rewrite (up_last _ _ _ U R HRl) in ND.
    apply NoDup_remove_2 in ND. apply ND. rewrite app_nil_r. congruence. }
  rewrite Z. lia.
Qed.
End Fuel.

(** ** Alternating trees *)
Lemma anc_up : forall b a, In a al -> (anc (tr s) a b <-> In b (c a)).
Proof.
  intros b a Ha. revert a Ha. apply (up_ind _ _ _ UT (fun a => anc (tr s) a b <-> In b (c a))).
  - intros a Ha E. rewrite (up_eq _ _ _ UT a Ha), E. split; [intros H; inversion H; subst; [now left|congruence]|intros [<-|[]]; constructor].
  - intros a q Ha E Hq IH. rewrite (up_eq _ _ _ UT a Ha), E. cbn [In]. rewrite <- IH. split.
    + intros H. inversion H; subst; [now left|]. right. congruence.
    + intros [<-|H]; [constructor|]. econstructor; eauto.
Qed.
Lemma root_loop_spec : forall a, In a al -> forall k, length (c a) < k -> root_loop s k a = Ok (P_Up.root c a).
Proof.
  apply (up_ind _ _ _ UT (fun a => forall k, length (c a) < k -> root_loop s k a = Ok (P_Up.root c a))).
  - intros a Ha E k Hk. destruct k as [|k]; [lia|]. cbn [root_loop]. rewrite E, (root_none _ _ _ UT a Ha E). reflexivity.
  - intros a q Ha E Hq IH k Hk. rewrite (up_eq _ _ _ UT a Ha), E in Hk. cbn [length] in Hk. destruct k as [|k]; [lia|]. cbn [root_loop]. rewrite E, (root_step _ _ _ UT a q Ha E). apply IH. lia.
Qed.
Lemma tree_equal_spec : forall a, In a al -> forall b k, In b al -> length al - length (c a) < k -> tree_equal_loop s k a b = Ok (a =? b).
Proof.
  apply (down_ind al _ _ UT (fun a => forall b k, In b al -> length al - length (c a) < k -> tree_equal_loop s k a b = Ok (a =? b))).
  intros a Ha IH b k Hb Hk. destruct k as [|k]; [lia|]. cbn [tree_equal_loop]. destruct (Nat.eqb_spec a b) as [<-|Hne].
  - rewrite !same_opt_refl, cedge_equal_refl, Nat.eqb_refl. cbn [negb orb]. apply children_equal_refl. intros x Hx. apply in_map_iff in Hx as ([x' e] & <- & Hx). cbn [fst] in *.
    destruct (ts_kid _ _ _ _ ST a x' e Ha Hx) as (Lx & Ex & _). rewrite (IH x' Lx Ex), Nat.eqb_refl; auto. pose proof (up_short al _ _ UT x' Lx). pose proof (child_length al _ _ UT a x' Lx Ex). lia.
  - destruct (ts_out _ _ _ _ ST a Ha) as [o Eo]. destruct (ts_out _ _ _ _ ST b Hb) as [o' Eo']. rewrite Eo, Eo'.
    destruct (b_out _ _ _ _ _ _ _ _ _ _ _ _ HR a o Ha Eo) as (_ & _ & _ & _ & X). destruct (b_out _ _ _ _ _ _ _ _ _ _ _ _ HR b o' Hb Eo') as (_ & _ & _ & _ & X').
    replace (same_opt (Some o) (Some o')) with false; [rewrite orb_true_r; reflexivity|]. symmetry. cbn. apply Nat.eqb_neq. intros <-. congruence.
Qed.

(** The list while it grows: the first k nodes have been looked at. *)
Record listing (a : nat) (l : list nat) (k : nat) : Prop := {
  l_first : In a l;
  l_nodup : NoDup l;
  l_below : forall x, In x l -> In x al /\ In a (c x);
  l_seen : forall i x y, nth_error l i = Some x -> i < k -> In y (map fst (kid (tr s) x)) -> In y l;
  l_from : forall y, In y l -> y <> a -> exists i x, i < k /\ nth_error l i = Some x /\ par (tr s) y = Some x }.
Lemma listing_step : forall a l k x, In a al -> listing a l k -> nth_error l k = Some x -> listing a (l ++ map fst (kid (tr s) x)) (S k).
Proof.
  intros a l k x Ha H E. destruct H. assert (Hx : In x l) by (eapply nth_error_In; eauto). destruct (l_below0 x Hx) as [Lx Ax]. assert (Hk : k < length l) by (apply nth_error_Some; congruence).
  assert (KD : forall y, In y (map fst (kid (tr s) x)) -> In y al /\ par (tr s) y = Some x).
  { intros y Hy. apply in_map_iff in Hy as ([y' e] & <- & Hy). destruct (ts_kid _ _ _ _ ST x y' e Lx Hy) as (K1 & K2 & _). auto. }
  split.
  - apply in_or_app. now left.
  - assert (Dj : forall y, In y l -> ~ In y (map fst (kid (tr s) x))).
    { intros y Hy Hy2. destruct (KD y Hy2) as [Ly Py]. destruct (Nat.eq_dec y a) as [->|Hne].
      - pose proof (up_strict _ _ _ UT a x a Ha Py Ax). lia.
      - destruct (l_from0 y Hy Hne) as (i & z & Hi & Ez & Pz). assert (z = x) by congruence. subst z.
        assert (i = k); [|lia]. apply (proj1 (NoDup_nth_error l) l_nodup0); [lia|congruence]. }
    assert (N2 := ts_kidnd _ _ _ _ ST x Lx). revert Dj N2 l_nodup0. generalize (map fst (kid (tr s) x)) as m. clear. intros m Dj N2 N1. induction l as [|y l IH]; [exact N2|]. cbn. inversion N1; subst. constructor.
    + intros Hy. apply in_app_or in Hy as [Hy|Hy]; [contradiction|]. apply (Dj y); [now left|assumption].
    + apply IH; auto. intros z Hz. apply Dj. now right.
  - intros y Hy. apply in_app_or in Hy as [Hy|Hy]; [auto|]. destruct (KD y Hy) as [Ly Py]. split; [assumption|]. rewrite (up_eq _ _ _ UT y Ly), Py. now right.
  - intros i z y Ez Hi Hy. apply in_or_app. rewrite nth_error_app1 in Ez by lia. destruct (Nat.eq_dec i k) as [->|Hne]; [right; congruence|]. left. apply (l_seen0 i z y); auto. lia.
  - intros y Hy Hne. apply in_app_or in Hy as [Hy|Hy].
    + destruct (l_from0 y Hy Hne) as (i & z & Hi & Ez & Pz). exists i, z. split; [lia|]. split; [|assumption]. now rewrite nth_error_app1 by lia.
    + destruct (KD y Hy) as [Ly Py]. exists k, x. split; [lia|]. split; [|assumption]. now rewrite nth_error_app1 by lia.
Qed.
Lemma all_loop_spec : forall a, In a al -> forall n l k, length al < n + k -> k <= length l -> listing a l k ->
  exists m, all_loop s n l k = Ok m /\ NoDup m /\ forall d, In d m <-> In d al /\ In a (c d).
Proof.
  intros a Ha. induction n as [|n IH]; intros l k Hn Hk H.
  - exfalso. assert (length l <= length al) by (apply NoDup_incl_length; [apply (l_nodup _ _ _ H)|intros x Hx; apply (l_below _ _ _ H x Hx)]). lia.
  - cbn [all_loop]. destruct (nth_error l k) as [x|] eqn:E.
    + apply IH; [lia| |now apply listing_step]. rewrite app_length. assert (k < length l) by (apply nth_error_Some; congruence). lia.
    + exists l. split; [reflexivity|]. split; [apply (l_nodup _ _ _ H)|]. intros d. split; [apply (l_below _ _ _ H)|]. intros [Hd Had]. revert d Hd Had. apply nth_error_None in E.
      apply (up_ind _ _ _ UT (fun d => In a (c d) -> In d l)).
      * intros d Hd Ed Had. rewrite (up_eq _ _ _ UT d Hd), Ed in Had. destruct Had as [->|[]]. apply (l_first _ _ _ H).
      * intros d q Hd Ed Hq IHd Had. rewrite (up_eq _ _ _ UT d Hd), Ed in Had. destruct Had as [->|Had]; [apply (l_first _ _ _ H)|].
        specialize (IHd Had). apply In_nth_error in IHd as [i Ei]. apply (l_seen _ _ _ H i q d Ei).
        -- assert (i < length l) by (apply nth_error_Some; congruence). lia.
        -- apply in_map_iff. exists (d, rev_e (ped (tr s) d)). split; [reflexivity|]. exact (proj1 (ts_par _ _ _ _ ST d q Hd Ed)).
Qed.
Lemma listing_start : forall a, In a al -> listing a [a] 0.
Proof.
  intros a Ha. split.
  - now left.
  - repeat constructor. intros [].
  - intros x [<-|[]]. split; [assumption|]. apply (up_self _ _ _ UT a Ha).
  - intros i x y _ Hi. lia.
  - intros y [<-|[]] Hne. congruence.
Qed.
End State.

(** ** In every state of the main loop *)
Section Reached.
Variables (G : graph) (I : neg_info) (s : state) (evs : list nat) (s' : state).
Hypothesis WF : wf_graph G.
Hypothesis HI : idle G s.
Hypothesis V1 : valid_events G evs.
Hypothesis V2 : valid_events G (neg_events I).
Hypothesis H : reached G exact_ints I s evs s'.

Lemma order_right : exists K, forall fuel a b, K <= fuel -> in_use (ra s') a -> in_use (ra s') b ->
  (exists x, region_le fuel s' a b = Ok x /\ (x = true <-> inside (rg s') a b)) /\
  (exists x, region_lt fuel s' a b = Ok x /\ (x = true <-> around (rg s') b a)) /\
  (exists x, region_gt fuel s' a b = Ok x /\ (x = true <-> around (rg s') a b)) /\
  (exists x, region_ge fuel s' a b = Ok x /\ (x = true <-> inside (rg s') b a)).
Proof.
  destruct (reached_Inv G I s evs s' WF HI V1 V2 H) as (ev & ls & ch & al & c & AO & HC). exists (S (length ls)). intros fuel a b HF Ha Hb. apply (arena_uses _ _ _ AO) in Ha, Hb.
  split; [|split; [|split]].
  - exists (memb b (ch a)). split; [now apply (region_le_ok G ev s' ls ch al c)|]. now rewrite memb_In, (inside_up G ev s' ls ch al c HC b a Ha).
  - exists (over ch a b). split; [now apply (region_gt_ok G ev s' ls ch al c HC fuel HF b a)|]. now apply (over_spec G ev s' ls ch al c).
  - exists (over ch b a). split; [now apply (region_gt_ok G ev s' ls ch al c HC fuel HF a b)|]. now apply (over_spec G ev s' ls ch al c).
  - exists (memb a (ch b)). split; [now apply (region_le_ok G ev s' ls ch al c HC fuel HF b a)|]. now rewrite memb_In, (inside_up G ev s' ls ch al c HC a b Hb).
Qed.
Lemma equality_right : exists K, forall fuel, K <= fuel ->
  (forall a b, in_use (ra s') a -> in_use (ra s') b -> region_equal fuel s' a b = Ok (a =? b)) /\
  (forall a b, in_use (ta s') a -> in_use (ta s') b -> tree_equal fuel s' a b = Ok (a =? b)).
Proof.
  destruct (reached_Inv G I s evs s' WF HI V1 V2 H) as (ev & ls & ch & al & c & AO & HC). exists (S (length ls + length al)). intros fuel HF. split; intros a b Ha Hb.
  - apply (arena_uses _ _ _ AO) in Ha, Hb. apply (region_equal_ok G ev s' ls ch al c HC fuel); auto. lia.
  - pose proof (b_arena _ _ _ _ _ _ _ _ _ _ _ _ (proj2 (proj2 HC))) as AT. apply (arena_uses _ _ _ AT) in Ha, Hb. apply (tree_equal_spec G ev s' ls ch al c HC a Ha b fuel Hb). lia.
Qed.
Lemma radius_right : exists K, forall fuel v time B, K <= fuel -> v < length G -> in_use (ra s') B ->
  match arr (nd s') v with
  | None => bounded_radius fuel s' v time B = Ok 0%Z
  | Some R =>
      (around (rg s') R B -> bounded_radius fuel s' v time B = Ok 0%Z) /\
      (~ around (rg s') R B -> forall l, NoDup l -> (forall C, In C l <-> inside (rg s') R C /\ ~ around (rg s') C B) ->
         bounded_radius fuel s' v time B = Ok (total_radius (rg s') time l - rar (nd s') v)%Z)
  end /\
  (top (nd s') v = Some B -> bounded_radius fuel s' v time B = Ok (get_distance_at_time (local_radius s' v) time)).
Proof.
  destruct (reached_Inv G I s evs s' WF HI V1 V2 H) as (ev & ls & ch & al & c & AO & HC). exists (S (length ls)). intros fuel v t B HF Hv HB. apply (arena_uses _ _ _ AO) in HB.
  pose proof (bounded_spec G ev s' ls ch al c HC fuel HF v t B HB Hv) as E. pose proof (proj1 (proj1 HC)) as HG. split.
  - destruct (arr (nd s') v) as [R|] eqn:Ea; [|exact E]. pose proof (g_arr _ _ _ _ _ _ _ HG v R Hv Ea) as HRl. pose proof (g_up _ _ _ _ _ _ _ HG) as U. split.
    + intros A. apply (over_spec G ev s' ls ch al c HC B R HB) in A. now rewrite A in E.
    + intros A l Nl Hl. destruct (over ch B R) eqn:O; [apply (over_spec G ev s' ls ch al c HC B R HB) in O; contradiction|]. rewrite E. f_equal. f_equal. apply total_perm.
      * apply NoDup_filter, (up_NoDup _ _ _ U R HRl).
      * exact Nl.
      * intros x. rewrite Hl. unfold kept. rewrite filter_In, negb_true_iff, (inside_up G ev s' ls ch al c HC x R HRl), <- (over_spec G ev s' ls ch al c HC B x HB).
        split; intros [X1 X2]; split; auto; [congruence|]. destruct (over ch B x); [exfalso; now apply X2|reflexivity].
  - intros ET. destruct (arr (nd s') v) as [R|] eqn:Ea.
    + rewrite (g_top _ _ _ _ _ _ _ HG v R Hv Ea) in ET. injection ET as <-. now apply (bounded_top G ev s' ls ch al c HC fuel HF).
    + destruct (g_emp _ _ _ _ _ _ _ HG v Hv Ea) as [X _]. congruence.
Qed.
Lemma trees_right : exists K, forall fuel a, K <= fuel -> in_use (ta s') a ->
  (exists r, find_root fuel s' a = Ok r /\ in_use (ta s') r /\ anc (tr s') a r /\ par (tr s') r = None) /\
  (exists l, all_nodes_in_tree fuel s' a = Ok l /\ NoDup l /\ forall d, In d l <-> in_use (ta s') d /\ anc (tr s') d a).
Proof.
  destruct (reached_Inv G I s evs s' WF HI V1 V2 H) as (ev & ls & ch & al & c & AO & HC). pose proof (b_arena _ _ _ _ _ _ _ _ _ _ _ _ (proj2 (proj2 HC))) as AT.
  pose proof (ts_up _ _ _ _ (b_str _ _ _ _ _ _ _ _ _ _ _ _ (proj2 (proj2 HC)))) as UT. exists (S (length al)). intros fuel a HF Ha. apply (arena_uses _ _ _ AT) in Ha. split.
  - exists (P_Up.root c a). destruct (root_spec _ _ c UT a Ha) as (R1 & R2 & R3). split; [|split; [now apply (arena_uses _ _ _ AT)|split; [now apply (anc_up G ev s' ls ch al c HC)|assumption]]].
    apply (root_loop_spec G ev s' ls ch al c HC a Ha). pose proof (up_short al _ _ UT a Ha). lia.
  - destruct (all_loop_spec G ev s' ls ch al c HC a Ha fuel [a] 0) as (l & L1 & L2 & L3); [lia|lia|now apply (listing_start G ev s' ls ch al c)|].
    exists l. split; [exact L1|]. split; [exact L2|]. intros d. rewrite L3, <- (arena_uses _ _ d AT). split; intros [X1 X2]; (split; [exact X1|]); now apply (anc_up G ev s' ls ch al c HC a d X1).
Qed.
End Reached.
