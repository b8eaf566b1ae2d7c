(** Invariants of the decoder's core, part 15: a tree that hits itself forms a blossom. *)
From Coq Require Import ZArith NArith List Bool Arith Lia Permutation.
From Verif Require Import M_Base M_Varying M_Tracker M_Core S_Core S_Tree P_Sum P_Up P_Tree P_Tree2 P_Cycle P_CoreGeo P_CoreSched P_CoreArea P_CoreRad P_CoreQueue P_CoreFlood P_CoreStep P_CoreRoles P_CoreShat P_CoreHit P_CoreHit2 P_CoreWrap P_CoreTops P_CoreBlossom.
Import ListNotations.
Local Open Scope nat_scope.

Definition nf (pl : list nat) (l : list nat) : list nat := filter (fun z => negb (memb z pl)) l.
Lemma nf_In : forall pl l z, In z (nf pl l) <-> In z l /\ ~ In z pl.
Proof. intros. unfold nf. rewrite filter_In, negb_true_iff, memb_nIn. reflexivity. Qed.
Lemma nf_id : forall pl l, (forall z, In z l -> ~ In z pl) -> nf pl l = l.
Proof.
  intros pl l H. induction l as [|z l IH]; [reflexivity|]. cbn. rewrite (proj2 (memb_nIn z pl)) by (apply H; now left). cbn. f_equal. apply IH. intros; apply H; now right.
Qed.
Lemma nf_nil : forall pl l, (forall z, In z l -> In z pl) -> nf pl l = [].
Proof.
  intros pl l H. induction l as [|z l IH]; [reflexivity|]. cbn. rewrite (proj2 (memb_In z pl)) by (apply H; now left). cbn. apply IH. intros; apply H; now right.
Qed.
Lemma nf_app : forall pl l m, nf pl (l ++ m) = nf pl l ++ nf pl m.
Proof. intros. apply filter_app. Qed.

(** ** The tree with the nodes [pl] merged into [x] *)
Lemma tstr_collapse : forall (al pl : list nat) T T' c (tg tg' : nat -> nat -> cedge -> Prop) x b,
  tstr (fun y => In y al) T c tg -> In x al -> ~ In x pl -> (forall q, In q pl -> In q al) ->
  (forall q, In q pl -> nf pl (c q) = c x) -> (forall q, In q (c x) -> ~ In q pl) ->
  (forall y, In y al -> ~ In y pl -> par T' y = (if match par T y with Some q => memb q pl | None => false end then Some x else par T y) /\ ped T' y = ped T y /\
     inn T' y = inn T y /\ i2o T' y = i2o T y /\ out T' y = (if y =? x then Some b else out T y) /\ (y <> x -> kid T' y = kid T y)) ->
  (forall y e, In (y, e) (kid T' x) <-> ~ In y pl /\ exists q, (q = x \/ In q pl) /\ In (y, e) (kid T q)) -> NoDup (map fst (kid T' x)) ->
  (forall y i q o e, In y al -> ~ In y pl -> inn T y = Some i -> In q al -> ~ In q pl -> q <> x -> out T q = Some o -> tg i o e -> tg' i o e) ->
  (forall y i q o e, In y al -> ~ In y pl -> inn T y = Some i -> q = x \/ In q pl -> out T q = Some o -> tg i o e -> tg' i b e) ->
  tstr (fun y => In y al /\ ~ In y pl) T' (fun y => nf pl (c y)) tg'.
Proof.
  intros al pl T T' c tg tg' x b H Hx Nx Hpl Hnf Hcx HT' Hkx Hkn W1 W2. pose proof (ts_up _ _ _ _ H) as U.
  assert (Ex : nf pl (c x) = c x) by (apply nf_id; auto).
  assert (W : forall y i q o e, In y al -> ~ In y pl -> inn T y = Some i -> In q al -> ~ In q pl -> out T q = Some o -> tg i o e -> exists o', out T' q = Some o' /\ tg' i o' e).
  { intros y i q o e Hy Ny Ei Hq Nq Eo Ht. destruct (HT' q Hq Nq) as (_ & _ & _ & _ & -> & _). destruct (Nat.eqb_spec q x) as [->|Hne]; [exists b|exists o]; split; eauto. }
  split.
  - intros y [Hy Ny]. destruct (HT' y Hy Ny) as (Ep & _). rewrite Ep. pose proof (up_eq _ _ c U y Hy) as Ey. split.
    + rewrite Ey. cbn [nf filter]. rewrite (proj2 (memb_nIn y pl) Ny). cbn [negb]. f_equal. destruct (par T y) as [q|] eqn:Eq; [|reflexivity].
      fold (nf pl (c q)). destruct (memb q pl) eqn:M; [|reflexivity]. rewrite Hnf, Ex; [reflexivity|]. now apply memb_In.
    + intros q. destruct (par T y) as [q0|] eqn:Eq; [|discriminate]. destruct (memb q0 pl) eqn:M; intros E; injection E as <-; [now split|].
      split; [exact (proj2 (U y Hy) q0 Eq)|now apply memb_nIn].
  - intros y q [Hy Ny] Eq. destruct (HT' y Hy Ny) as (Ep & Ed & Ei & Ee & _). rewrite Ep in Eq. rewrite Ed, Ei, Ee. destruct (par T y) as [q0|] eqn:Eq0; [|discriminate].
    destruct (ts_par _ _ _ _ H y q0 Hy Eq0) as (K1 & i & o & oq & I1 & I2 & I3 & T1 & T2). assert (Hq0 : In q0 al) by exact (proj2 (U y Hy) q0 Eq0).
    destruct (W y i y o (i2o T y) Hy Ny I1 Hy Ny I2 T1) as (o' & O1 & O2).
    destruct (memb q0 pl) eqn:M; injection Eq as <-.
    + apply memb_In in M. split; [apply Hkx; split; [assumption|]; exists q0; auto|]. exists i, o', b. destruct (HT' x Hx Nx) as (_ & _ & _ & _ & -> & _). rewrite Nat.eqb_refl. repeat split; auto. exact (W2 y i q0 oq _ Hy Ny I1 (or_intror M) I3 T2).
    + apply memb_nIn in M. destruct (W y i q0 oq (ped T y) Hy Ny I1 Hq0 M I3 T2) as (oq' & O3 & O4). split; [|now exists i, o', oq'].
      destruct (Nat.eq_dec q0 x) as [->|Hne]; [apply Hkx; split; [assumption|]; exists x; auto|]. destruct (HT' q0 Hq0 M) as (_ & _ & _ & _ & _ & ->); assumption.
  - intros y [Hy Ny] E. destruct (HT' y Hy Ny) as (Ep & _ & -> & _). rewrite Ep in E. destruct (par T y) as [q|] eqn:Eq; [destruct (memb q pl); discriminate|]. eapply ts_root; eauto.
  - intros y [Hy Ny]. destruct (HT' y Hy Ny) as (_ & _ & _ & _ & -> & _). destruct (y =? x); [eauto|]. apply (ts_out _ _ _ _ H y Hy).
  - intros a y e [Ha Na] Hin. destruct (Nat.eq_dec a x) as [->|Hne].
    + apply Hkx in Hin as (Ny & q & Hq & Hin). assert (Aq : In q al) by (destruct Hq as [-> |Hq]; auto). destruct (ts_kid _ _ _ _ H q y e Aq Hin) as (K1 & K2 & K3).
      destruct (HT' y K1 Ny) as (-> & -> & _). rewrite K2. split; [now split|]. split; [|assumption]. destruct Hq as [-> |Hq]; [|now rewrite (proj2 (memb_In q pl) Hq)].
      now rewrite (proj2 (memb_nIn x pl) Nx).
    + destruct (HT' a Ha Na) as (_ & _ & _ & _ & _ & E). rewrite (E Hne) in Hin. destruct (ts_kid _ _ _ _ H a y e Ha Hin) as (K1 & K2 & K3).
      assert (Ny : ~ In y pl).
      { intros Hy. pose proof (Hnf y Hy) as E1. rewrite (up_eq _ _ c U y K1), K2 in E1. cbn [nf filter] in E1. rewrite (proj2 (memb_In y pl) Hy) in E1. cbn [negb] in E1.
        assert (Hax : nf pl (c a) = c x) by exact E1. rewrite (up_eq _ _ c U a Ha) in Hax. cbn [nf filter] in Hax. rewrite (proj2 (memb_nIn a pl) Na) in Hax. cbn [negb] in Hax.
        rewrite (up_eq _ _ c U x Hx) in Hax. injection Hax as Hax _. contradiction. }
      destruct (HT' y K1 Ny) as (-> & -> & _). rewrite K2, (proj2 (memb_nIn a pl) Na). repeat split; auto.
  - intros a [Ha Na]. destruct (Nat.eq_dec a x) as [->|Hne]; [assumption|]. destruct (HT' a Ha Na) as (_ & _ & _ & _ & _ & ->); [|assumption]. apply (ts_kidnd _ _ _ _ H a Ha).
  - intros y y' i [Hy Ny] [Hy' Ny']. destruct (HT' y Hy Ny) as (_ & _ & -> & _). destruct (HT' y' Hy' Ny') as (_ & _ & -> & _). apply (ts_inj _ _ _ _ H); auto.
Qed.

(** ** Adopting a list of children *)
Lemma adopt_spec : forall ol s x, NoDup (map fst ol) -> let s' := fold_left (fun s z => add_child s x (fst z) (snd z)) ol s in
  s' = set_tr s (tr s') /\ inn (tr s') = inn (tr s) /\ out (tr s') = out (tr s) /\ i2o (tr s') = i2o (tr s) /\ vis (tr s') = vis (tr s) /\
  (forall y, par (tr s') y = if memb y (map fst ol) then Some x else par (tr s) y) /\
  (forall y e, In (y, e) ol -> ped (tr s') y = rev_e e) /\ (forall y, ~ In y (map fst ol) -> ped (tr s') y = ped (tr s) y) /\
  (forall y, kid (tr s') y = if y =? x then kid (tr s) x ++ ol else kid (tr s) y).
Proof.
  induction ol as [|[z e] ol IH]; intros s x N s'.
  - subst s'. cbn. destruct s. repeat split; auto; try (intros ? ? []). intros y. destruct (Nat.eqb_spec y x) as [->|]; [now rewrite app_nil_r|reflexivity].
  - cbn [map fst] in N. inversion N as [|? ? N1 N2]; subst. destruct (IH (add_child s x z e) x N2) as (E0 & E1 & E2 & E3 & E4 & E5 & E6 & E7 & E8).
    change (fold_left _ ol (add_child s x z e)) with s' in *. split; [rewrite E0; reflexivity|]. unfold add_child in *. cbn [tr set_tr set_parent set_kid inn out i2o vis par ped kid] in *.
    repeat (split; [assumption|]). split; [|split; [|split]].
    + intros y. rewrite E5. cbn [map fst memb existsb]. unfold upd. destruct (Nat.eqb_spec y z) as [->|]; cbn; [|reflexivity]. fold (memb z (map fst ol)). now destruct (memb z (map fst ol)).
    + intros y e' [E|Hin]; [|eauto]. injection E as <- <-. rewrite E7 by assumption. apply upd_same.
    + intros y Hn. cbn in Hn. rewrite E7 by tauto. apply upd_other. intros ->. apply Hn. now left.
    + intros y. rewrite E8. unfold upd. rewrite Nat.eqb_refl. destruct (y =? x); [|reflexivity]. now rewrite <- app_assoc.
Qed.

(** ** Chains of connected regions *)
Definition headr (l : list (nat * cedge)) (z : nat) : nat := match l with [] => z | (R, _) :: _ => R end.
Fixpoint linked (tg : nat -> nat -> cedge -> Prop) (l : list (nat * cedge)) (z : nat) : Prop :=
  match l with [] => True | (R, e) :: l' => tg R (headr l' z) e /\ linked tg l' z end.
Lemma headr_app : forall l m z, headr (l ++ m) z = headr l (headr m z).
Proof. intros [|[R e] l] m z; reflexivity. Qed.
Lemma linked_app : forall tg l m z, linked tg (l ++ m) z <-> linked tg l (headr m z) /\ linked tg m z.
Proof.
  intros tg l m z. induction l as [|[R e] l IH]; cbn [app linked]; [tauto|]. rewrite headr_app, IH. tauto.
Qed.
Lemma linked_nth : forall tg l z i d, linked tg l z -> i < length l -> tg (fst (nth i l d)) (if S i =? length l then z else fst (nth (S i) l d)) (snd (nth i l d)).
Proof.
  intros tg l z. induction l as [|[R e] l IH]; intros i d H Hi; cbn [length] in *; [lia|]. destruct H as [H1 H2]. destruct i as [|i]; cbn [nth fst snd].
  - destruct l as [|[R' e'] l]; exact H1.
  - assert (Hi' : i < length l) by lia. specialize (IH i d H2 Hi'). cbn [Nat.eqb]. exact IH.
Qed.
Lemma cycle_next : forall (l : list (nat * cedge)) q, NoDup (map fst l) -> (2 <= length l)%nat -> In q (map fst l) ->
  exists i, (i < length l)%nat /\ region_at l i = q /\ region_at l (S i) <> q.
Proof.
  intros l q N L H. destruct (In_nth _ _ (fst dflt) H) as (i & Hi & E). rewrite map_length in Hi. rewrite map_nth in E. exists i. unfold region_at. rewrite (Nat.mod_small i) by assumption.
  split; [assumption|]. split; [assumption|]. intros E'. assert (Hm : (S i mod length l < length l)%nat) by (apply Nat.mod_upper_bound; lia).
  assert (K : S i mod length l = i).
  { apply (proj1 (NoDup_nth (map fst l) (fst dflt)) N); [rewrite map_length; lia|rewrite map_length; lia|]. rewrite !map_nth. congruence. }
  destruct (Nat.eq_dec (S i) (length l)) as [e|n]; [rewrite e, Nat.mod_same in K by lia; lia|rewrite Nat.mod_small in K by lia; lia].
Qed.
Lemma linked_cycle : forall tg l z, linked tg l (headr l z) -> forall i, i < length l -> tg (region_at l i) (region_at l (S i)) (edge_at l i).
Proof.
  intros tg l z H i Hi. unfold region_at, edge_at. rewrite (Nat.mod_small i) by assumption. pose proof (linked_nth tg l _ i dflt H Hi) as K.
  destruct (Nat.eqb_spec (S i) (length l)) as [E|E].
  - rewrite E, Nat.mod_same by lia. destruct l as [|[R e] l]; [cbn in Hi; lia|]. exact K.
  - rewrite (Nat.mod_small (S i)) by lia. exact K.
Qed.

Section Path.
Variables (A : nat -> Prop) (T : treesM) (c : nat -> list nat) (tg : nat -> nat -> cedge -> Prop).
Hypothesis H : tstr A T c tg.
Hypothesis Htg : forall R Q e, tg R Q e -> tg Q R (rev_e e).
Notation oo y := (get (out T y)).
Notation ii y := (get (inn T y)).

Lemma path_fwd : forall la a x, A a -> upath (par T) a la x -> linked tg (flat_map (pseg T false) la) (oo x) /\ headr (flat_map (pseg T false) la) (oo x) = oo a.
Proof.
  induction la as [|b la IH]; intros a x Ha Hu; cbn [upath] in Hu.
  - subst. cbn. auto.
  - destruct Hu as (-> & _ & q & Eq & Hu). assert (Aq : A q) by exact (proj2 (ts_up _ _ _ _ H a Ha) q Eq).
    destruct (IH q x Aq Hu) as [I1 I2]. destruct (ts_par _ _ _ _ H a q Ha Eq) as (_ & i & o & oq & E1 & E2 & E3 & T1 & T2).
    cbn [flat_map pseg app linked headr]. rewrite I2, E1, E2, E3. cbn [get]. repeat split; auto.
Qed.
Lemma path_back : forall la a x, A a -> upath (par T) a la x -> linked tg (rev (flat_map (pseg T true) la)) (oo a) /\ headr (rev (flat_map (pseg T true) la)) (oo a) = oo x.
Proof.
  induction la as [|b la IH]; intros a x Ha Hu; cbn [upath] in Hu.
  - subst. cbn. auto.
  - destruct Hu as (-> & _ & q & Eq & Hu). assert (Aq : A q) by exact (proj2 (ts_up _ _ _ _ H a Ha) q Eq).
    destruct (IH q x Aq Hu) as [I1 I2]. destruct (ts_par _ _ _ _ H a q Ha Eq) as (_ & i & o & oq & E1 & E2 & E3 & T1 & T2).
    cbn [flat_map pseg]. rewrite rev_app_distr. cbn [rev app]. rewrite linked_app, headr_app. cbn [headr linked]. rewrite Eq. cbn [get].
    split; [|assumption]. split; [assumption|]. rewrite E1, E2, E3. cbn [get]. repeat split; auto.
Qed.

Definition pairf (y : nat) : list nat := [oo y; ii y].
Lemma regs_fwd : forall la, map fst (flat_map (pseg T false) la) = flat_map pairf la.
Proof. induction la as [|b la IH]; [reflexivity|]. cbn [flat_map pseg map app fst]. rewrite IH. reflexivity. Qed.
Lemma regs_back : forall la a x, upath (par T) a la x -> Permutation (map fst (flat_map (pseg T true) la) ++ [oo a]) (flat_map pairf la ++ [oo x]).
Proof.
  induction la as [|b la IH]; intros a x Hu; cbn [upath] in Hu.
  - subst. apply Permutation_refl.
  - destruct Hu as (-> & _ & q & Eq & Hu). specialize (IH q x Hu). cbn [flat_map pseg map app fst pairf]. rewrite Eq. cbn [get].
    transitivity (oo a :: ii a :: (map fst (flat_map (pseg T true) la) ++ [oo q])).
    + transitivity (oo a :: ii a :: oo q :: map fst (flat_map (pseg T true) la)).
      * change (ii a :: oo q :: map fst (flat_map (pseg T true) la) ++ [oo a]) with ((ii a :: oo q :: map fst (flat_map (pseg T true) la)) ++ [oo a]). symmetry. apply Permutation_cons_append.
      * do 2 constructor. apply Permutation_cons_append.
    + do 2 constructor. exact IH.
Qed.
End Path.

Lemma NoDup_pairs : forall (f g : nat -> nat) l, NoDup l -> (forall y y', In y l -> In y' l -> f y = f y' -> y = y') -> (forall y y', In y l -> In y' l -> g y = g y' -> y = y') ->
  (forall y y', In y l -> In y' l -> f y <> g y') -> NoDup (flat_map (fun y => [f y; g y]) l).
Proof.
  intros f g l N. induction N as [|a l Na N IH]; intros Hf Hg Hfg; cbn [flat_map app]; [constructor|].
  assert (J : forall z, In z (flat_map (fun y => [f y; g y]) l) -> exists y, In y l /\ (z = f y \/ z = g y)).
  { intros z Hz. apply in_flat_map in Hz as (y & H1 & [<-|[<-|[]]]); eauto. }
  constructor; [|constructor].
  - intros [E|Hin]; [apply (Hfg a a); auto; now left|]. apply J in Hin as (y & Hy & [E|E]); [|apply (Hfg a y); [now left|now right|assumption]].
    apply Na. rewrite (Hf a y); auto; [now left|now right].
  - intros Hin. apply J in Hin as (y & Hy & [E|E]); [apply (Hfg y a); [now right|now left|auto]|]. apply Na. rewrite (Hg a y); auto; [now left|now right].
  - apply IH; intros; [apply Hf|apply Hg|apply Hfg]; auto; now right.
Qed.

Lemma orphs_NoDup : forall A T c tg, tstr A T c tg -> forall la prev, (forall b, In b la -> A b) -> NoDup la -> NoDup (map fst (orphs (kid T) prev la)).
Proof.
  intros A T c tg H. induction la as [|b la IH]; intros prev HA N; [constructor|]. inversion N as [|? ? N1 N2]; subst. cbn [orphs]. rewrite map_app.
  assert (K : forall z, In z (map fst match prev with None => kid T b | Some q => unstable_erase q (kid T b) end) -> par T z = Some b).
  { intros z Hz. apply in_map_iff in Hz as ((y & e) & E & Hin). cbn in E. subst y. assert (Hin' : In (z, e) (kid T b)).
    { destruct prev; [|assumption]. apply unstable_erase_In in Hin as [Hin _]; [assumption|]. apply (ts_kidnd _ _ _ _ H b). apply HA. now left. }
    apply (ts_kid _ _ _ _ H b z e); [apply HA; now left|assumption]. }
  apply NoDup_join.
  - assert (Nk : NoDup (map fst (kid T b))) by (apply (ts_kidnd _ _ _ _ H b); apply HA; now left). destruct prev; [now apply unstable_erase_NoDup|assumption].
  - apply IH; auto. intros y Hy. apply HA. now right.
  - intros z Hz Hz'. apply K in Hz. apply in_map_iff in Hz' as ((y & e) & E & Hin). cbn in E. subst y.
    apply orphs_In in Hin as (l1 & b' & l2 & E & Hin & _); [|intros y Hy; apply (ts_kidnd _ _ _ _ H y); apply HA; now right].
    assert (Hb' : In b' la) by (rewrite E; apply in_or_app; right; now left).
    destruct (ts_kid _ _ _ _ H b' z e) as (_ & E' & _); [apply HA; now right|assumption|]. assert (b' = b) by congruence. subst. contradiction.
Qed.

(** The orphans of a path are the children of its nodes that are not on it. *)
Lemma orphs_path : forall A T c tg, tstr A T c tg -> forall la a x, A a -> A x -> c a = la ++ c x -> forall y e,
  In (y, e) (orphs (kid T) None la) <-> ~ In y la /\ exists q, In q la /\ In (y, e) (kid T q).
Proof.
  intros A T c tg H la a x Ha Hx E y e. pose proof (ts_up _ _ _ _ H) as U.
  assert (HA : forall b, In b la -> A b) by (intros b Hb; eapply (up_all_L _ _ c U a Ha); rewrite E; apply in_or_app; now left).
  assert (Nd : NoDup (c a)) by (apply (up_NoDup _ _ c U a Ha)).
  assert (Suf : forall l1 b l2, la = l1 ++ b :: l2 -> c b = b :: l2 ++ c x).
  { intros l1 b l2 El. assert (Hb : In b (c a)) by (rewrite E, El; apply in_or_app; left; apply in_or_app; right; now left).
    destruct (up_suffix _ _ c U a Ha b Hb) as [l E']. rewrite E, El in E'. rewrite <- app_assoc in E'. cbn [app] in E'.
    assert (l = l1).
    { assert (HAb : A b) by (eapply (up_all_L _ _ c U a Ha); eauto). pose proof (up_eq _ _ c U b HAb) as Eb. rewrite Eb in E'.
      revert E'. generalize (match par T b with Some q => c q | None => [] end). intros r Er.
      assert (N : NoDup (l1 ++ b :: l2 ++ c x)). { rewrite E, El, <- app_assoc in Nd. exact Nd. }
      clear -N Er. revert l Er. induction l1 as [|z l1 IH]; intros l Er; destruct l as [|z' l]; cbn in *; auto.
      - injection Er as E1 E2. inversion N; subst. exfalso. apply H1. rewrite E2. apply in_or_app. right. now left.
      - injection Er as E1 E2. inversion N; subst. exfalso. apply H1. apply in_or_app. right. now left.
      - injection Er as E1 E2. inversion N; subst. f_equal. apply IH; auto. }
    subst l. apply app_inv_head in E'. symmetry. exact E'. }
  rewrite orphs_In by (intros b Hb; apply (ts_kidnd _ _ _ _ H b); auto). split.
  - intros (l1 & b & l2 & El & Hin & Hp). assert (Hb : In b la) by (rewrite El; apply in_or_app; right; now left). split; [|eauto].
    destruct (ts_kid _ _ _ _ H b y e (HA b Hb) Hin) as (K1 & K2 & _). intros Hy. apply in_split in Hy as (m1 & m2 & Em).
    pose proof (Suf _ _ _ Em) as E1. rewrite (up_eq _ _ c U y K1), K2 in E1. injection E1 as E1. rewrite (Suf _ _ _ El) in E1.
    destruct m2 as [|z m2]; [|cbn in E1; injection E1 as -> E1].
    + cbn in E1. assert (Hbx : In b (c x)) by (rewrite <- E1; now left). rewrite E in Nd. clear -Nd Hb Hbx. induction la as [|z la IH]; [destruct Hb|]. inversion Nd; subst.
      destruct Hb as [->|Hb]; [apply H1; apply in_or_app; now right|auto].
    + assert (El1 : l1 = m1 ++ [y]).
      { rewrite El in Em. assert (N : NoDup (l1 ++ z :: l2)). { rewrite E, El in Nd. clear -Nd. induction (l1 ++ z :: l2) as [|w l IH]; [constructor|]. inversion Nd; subst. constructor; auto. intros Hw. apply H1. apply in_or_app. now left. }
        change (m1 ++ y :: z :: m2) with (m1 ++ [y] ++ z :: m2) in Em. rewrite app_assoc in Em. revert Em N. generalize (m1 ++ [y]). clear. intros m. revert m. induction l1 as [|w l1 IH]; intros [|w' m] Em N; cbn in *; auto.
        - injection Em as -> Em. inversion N; subst. exfalso. apply H1. apply in_or_app. right. now left.
        - injection Em as -> Em. inversion N; subst. exfalso. apply H1. apply in_or_app. right. now left.
        - injection Em as -> Em. f_equal. inversion N; subst. apply IH; auto. }
      rewrite El1, rev_unit in Hp. cbn in Hp. congruence.
  - intros (Ny & q & Hq & Hin). apply in_split in Hq as (l1 & l2 & El). exists l1, q, l2. split; [assumption|]. split; [assumption|].
    destruct (rev l1) as [|z r] eqn:Er; [trivial|]. cbn. intros ->. apply Ny. rewrite El. apply in_or_app. left. apply in_rev. rewrite Er. now left.
Qed.
