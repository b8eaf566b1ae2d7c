(** Alternating trees, continued: common ancestors and pruning. *)
From Coq Require Import ZArith NArith List Arith Lia Bool Permutation.
From Verif Require Import M_Base M_Varying M_Tracker M_Core P_Up P_Tree.
Import ListNotations.
Local Open Scope outcome_scope.
Local Open Scope nat_scope.

(** ** most_recent_common_ancestor (C22) *)
Definition same_but_vis (t t' : treesM) : Prop :=
  inn t' = inn t /\ out t' = out t /\ i2o t' = i2o t /\ par t' = par t /\ ped t' = ped t /\ kid t' = kid t.
Lemma sbv_refl : forall t, same_but_vis t t. Proof. repeat split. Qed.
Lemma sbv_trans : forall t t' t'', same_but_vis t t' -> same_but_vis t' t'' -> same_but_vis t t''.
Proof. intros t t' t'' (?&?&?&?&?&?) (?&?&?&?&?&?). repeat split; congruence. Qed.
Lemma sbv_set : forall t a x, same_but_vis t (set_vis t a x). Proof. repeat split. Qed.
Lemma sbv_par : forall t t', same_but_vis t t' -> par t' = par t. Proof. intros t t' (?&?&?&?&?&?). assumption. Qed.

Section Mrca.
Variable A : nat -> Prop.
Variable p : nat -> option nat.
Variable c : nat -> list nat.
Hypothesis U : up_ok A p c.

Definition disj (l m : list nat) : Prop := forall x, In x l -> In x m -> False.

(** [x] is the lowest common ancestor of [a] and [b]. *)
Definition lca (a b x : nat) (la lb : list nat) : Prop :=
  A x /\ c a = la ++ c x /\ c b = lb ++ c x /\ disj la lb.

Lemma in_snoc : forall (x a : nat) l, In x (l ++ [a]) <-> In x l \/ x = a.
Proof. intros. rewrite in_app_iff. simpl. intuition. Qed.

(** State of the climb. *)
Record climb (t : treesM) (a b : nat) (la : list nat) (a' : nat) (lb : list nat) (b' : nat) : Prop := {
  cl_a : c a = la ++ c a'; cl_b : c b = lb ++ c b'; cl_Aa : A a'; cl_Ab : A b';
  cl_disj : disj (la ++ [a']) (lb ++ [b']);
  cl_vis : forall y, A y -> (vis t y = true <-> In y (la ++ [a']) \/ In y (lb ++ [b'])) }.

(** What the climb returns. *)
Definition found (t : treesM) (a b x : nat) : Prop :=
  exists la lb m n, lca a b x la lb /\ c x = (x :: m) ++ n /\
    (forall y, A y -> (vis t y = true <-> In y la \/ In y lb \/ In y (x :: m))).

Lemma climb_step : forall a l a' q, A a -> A a' -> c a = l ++ c a' -> p a' = Some q ->
  c a = (l ++ [a']) ++ c q /\ A q /\ ~ In q (l ++ [a']).
Proof.
  intros a l a' q HAa HA E Eq. rewrite (up_eq A p c U a' HA), Eq in E.
  assert (E' : c a = (l ++ [a']) ++ c q) by (rewrite <- app_assoc; exact E).
  repeat split; auto. { eapply up_L; eauto. }
  intros Hin. pose proof (up_NoDup A p c U a HAa) as Hnd. rewrite E' in Hnd.
  assert (HAq : A q) by (eapply up_L; eauto).
  pose proof (up_self A p c U q HAq) as Hs.
  clear - Hnd Hin Hs. induction (l ++ [a']) as [|z w IH]; [destruct Hin|].
  simpl in Hnd. inversion Hnd; subst. destruct Hin as [->|Hin]; [apply H1; apply in_or_app; now right|auto].
Qed.

(** Meeting the other path. *)
Lemma meet : forall a b la lb b' q, A a -> A b -> A q -> c a = la ++ c q -> c b = lb ++ c b' -> A b' -> disj la (lb ++ [b']) ->
  In q (lb ++ [b']) ->
  exists lb1 m n, lca a b q la lb1 /\ c q = (q :: m) ++ n /\ (forall y, In y (lb ++ [b']) <-> In y lb1 \/ In y (q :: m)).
Proof.
  intros a b la lb b' q HA1 HA2 HAq Ea Eb HAb Hd Hin.
  apply in_split in Hin as [lb1 [m Hm]].
  assert (Ebq : c b = lb1 ++ q :: m ++ match p b' with Some r => c r | None => [] end).
  { rewrite Eb, (up_eq A p c U b' HAb).
    replace (lb ++ b' :: match p b' with Some r => c r | None => [] end) with ((lb ++ [b']) ++ match p b' with Some r => c r | None => [] end)
      by (rewrite <- app_assoc; reflexivity).
    rewrite Hm, <- app_assoc. reflexivity. }
  assert (Hq : In q (c b)) by (rewrite Ebq; apply in_or_app; right; now left).
  destruct (up_suffix A p c U b HA2 q Hq) as [l2 E2].
  assert (l2 = lb1).
  { pose proof (up_NoDup A p c U b HA2) as Hnd. rewrite E2, (up_eq A p c U q HAq) in Ebq.
    rewrite E2, (up_eq A p c U q HAq) in Hnd. clear - Ebq Hnd.
    revert lb1 Ebq. induction l2 as [|z l2 IH]; intros [|w lb1] E; simpl in *; auto.
    - injection E as E1 E2. inversion Hnd; subst. exfalso. apply H1. rewrite E2. apply in_or_app. right. now left.
    - injection E as E1 E2. inversion Hnd; subst. exfalso. apply H1. apply in_or_app. right. now left.
    - injection E as E1 E2. inversion Hnd; subst. f_equal. now apply IH. }
  subst l2. exists lb1, m, (match p b' with Some r => c r | None => [] end). split; [|split].
  - repeat split; auto. intros x Hx1 Hx2. apply (Hd x Hx1). rewrite Hm. apply in_or_app. now left.
  - rewrite E2 in Ebq. apply app_inv_head in Ebq. exact Ebq.
  - intros y. rewrite Hm, in_app_iff. reflexivity.
Qed.

Lemma mrca_climb_spec : forall k t a b la a' lb b', A a -> A b -> par t = p -> climb t a b la a' lb b' ->
  safe (mrca_climb k t a' b') (fun r => same_but_vis t (fst r) /\
    match snd r with
    | Some x => found (fst r) a b x
    | None => root c a <> root c b /\ (forall y, A y -> (vis (fst r) y = true <-> In y (c a) \/ In y (c b)))
    end).
Proof.
  induction k; intros t a b la a' lb b' HAa HAb Hpar CL; [exact I|].
  destruct CL as [Ea Eb HAa' HAb' Hd Hv]. cbn [mrca_climb]. rewrite Hpar.
  (* the second half of the loop body *)
  assert (Step2 : forall t1 la1 a1, same_but_vis t t1 -> climb t1 a b la1 a1 lb b' ->
    safe (match p b' with
          | None => mrca_climb k t1 a1 b'
          | Some b1 => if vis t1 b1 then Ok (t1, Some b1) else mrca_climb k (set_vis t1 b1 true) a1 b1
          end) (fun r => same_but_vis t (fst r) /\
    match snd r with Some x => found (fst r) a b x | None => root c a <> root c b /\ (forall y, A y -> (vis (fst r) y = true <-> In y (c a) \/ In y (c b))) end)).
  { intros t1 la1 a1 Hs CL. destruct CL as [Ea1 Eb1 HAa1 HAb1 Hd1 Hv1].
    destruct (p b') as [b1|] eqn:Ep.
    - destruct (climb_step b lb b' b1 HAb HAb' Eb Ep) as (Eb2 & HAb2 & Hn2).
      destruct (vis t1 b1) eqn:Ev.
      + cbn [safe fst snd]. split; [assumption|]. apply Hv1 in Ev as [Ev|Ev]; [|contradiction|assumption].
        assert (Hd' : disj (lb ++ [b']) (la1 ++ [a1])) by (intros x X1 X2; exact (Hd1 x X2 X1)).
        destruct (meet b a (lb ++ [b']) la1 a1 b1 HAb HAa HAb2 Eb2 Ea1 HAa1 Hd' Ev) as (l1 & m & n & (L1 & L2 & L3 & L4) & Hc & Hy).
        exists l1, (lb ++ [b']), m, n. split; [|split; [assumption|]].
        * repeat split; auto. intros x X1 X2. exact (L4 x X2 X1).
        * intros y Hy'. rewrite (Hv1 y Hy'), Hy. tauto.
      + eapply safe_impl; [apply (IHk (set_vis t1 b1 true) a b la1 a1 (lb ++ [b']) b1); auto|].
        * destruct Hs as (_&_&_&E&_). cbn [par set_vis]. congruence.
        * split; auto.
          -- intros x X1 X2. apply in_snoc in X2 as [X2|X2]; [exact (Hd1 x X1 X2)|]. subst x.
             assert (vis t1 b1 = true) by (apply Hv1; auto). congruence.
          -- intros y Hy. cbn [vis set_vis]. rewrite upd_spec. rewrite (in_snoc y b1).
             destruct (Nat.eqb_spec y b1); [tauto|]. rewrite (Hv1 y Hy). tauto.
        * intros [t2 r] [X1 X2]. split; [|assumption]. cbn [fst] in *. eapply sbv_trans; [eassumption|].
          eapply sbv_trans; [apply sbv_set|eassumption].
    - eapply safe_impl; [apply (IHk t1 a b la1 a1 lb b'); auto|].
      + destruct Hs as (_&_&_&E&_). congruence.
      + split; auto.
      + intros [t2 r] [X1 X2]. split; [|assumption]. eapply sbv_trans; eassumption. }
  destruct (p a') as [a1|] eqn:Ep.
  - destruct (climb_step a la a' a1 HAa HAa' Ea Ep) as (Ea2 & HAa2 & Hn2).
    assert (Hgoal : safe (if vis t a1 then Ok (t, Some a1) else
       match p b' with
          | None => mrca_climb k (set_vis t a1 true) a1 b'
          | Some b1 => if vis (set_vis t a1 true) b1 then Ok (set_vis t a1 true, Some b1) else mrca_climb k (set_vis (set_vis t a1 true) b1 true) a1 b1
          end) (fun r => same_but_vis t (fst r) /\
         match snd r with Some x => found (fst r) a b x | None => root c a <> root c b /\ (forall y, A y -> (vis (fst r) y = true <-> In y (c a) \/ In y (c b))) end)).
    { destruct (vis t a1) eqn:Ev.
      - cbn [safe fst snd]. split; [apply sbv_refl|]. apply Hv in Ev as [Ev|Ev]; [contradiction| |assumption].
        destruct (meet a b (la ++ [a']) lb b' a1 HAa HAb HAa2 Ea2 Eb HAb' Hd Ev) as (l1 & m & n & L & Hc & Hy).
        exists (la ++ [a']), l1, m, n. split; [assumption|split; [assumption|]].
        intros y Hy'. rewrite (Hv y Hy'), Hy. tauto.
      - apply (Step2 (set_vis t a1 true) (la ++ [a']) a1); [apply sbv_set|]. split; auto.
        + intros x X1 X2. apply in_snoc in X1 as [X1|X1]; [exact (Hd x X1 X2)|]. subst x.
          assert (vis t a1 = true) by (apply Hv; auto). congruence.
        + intros y Hy. cbn [vis set_vis]. rewrite upd_spec. rewrite (in_snoc y a1).
          destruct (Nat.eqb_spec y a1); [tauto|]. rewrite (Hv y Hy). tauto. }
    destruct (p b'); exact Hgoal.
  - specialize (Step2 t la a' (sbv_refl t)). destruct (p b') as [b1|] eqn:Eb1.
    + apply Step2. split; auto.
    + cbn [safe fst snd]. split; [apply sbv_refl|].
      assert (Ra : root c a = a').
      { symmetry. apply (up_root_only A p c U a a'); auto. rewrite Ea. apply in_or_app. right. eapply up_self; eauto. }
      assert (Rb : root c b = b').
      { symmetry. apply (up_root_only A p c U b b'); auto. rewrite Eb. apply in_or_app. right. eapply up_self; eauto. }
      split.
      * rewrite Ra, Rb. intros ->. apply (Hd b'); apply in_snoc; auto.
      * intros y Hy. rewrite (Hv y Hy), Ea, Eb, (up_eq A p c U a' HAa'), (up_eq A p c U b' HAb'), Ep, Eb1. reflexivity.
Qed.
Lemma mrca_climb_total : forall k t a b, A a -> A b -> par t = p -> length (c a) + length (c b) <= k ->
  exists r, mrca_climb k t a b = Ok r.
Proof.
  induction k; intros t a b Ha Hb Hpar Hk.
  - pose proof (up_eq A p c U a Ha) as E. rewrite E in Hk. simpl in Hk. lia.
  - cbn [mrca_climb]. rewrite Hpar. pose proof (up_eq A p c U a Ha) as Ea. pose proof (up_eq A p c U b Hb) as Eb.
    destruct (p a) as [a'|] eqn:Epa; destruct (p b) as [b'|] eqn:Epb; eauto;
      try (assert (HA' : A a') by exact (up_L A p c U a a' Ha Epa)); try (assert (HB' : A b') by exact (up_L A p c U b b' Hb Epb));
      rewrite Ea, Eb in Hk; simpl in Hk.
    + destruct (vis t a'); eauto. destruct (vis (set_vis t a' true) b'); eauto. apply IHk; auto. lia.
    + destruct (vis t a'); eauto. apply IHk; auto. rewrite Eb. simpl. lia.
    + destruct (vis t b'); eauto. apply IHk; auto. rewrite Ea. simpl. lia.
Qed.
Lemma mrca_clean_total : forall k t q, par t = p -> match q with None => 0 | Some x => length (c x) end < k ->
  match q with None => True | Some x => A x end -> exists t', mrca_clean k t q = Ok t'.
Proof.
  induction k; intros t q Hpar Hk Hq; [lia|]. cbn [mrca_clean]. destruct q as [x|]; [|eauto].
  destruct (vis t x); [|eauto]. rewrite Hpar. pose proof (up_eq A p c U x Hq) as E. apply IHk; auto.
  - rewrite E in Hk. simpl in Hk. destruct (p x); simpl; lia.
  - destruct (p x) eqn:Ex; [|exact Logic.I]. eapply up_L; eauto.
Qed.

Lemma mrca_clean_spec : forall k t q m n, par t = p -> c q = (q :: m) ++ n -> A q ->
  (forall y, In y m -> vis t y = true) -> (forall y, A y -> In y n -> vis t y = false) ->
  safe (mrca_clean k t (p q)) (fun t' => same_but_vis t t' /\ forall y, A y -> vis t' y = if in_dec Nat.eq_dec y m then false else vis t y).
Proof.
  induction k; intros t q m n Hpar Hc HA Hm Hn; [exact I|]. cbn [mrca_clean].
  rewrite (up_eq A p c U q HA) in Hc. simpl in Hc. injection Hc as Hc.
  destruct (p q) as [r|] eqn:Ep.
  - assert (HAr : A r) by (eapply up_L; eauto). pose proof (up_eq A p c U r HAr) as Er. rewrite Hc in Er.
    rewrite Hpar.
    destruct m as [|z m].
    + simpl in Er. rewrite Hn; [|assumption|rewrite Er; now left]. cbn [safe]. split; [apply sbv_refl|]. intros. reflexivity.
    + simpl in Er. injection Er as -> Er. rewrite Hm by now left.
      assert (Hcr : c r = (r :: m) ++ n) by exact Hc.
      assert (Hnd : NoDup (r :: m ++ n)) by (change (NoDup ((r :: m) ++ n)); rewrite <- Hcr; eapply up_NoDup; eauto).
      eapply safe_impl; [apply (IHk (set_vis t r false) r m n)|]; auto.
      * intros y Hy. cbn [vis set_vis]. rewrite upd_other; [apply Hm; now right|]. intros ->.
        inversion Hnd; subst. apply H1. apply in_or_app. now left.
      * intros y HAy Hy. cbn [vis set_vis]. rewrite upd_spec. destruct (Nat.eqb_spec y r); auto.
      * intros t' [S1 S2]. split; [eapply sbv_trans; [apply sbv_set|eassumption]|].
        intros y Hy. rewrite (S2 y Hy). cbn [vis set_vis]. rewrite upd_spec.
        destruct (in_dec Nat.eq_dec y (r :: m)) as [X|N].
        -- destruct (in_dec Nat.eq_dec y m); [reflexivity|]. destruct X as [X|X]; [|contradiction]. subst y. now rewrite Nat.eqb_refl.
        -- destruct (in_dec Nat.eq_dec y m) as [X|_]; [exfalso; apply N; now right|].
           destruct (Nat.eqb_spec y r) as [->|]; [exfalso; apply N; now left|reflexivity].
  - destruct m; [|discriminate]. cbn [safe]. split; [apply sbv_refl|]. intros. reflexivity.
Qed.
End Mrca.

Lemma mrca_spec : forall fuel s a b A c tg, tstr A (tr s) c tg -> A a -> A b -> a <> b ->
  (forall y, A y -> vis (tr s) y = false) ->
  safe (most_recent_common_ancestor fuel s a b) (fun r =>
    fst r = set_tr s (tr (fst r)) /\ same_but_vis (tr s) (tr (fst r)) /\
    match snd r with
    | None => root c a <> root c b /\ (forall y, A y -> (vis (tr (fst r)) y = true <-> In y (c a) \/ In y (c b)))
    | Some x => exists la lb, lca A c a b x la lb /\
         forall y, A y -> (vis (tr (fst r)) y = true <-> In y la \/ In y lb)
    end).
Proof.
  intros fuel s a b A c tg HT Ha Hb Hne Hvis. unfold most_recent_common_ancestor.
  pose proof (ts_up _ _ _ _ HT) as U.
  eapply safe_bind.
  - apply (mrca_climb_spec A (par (tr s)) c U fuel _ a b [] a [] b); auto. split; auto.
    + intros x [<-|[]] [<-|[]]. congruence.
    + intros y Hy. cbn [vis set_vis]. rewrite !upd_spec, (Hvis y Hy). simpl.
      destruct (Nat.eqb_spec y b); destruct (Nat.eqb_spec y a); subst; intuition congruence.
  - intros [t r] [Hs Hr]. cbn [fst snd] in *.
    assert (Hs' : same_but_vis (tr s) t) by (eapply sbv_trans; [|exact Hs]; repeat split).
    destruct r as [x|].
    + destruct Hr as (la & lb & m & n & (HAx & Ea & Eb & Hd) & Hc & Hv).
      assert (Hnda := up_NoDup A _ c U a Ha). assert (Hndb := up_NoDup A _ c U b Hb).
      rewrite Ea in Hnda. rewrite Eb in Hndb.
      assert (Hnot : forall y, In y (c x) -> ~ In y la /\ ~ In y lb).
      { clear - Hnda Hndb. intros y Hy. split; intros H.
        - induction la; [destruct H|]. simpl in Hnda. inversion Hnda; subst. destruct H as [->|H]; [|auto].
          apply H2. apply in_or_app. now right.
        - induction lb; [destruct H|]. simpl in Hndb. inversion Hndb; subst. destruct H as [->|H]; [|auto].
          apply H2. apply in_or_app. now right. }
      assert (Hndx := up_NoDup A _ c U x HAx). rewrite Hc in Hndx. simpl in Hndx. inversion Hndx as [|? ? Hx1 Hx2]; subst.
      eapply safe_bind.
      * assert (Epar : par (set_vis t x false) x = par (tr s) x) by (destruct Hs' as (_&_&_&E&_); cbn [par set_vis]; congruence).
        rewrite Epar.
        apply (mrca_clean_spec A (par (tr s)) c U fuel (set_vis t x false) x m n); auto.
        -- destruct Hs' as (_&_&_&E&_). exact E.
        -- intros y Hy. cbn [vis set_vis]. rewrite upd_other; [|intros ->; apply Hx1; apply in_or_app; now left].
           apply Hv; [|right; right; now right]. eapply up_all_L; [exact U|exact HAx|]. rewrite Hc. right. apply in_or_app. now left.
        -- intros y HAy Hy. cbn [vis set_vis]. rewrite upd_spec. destruct (Nat.eqb_spec y x); [reflexivity|].
           destruct (vis t y) eqn:E; [|reflexivity]. exfalso.
           assert (Hcy : In y (c x)) by (rewrite Hc; right; apply in_or_app; now right).
           destruct (Hnot y Hcy). apply Hv in E as [|[|[|E]]]; auto.
           clear - Hx2 E Hy. induction m; [destruct E|]. simpl in Hx2. inversion Hx2; subst. destruct E as [->|E]; [|auto].
           apply H1. apply in_or_app. now right.
      * intros t' [S1 S2]. cbn [safe fst snd].
        split; [reflexivity|]. split; [eapply sbv_trans; [exact Hs'|]; eapply sbv_trans; [apply sbv_set|exact S1]|].
        exists la, lb. split; [repeat split; auto|]. intros y Hy. cbn [tr set_tr]. rewrite (S2 y Hy).
        cbn [vis set_vis]. rewrite upd_spec.
        assert (Hx := fun H => Hnot y H).
        destruct (in_dec Nat.eq_dec y m).
        -- split; [discriminate|]. assert (In y (c x)) by (rewrite Hc; right; apply in_or_app; now left).
           destruct (Hx H). tauto.
        -- destruct (Nat.eqb_spec y x) as [->|].
           ++ split; [discriminate|]. assert (In x (c x)) by (eapply up_self; eauto). destruct (Hx H). tauto.
           ++ rewrite (Hv y Hy). simpl. intuition congruence.
    + cbn [safe fst snd]. split; [reflexivity|]. split; [exact Hs'|exact Hr].
Qed.

Lemma mrca_total : forall fuel s a b A c tg, tstr A (tr s) c tg -> A a -> A b -> a <> b ->
  (forall y, A y -> vis (tr s) y = false) -> length (c a) + length (c b) < fuel ->
  exists r, most_recent_common_ancestor fuel s a b = Ok r.
Proof.
  intros fuel s a b A c tg HT Ha Hb Hne Hv Hf. pose proof (ts_up _ _ _ _ HT) as U. unfold most_recent_common_ancestor.
  set (t := set_vis (set_vis (tr s) a true) b true).
  assert (Hpt : par t = par (tr s)) by reflexivity.
  destruct (mrca_climb_total A (par (tr s)) c U fuel t a b Ha Hb Hpt) as [[t1 r] E]; [lia|].
  pose proof (mrca_climb_spec A (par (tr s)) c U fuel t a b [] a [] b Ha Hb Hpt) as S.
  rewrite E in *. cbn [bindO fst snd safe] in *. destruct r as [x|]; [|eauto].
  destruct S as [Hs F].
  { split; auto.
    - intros z [<-|[]] [<-|[]]. congruence.
    - intros y Hy. unfold t. cbn [vis set_vis]. rewrite !upd_spec, (Hv y Hy). simpl.
      destruct (Nat.eqb_spec y b); destruct (Nat.eqb_spec y a); subst; intuition congruence. }
  destruct F as (la & lb & m & n & (HAx & Ea & Eb & Hd) & Hc & Hvv).
  assert (Hp1 : par t1 = par (tr s)) by (rewrite (sbv_par _ _ Hs); exact Hpt).
  destruct (mrca_clean_total A (par (tr s)) c U fuel (set_vis t1 x false) (par t1 x)) as [t' E']; auto.
  - rewrite Hp1. assert (length (c x) <= length (c a)) by (rewrite Ea, app_length; lia).
    destruct (par (tr s) x) as [q|] eqn:Eq; [|lia]. rewrite (up_eq A _ c U x HAx), Eq in H. simpl in H. lia.
  - rewrite Hp1. destruct (par (tr s) x) eqn:Ex; [|exact I]. eapply up_L; eauto.
  - cbn [par set_vis] in *. rewrite E'. cbn [bindO]. eauto.
Qed.

(** ** prune_upward_path_stopping_before *)
Definition get (o : option nat) : nat := match o with Some x => x | None => 0 end.
Fixpoint upath (p : nat -> option nat) (cur : nat) (la : list nat) (stop : nat) : Prop :=
  match la with
  | [] => cur = stop
  | b :: la' => b = cur /\ cur <> stop /\ exists q, p cur = Some q /\ upath p q la' stop
  end.
(** The children handed over: those of the first node, then those of each further node except the
    previous one on the path. *)
Fixpoint orphs (kidf : nat -> list (nat * cedge)) (prev : option nat) (la : list nat) : list (nat * cedge) :=
  match la with
  | [] => []
  | b :: la' => match prev with None => kidf b | Some q => unstable_erase q (kidf b) end ++ orphs kidf (Some b) la'
  end.
Definition pseg (t : treesM) (back : bool) (b : nat) : list (nat * cedge) :=
  if back then [(get (inn t b), i2o t b); (get (out t (get (par t b))), rev_e (ped t b))]
  else [(get (out t b), rev_e (i2o t b)); (get (inn t b), ped t b)].
Definition uses (t : treesM) (la : list nat) (R : nat) : bool :=
  existsb (fun b => same_opt (inn t b) (Some R) || same_opt (out t b) (Some R)) la.

Record pruned (s s' : state) (la : list nat) (stop : nat) : Prop := {
  pr_nd : nd s' = nd s; pr_rg : rg s' = rg s; pr_ra : ra s' = ra s; pr_sc : sc s' = sc s;
  pr_ta : ta s' = mkS (rev la ++ free (ta s)) (next (ta s));
  pr_mreg : mreg (ma s') = mreg (ma s); pr_medge : medge (ma s') = medge (ma s);
  pr_alt : forall R, alt (ma s') R = if uses (tr s) la R then None else alt (ma s) R;
  pr_inn : inn (tr s') = inn (tr s); pr_out : out (tr s') = out (tr s); pr_i2o : i2o (tr s') = i2o (tr s);
  pr_par : par (tr s') = par (tr s); pr_ped : ped (tr s') = ped (tr s); pr_vis : vis (tr s') = vis (tr s);
  pr_kid : forall b, ~ In b la -> kid (tr s') b =
     if (b =? stop) && negb (length la =? 0) then unstable_erase (last la 0) (kid (tr s) stop) else kid (tr s) b }.

Lemma orphs_ext : forall k k' la q, (forall b, In b la -> k b = k' b) -> orphs k q la = orphs k' q la.
Proof. induction la; intros q H; simpl; [reflexivity|]. rewrite H by now left. f_equal. apply IHla. intros; apply H; now right. Qed.

Lemma prune_spec : forall la k s cur stop back orph path,
  upath (par (tr s)) cur la stop -> NoDup la -> ~ In stop la ->
  (forall b, In b la -> (exists i, inn (tr s) b = Some i) /\ (exists o, out (tr s) b = Some o) /\
     (forall q, par (tr s) b = Some q -> exists o, out (tr s) q = Some o)) ->
  safe (prune k s cur stop back orph path) (fun r =>
    pruned s (fst r) la stop /\
    fst (snd r) = orph ++ orphs (kid (tr s)) None la /\
    snd (snd r) = path ++ flat_map (pseg (tr s) back) la).
Proof.
  induction la as [|b la IH]; intros k s cur stop back orph path HU Hnd Hns Hf; destruct k; try exact I; cbn [prune].
  - simpl in HU. subst cur. rewrite Nat.eqb_refl. cbn [safe fst snd orphs flat_map]. rewrite !app_nil_r.
    split; [|now split]. split; auto.
    + destruct (ta s); reflexivity.
    + intros b _. rewrite andb_false_r. reflexivity.
  - destruct HU as (-> & Hne & q & Hq & HU).
    apply Nat.eqb_neq in Hne as Hne'. rewrite Hne'. cbn [inn out par set_kid].
    destruct (Hf cur (or_introl eq_refl)) as ((i & Hi) & (o & Ho) & Hoq). destruct (Hoq q Hq) as [oq Hoq'].
    rewrite Hi, Ho, Hq. cbn [deref bindO].
    assert (Epo : (if back then deref (out (tr s) q) else Ok 0) = Ok (if back then oq else 0)).
    { destruct back; [rewrite Hoq'|]; reflexivity. }
    rewrite Epo. cbn [bindO]. inversion Hnd as [|? ? Hn1 Hn2]; subst.
    assert (Hqc : q <> cur).
    { intros ->. destruct la as [|x la].
      - simpl in HU. contradiction.
      - simpl in HU. destruct HU as (-> & _). apply Hn1. now left. }
    assert (Hqstop : la = [] -> q = stop) by (intros ->; exact HU).
    assert (Hqin : la <> [] -> In q la) by (destruct la; [congruence|]; intros _; simpl in HU; destruct HU as (-> & _); now left).
    cbn [kid set_kid].
    rewrite (upd_other _ _ _ _ q Hqc).
    eapply safe_impl.
    + apply IH; cbn [tr del_tree_node set_ta set_ma set_tr par set_kid inn out]; auto.
      * intros Hin. apply Hns. now right.
      * intros b Hb. apply Hf. now right.
    + intros [s' [orph' path']] (HP & E1 & E2). cbn [fst snd] in *.
      cbn [tr del_tree_node set_ta set_ma set_tr kid set_kid] in E1.
      split; [|split].
      * destruct HP. split; cbn [nd rg ra sc ta ma tr del_tree_node set_ta set_ma set_tr mreg medge set_alt inn out i2o par ped vis set_kid] in *; auto.
        -- rewrite pr_ta0. cbn [ta set_ma set_tr free next del]. simpl. rewrite <- app_assoc. reflexivity.
        -- intros R. rewrite pr_alt0. unfold uses at 2. cbn [existsb]. fold (uses (tr s) la R). cbn [alt set_alt].
           unfold uses at 1. cbn [inn out set_kid]. fold (uses (tr s) la R).
           destruct (uses (tr s) la R); [now rewrite orb_true_r|]. rewrite orb_false_r, Hi, Ho. cbn [same_opt].
           unfold upd. rewrite (Nat.eqb_sym i R), (Nat.eqb_sym o R). destruct (R =? i), (R =? o); reflexivity.
        -- intros b Hb. cbn [kid set_kid] in pr_kid0. rewrite pr_kid0 by (intros X; apply Hb; now right). clear pr_kid0.
           assert (Hbc : b <> cur) by (intros ->; apply Hb; now left).
           assert (Hsc : stop <> cur) by congruence.
           destruct la as [|x la].
           ++ simpl in HU. subst q. cbn [length Nat.eqb negb andb]. rewrite andb_false_r, andb_true_r. cbn [last].
              unfold upd. destruct (Nat.eqb_spec b stop); [subst; reflexivity|].
              destruct (Nat.eqb_spec b cur); [contradiction|reflexivity].
           ++ cbn [length Nat.eqb negb andb]. rewrite !andb_true_r.
              change (last (cur :: x :: la) 0) with (last (x :: la) 0).
              assert (Hqi : In q (x :: la)) by (apply Hqin; discriminate).
              destruct (Nat.eqb_spec b stop) as [->|Hbs].
              ** rewrite !upd_other; auto. intros ->. apply Hns. now right.
              ** rewrite !upd_other; auto. intros ->. apply Hb. now right.
      * rewrite E1. cbn [orphs]. rewrite <- app_assoc. f_equal. f_equal.
        destruct la as [|x la]; [reflexivity|]. simpl in HU. destruct HU as (-> & _).
        cbn [orphs]. rewrite upd_same. f_equal. apply orphs_ext. intros b Hb.
        inversion Hn2; subst. rewrite !upd_other; auto.
        -- intros ->. apply Hn1. now right.
        -- intros ->. contradiction.
      * rewrite E2. cbn [flat_map]. rewrite app_assoc. f_equal.
        unfold pseg. rewrite Hi, Ho, Hq. cbn [get]. rewrite Hoq'. destruct back; reflexivity.
Qed.

Lemma upath_of : forall A p c la a x, up_ok A p c -> A a -> A x -> c a = la ++ c x -> upath p a la x.
Proof.
  intros A p c la. induction la as [|b la IH]; intros a x U Ha Hx E; simpl in *.
  - pose proof (up_eq A p c U a Ha) as E1. pose proof (up_eq A p c U x Hx) as E2. rewrite E, E2 in E1. now injection E1.
  - pose proof (up_eq A p c U a Ha) as E1. rewrite E in E1. injection E1 as -> E1.
    split; [reflexivity|]. pose proof (up_NoDup A p c U a Ha) as Hnd. rewrite E in Hnd. inversion Hnd; subst.
    split. { intros ->. apply H1. apply in_or_app. right. eapply up_self; eauto. }
    destruct (p a) as [q|] eqn:Ep.
    + exists q. split; [reflexivity|]. exact (IH q x U (up_L A p c U a q Ha Ep) Hx (eq_sym E1)).
    + exfalso. destruct la; [|discriminate]. simpl in E1. exact (up_nonnil A p c U x Hx E1).
Qed.

(** The orphans: children of nodes on the path that are not themselves on it. *)
Lemma orphs_In : forall kidf la prev x, (forall b, In b la -> NoDup (map fst (kidf b))) ->
  (In x (orphs kidf prev la) <-> exists l1 b l2, la = l1 ++ b :: l2 /\ In x (kidf b) /\
     match (match rev l1 with [] => prev | q :: _ => Some q end) with None => True | Some q => fst x <> q end).
Proof.
  intros kidf. induction la as [|b la IH]; intros prev x Hnd; simpl.
  - split; [tauto|]. intros (l1 & b & l2 & E & _). destruct l1; discriminate.
  - rewrite in_app_iff, IH by (intros; apply Hnd; now right). split.
    + intros [H|(l1 & b' & l2 & -> & Hx & Hc)].
      * exists [], b, la. split; [reflexivity|]. simpl. destruct prev; [|auto].
        apply unstable_erase_In in H; [tauto|]. apply Hnd; now left.
      * exists (b :: l1), b', l2. split; [reflexivity|]. split; [assumption|]. simpl.
        destruct (rev l1) eqn:Er; simpl; assumption.
    + intros (l1 & b' & l2 & E & Hx & Hc). destruct l1 as [|z l1]; simpl in E; injection E as -> E.
      * left. simpl in Hc. destruct prev; [|assumption]. apply unstable_erase_In; [apply Hnd; now left|]. now split.
      * right. exists l1, b', l2. split; [assumption|]. split; [assumption|]. simpl in Hc.
        destruct (rev l1) eqn:Er; simpl in *; assumption.
Qed.
