(** The tree properties in terms of S_Tree. *)
From Coq Require Import ZArith NArith List Arith Lia Bool Permutation.
From Verif Require Import M_Base M_Varying M_Tracker M_Core S_Tree P_Up P_Tree P_Tree2 P_Cycle.
Import ListNotations.
Local Open Scope nat_scope.

Definition any (_ _ : nat) (_ : cedge) : Prop := True.

Fixpoint chain (T : treesM) (k : nat) (b : nat) : list nat :=
  match k with O => [] | S k' => b :: match par T b with Some q => chain T k' q | None => [] end end.

Lemma chain_stable : forall (A : nat -> Prop) T (d : nat -> nat), (forall b q, A b -> par T b = Some q -> A q /\ d q < d b) ->
  forall k k' b, A b -> d b < k -> d b < k' -> chain T k b = chain T k' b.
Proof.
  intros A T d Hd. induction k; intros k' b Hb H1 H2; [lia|]. destruct k'; [lia|]. simpl. f_equal.
  destruct (par T b) as [q|] eqn:E; [|reflexivity]. destruct (Hd b q Hb E). apply IHk; auto; lia.
Qed.

Lemma forest_tstr : forall A T, forest A T -> exists c, tstr A T c any.
Proof.
  intros A T F. destruct (f_acyclic A T F) as [d Hd]. exists (fun b => chain T (S (d b)) b). split.
  - intros b Hb. split.
    + cbn [chain]. f_equal. destruct (par T b) as [q|] eqn:E; [|reflexivity]. destruct (Hd b q Hb E).
      change (q :: match par T q with Some q0 => chain T (d q) q0 | None => [] end) with (chain T (S (d q)) q).
      apply (chain_stable A T d Hd); auto.
    + intros q E. apply (Hd b q Hb E).
  - intros b q Hb E. split; [exact (f_child A T F b q Hb E)|].
    destruct (inn T b) as [i|] eqn:Ei.
    2:{ apply (f_inner A T F b Hb) in Ei. congruence. }
    destruct (out T b) as [o|] eqn:Eo; [|elim (f_outer A T F b Hb Eo)].
    destruct (Hd b q Hb E) as [Hq _]. destruct (out T q) as [oq|] eqn:Eq; [|elim (f_outer A T F q Hq Eq)].
    exists i, o, oq. repeat split.
  - intros b Hb E. now apply (f_inner A T F b Hb).
  - intros b Hb. destruct (out T b) as [o|] eqn:Eo; [eauto|elim (f_outer A T F b Hb Eo)].
  - exact (f_parent A T F).
  - exact (f_nodup A T F).
  - exact (f_distinct A T F).
Qed.

Lemma tstr_forest : forall A T c tg, tstr A T c tg -> forest A T.
Proof.
  intros A T c tg H. pose proof (ts_up _ _ _ _ H) as U. split.
  - exists (fun b => length (c b)). intros b q Hb E. split; [eapply up_L; eauto|].
    rewrite (up_eq A _ c U b Hb), E. simpl. lia.
  - intros b q Hb E. apply (ts_par _ _ _ _ H b q Hb E).
  - exact (ts_kid _ _ _ _ H).
  - exact (ts_kidnd _ _ _ _ H).
  - intros b Hb. destruct (ts_out _ _ _ _ H b Hb) as [o ->]. discriminate.
  - intros b Hb. split; [|exact (ts_root _ _ _ _ H b Hb)]. intros E. destruct (par T b) as [q|] eqn:Ep; [|reflexivity].
    destruct (ts_par _ _ _ _ H b q Hb Ep) as [_ (i & o & oq & Ei & _)]. congruence.
  - exact (ts_inj _ _ _ _ H).
Qed.

Lemma anc_up : forall A T c, up_ok A (par T) c -> forall b q, A b -> (anc T b q <-> In q (c b)).
Proof.
  intros A T c U b q Hb. split.
  - intros H. revert Hb. induction H; intros Hb; [eapply up_self; eauto|].
    rewrite (up_eq A _ c U b Hb), H. right. apply IHanc. eapply up_L; eauto.
  - revert q. pattern b. apply (up_ind A (par T) c U); [| |exact Hb].
    + intros x Hx E q Hq. rewrite (up_eq A _ c U x Hx), E in Hq. destruct Hq as [<-|[]]. constructor.
    + intros x y Hx E Hy IH q Hq. rewrite (up_eq A _ c U x Hx), E in Hq. destruct Hq as [<-|Hq]; [constructor|].
      econstructor; [exact E|]. now apply IH.
Qed.
Lemma same_root : forall A T c, up_ok A (par T) c -> forall a b, A a -> A b ->
  ((exists r, anc T a r /\ anc T b r) <-> root c b = root c a).
Proof.
  intros A T c U a b Ha Hb. split.
  - intros (r & H1 & H2). apply (anc_up A T c U) in H1, H2; auto.
    rewrite <- (root_up A _ c U b r Hb H2). exact (root_up A _ c U a r Ha H1).
  - intros E. exists (root c a). split; apply (anc_up A T c U); auto; [|rewrite <- E]; apply (root_spec A _ c U); auto.
Qed.

Lemma reroot : forall A s a, forest A (tr s) -> A a ->
  (exists k0, forall k, k0 <= k -> exists s', become_root k s a = Ok s') /\
  forall k s', become_root k s a = Ok s' ->
    s' = set_tr s (tr s') /\ forest A (tr s') /\ par (tr s') a = None /\
    (forall b, A b -> (anc (tr s') b a <-> exists r, anc (tr s) a r /\ anc (tr s) b r)) /\
    (forall i o e, connection A (tr s) i o e <-> connection A (tr s') i o e) /\
    (forall b q, A b -> anc (tr s) a b -> par (tr s) b = Some q -> par (tr s') q = Some b) /\
    (forall b, A b -> ~ anc (tr s) a b -> par (tr s') b = par (tr s) b /\ ped (tr s') b = ped (tr s) b /\
       inn (tr s') b = inn (tr s) b /\ i2o (tr s') b = i2o (tr s) b /\ kid (tr s') b = kid (tr s) b).
Proof.
  intros A s a F Ha. destruct (forest_tstr A _ F) as [c HT]. pose proof (ts_up _ _ _ _ HT) as U. split.
  - exists (length (c a)). intros k Hk. eapply become_root_total; eauto.
  - intros k s' E. pose proof (become_root_spec k s a A c any HT Ha) as S. rewrite E in S.
    destruct S as [Es (c' & HT' & RR)]. pose proof (ts_up _ _ _ _ HT') as U'.
    split; [exact Es|]. split; [eapply tstr_forest; eauto|]. split; [exact (rr_par _ _ _ _ _ _ RR)|].
    split; [|split; [exact (rr_link _ _ _ _ _ _ RR)|split]].
    + intros b Hb. rewrite (same_root A _ c U a b Ha Hb), (anc_up A _ c' U' b a Hb).
      pose proof (rr_root _ _ _ _ _ _ RR b Hb) as R. split.
      * intros Hin. apply (up_root_only A _ c' U' b a Hb) in Hin; [|exact (rr_par _ _ _ _ _ _ RR)].
        rewrite <- Hin in R. destruct (Nat.eqb_spec (root c b) (root c a)) as [|Hne]; [assumption|].
        exfalso. apply Hne. destruct (root_spec A _ c U b Hb) as (_ & _ & Hn). rewrite <- R in Hn.
        rewrite <- R. symmetry. exact (root_none A _ c U a Ha Hn).
      * intros Hr. rewrite Hr, Nat.eqb_refl in R. rewrite <- R. apply (root_spec A _ c' U' b Hb).
    + intros b q Hb Hin Hq. apply (anc_up A _ c U) in Hin; auto. exact (rr_path _ _ _ _ _ _ RR b q Hb Hin Hq).
    + intros b Hb Hn. apply (rr_other _ _ _ _ _ _ RR b Hb). intros Hin. apply Hn. now apply (anc_up A _ c U).
Qed.

Lemma common_ancestor : forall A s a b, forest A (tr s) -> A a -> A b -> a <> b ->
  (forall y, A y -> vis (tr s) y = false) ->
  (exists k0, forall k, k0 <= k -> exists s' r, most_recent_common_ancestor k s a b = Ok (s', r)) /\
  forall k s' r, most_recent_common_ancestor k s a b = Ok (s', r) ->
    (exists v, s' = set_tr s (mkT (inn (tr s)) (out (tr s)) (i2o (tr s)) (par (tr s)) (ped (tr s)) (kid (tr s)) v)) /\
    match r with
    | Some x => A x /\ anc (tr s) a x /\ anc (tr s) b x /\
        (forall y, anc (tr s) a y -> anc (tr s) b y -> anc (tr s) x y) /\
        (forall y, A y -> (vis (tr s') y = true <-> (anc (tr s) a y \/ anc (tr s) b y) /\ ~ anc (tr s) x y))
    | None =>
        (forall y, anc (tr s) a y -> anc (tr s) b y -> False) /\
        (forall y, A y -> (vis (tr s') y = true <-> anc (tr s) a y \/ anc (tr s) b y))
    end.
Proof.
  intros A s a b F Ha Hb Hne Hv. destruct (forest_tstr A _ F) as [c HT]. pose proof (ts_up _ _ _ _ HT) as U.
  pose proof (anc_up A _ c U) as AU. split.
  - exists (S (length (c a) + length (c b))). intros k Hk.
    destruct (mrca_total k s a b A c any HT Ha Hb Hne Hv) as [[s' r] E]; [lia|]. eauto.
  - intros k s' r E. pose proof (mrca_spec k s a b A c any HT Ha Hb Hne Hv) as S. rewrite E in S.
    destruct S as (Es & Hs & Hr). cbn [fst snd] in *. split.
    { exists (vis (tr s')). rewrite Es at 1. f_equal. destruct Hs as (<- & <- & <- & <- & <- & <-). now destruct (tr s'). }
    destruct r as [x|].
    + destruct Hr as (la & lb & (HAx & Ea & Eb & Hd) & Hvis).
      assert (Hself := up_self A _ c U x HAx).
      assert (Nnot : forall y d l, A d -> c d = l ++ c x -> In y l -> ~ In y (c x)).
      { intros y d l Hdd El Hy Hc. pose proof (up_NoDup A _ c U d Hdd) as Hnd. rewrite El in Hnd. clear - Hnd Hy Hc.
        induction l; [destruct Hy|]. simpl in Hnd. inversion Hnd; subst. destruct Hy as [->|Hy]; [apply H1; apply in_or_app; now right|auto]. }
      split; [assumption|]. split; [apply AU; auto; rewrite Ea; apply in_or_app; now right|].
      split; [apply AU; auto; rewrite Eb; apply in_or_app; now right|]. split.
      * intros y H1 H2. apply AU; auto. apply AU in H1, H2; auto. rewrite Ea in H1. rewrite Eb in H2.
        apply in_app_or in H1 as [H1|H1]; [|assumption]. apply in_app_or in H2 as [H2|H2]; [|assumption].
        elim (Hd y H1 H2).
      * intros y Hy. rewrite (Hvis y Hy), (AU a y Ha), (AU b y Hb), (AU x y HAx), Ea, Eb, !in_app_iff. split.
        -- intros [H|H]; (split; [tauto|]); [exact (Nnot y a la Ha Ea H)|exact (Nnot y b lb Hb Eb H)].
        -- tauto.
    + destruct Hr as [Hr Hvis]. split.
      * intros y H1 H2. apply Hr. symmetry. apply (same_root A _ c U a b Ha Hb). eauto.
      * intros y Hy. rewrite (Hvis y Hy), (AU a y Ha), (AU b y Hb). reflexivity.
Qed.
