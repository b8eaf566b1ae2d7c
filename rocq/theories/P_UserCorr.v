(** Corrections of a user graph and of the edges it is converted to, with signed weights. *)
From Coq Require Import ZArith NArith List Bool Arith Lia Permutation.
From Verif Require Import M_Base M_Core M_Build S_Build S_Core P_Tree P_Build P_Convert P_Convert2.
Import ListNotations.
Local Open Scope nat_scope.

Lemma sedge_dec : forall a b : sedge, {a = b} + {a <> b}.
Proof. repeat decide equality. Qed.

(** ** Sums do not depend on the order *)
Lemma perm_total : forall F F', Permutation F F' -> s_total F = s_total F'.
Proof. intros F F' H. induction H; unfold s_total in *; cbn [fold_right] in *; lia. Qed.
Lemma perm_degree : forall v F F', Permutation F F' -> s_degree v F = s_degree v F'.
Proof. intros v F F' H. induction H; unfold s_degree in *; cbn [fold_right] in *; lia. Qed.
Lemma perm_flips : forall k F F', Permutation F F' -> s_flips k F = s_flips k F'.
Proof.
  intros k F F' H. induction H; unfold s_flips in *; cbn [fold_right] in *; [reflexivity|now rewrite IHPermutation| |congruence].
  rewrite <- !xorb_assoc. f_equal. apply xorb_comm.
Qed.

(** ** Selections by position and by value *)
Lemma select_incl : forall E X e, In e (select E X) -> In e E.
Proof. induction E as [|a E IH]; intros [|[|] X] e H; simpl in H; try destruct H; subst; simpl; eauto. Qed.
Lemma select_NoDup : forall E X, NoDup E -> NoDup (select E X).
Proof.
  induction E as [|a E IH]; intros [|[|] X] H; simpl; try constructor; inversion H; subst; auto. intros Hi. apply select_incl in Hi. contradiction.
Qed.
Definition pick (E G : list sedge) : list bool := map (fun e => if in_dec sedge_dec e G then true else false) E.
Lemma pick_In : forall E G e, In e (select E (pick E G)) <-> In e E /\ In e G.
Proof.
  induction E as [|a E IH]; intros G e; simpl; [tauto|]. destruct (in_dec sedge_dec a G) as [H|H]; simpl; rewrite IH; split; intuition; subst; tauto.
Qed.
Lemma pick_perm : forall E G, NoDup E -> NoDup G -> incl G E -> Permutation (select E (pick E G)) G.
Proof.
  intros E G HE HG HI. apply NoDup_Permutation; [now apply select_NoDup|exact HG|]. intros e. rewrite pick_In. split; [tauto|]. intros H. split; [now apply HI|exact H].
Qed.
Lemma parallel_refl : forall e, parallel e e.
Proof. intros [[[u x] w] o]. simpl. auto. Qed.
Lemma fop_NoDup : forall E, ForallOrdPairs (fun e f => ~ parallel e f) E -> NoDup E.
Proof.
  intros E H. induction H as [|e E He H IH]; constructor; [|exact IH]. intros Hi. exact (proj1 (Forall_forall _ _) He e Hi (parallel_refl e)).
Qed.

(** Either two members have the same key, or all keys are different. *)
Lemma same_key : forall (A : Type) (f : A -> option nat) (l : list A),
  (exists a b l' k, Permutation l (a :: b :: l') /\ f a = Some k /\ f b = Some k) \/
  ForallOrdPairs (fun a b => f a = None \/ f a <> f b) l.
Proof.
  intros A f. induction l as [|a l IH]; [right; constructor|]. destruct IH as [(x & y & l' & k & P & Hx & Hy)|H].
  - left. exists x, y, (a :: l'), k. split; [|auto]. rewrite P. rewrite perm_swap. apply perm_skip. apply perm_swap.
  - destruct (f a) as [k|] eqn:Ea; [|right; constructor; [apply Forall_forall; auto|exact H]].
    destruct (in_dec Nat.eq_dec k (flat_map (fun b => match f b with Some j => [j] | None => [] end) l)) as [Hi|Hn].
    + left. apply in_flat_map in Hi as (b & Hb & Hk). destruct (f b) as [j|] eqn:Eb; [|destruct Hk]. destruct Hk as [->|[]].
      apply in_split in Hb as (l1 & l2 & ->). exists a, b, (l1 ++ l2), k. split; [|auto]. apply perm_skip. symmetry. apply Permutation_middle.
    + right. constructor; [|exact H]. apply Forall_forall. intros b Hb. right. intros Eq. apply Hn. apply in_flat_map. exists b. split; [exact Hb|]. rewrite <- Eq, Ea. now left.
Qed.

Definition bkey (B : nat -> bool) (e : sedge) : option nat := match convert_edge B e with BoundaryEdge u _ _ => Some u | _ => None end.

Section Corr.
Variables (n : nat) (B : nat -> bool) (E : list sedge).
Hypothesis RB : nodes_below n E.
Hypothesis NP : ForallOrdPairs (fun e f => ~ parallel e f) E.
Let C := convert_all n B E.
Let T := snd (convert B E (fun _ => None)).
Let RG : forall e, In e E -> in_range n e := proj1 (range_below n E) RB.

Lemma conv_NoDup : NoDup C.
Proof. apply fop_NoDup. now apply convert_all_fop. Qed.
Lemma conv_plain : forall u v w o, In (u, Some v, w, o) C <-> In (u, Some v, w, o) E /\ B u = false /\ B v = false.
Proof.
  intros u v w o. unfold C. rewrite (convert_all_In n B E _ RG). split.
  - intros (t' & _ & [(u1 & v1 & w1 & o1 & Eq & H)|(u1 & w1 & o1 & Eq & _)]); [|discriminate]. injection Eq as -> -> -> ->. exact H.
  - intros H. eexists. split; [reflexivity|]. left. exists u, v, w, o. auto.
Qed.
Lemma conv_bnd : forall u w o, In (u, None, w, o) C <-> u < n /\ T u = Some (w, o).
Proof.
  intros u w o. unfold C. rewrite (convert_all_In n B E _ RG). split.
  - intros (t' & <- & [(u1 & v1 & w1 & o1 & Eq & _)|(u1 & w1 & o1 & Eq & H)]); [discriminate|]. injection Eq as -> -> ->. exact H.
  - intros H. eexists. split; [reflexivity|]. right. exists u, w, o. auto.
Qed.
Lemma table_orig : forall u w o, T u = Some (w, o) -> exists e, In e E /\ convert_edge B e = BoundaryEdge u w o.
Proof.
  intros u w o H. unfold T in H. destruct (convert B E (fun _ => None)) as [l t'] eqn:Ec. destruct (convert_spec _ _ _ _ _ Ec) as (_ & H2 & _).
  apply H2 in H as [D|H]; [discriminate|exact H].
Qed.
Lemma table_least : forall e u w o, In e E -> convert_edge B e = BoundaryEdge u w o -> exists w' o', T u = Some (w', o') /\ (w' <= w)%Z.
Proof.
  intros e u w o He H. unfold T. destruct (convert B E (fun _ => None)) as [l t'] eqn:Ec. destruct (convert_spec _ _ _ _ _ Ec) as (_ & _ & _ & H4). exact (H4 e u w o He H).
Qed.

(** ** From the converted edges to edges of the user graph *)
Definition same_effect (c e : sedge) : Prop :=
  In e E /\ s_weight e = s_weight c /\ (forall v, B v = false -> s_ends v e = s_ends v c) /\
  (forall k, s_flips k [e] = s_flips k [c]) /\ (e = c \/ bkey B e = Some (fst (fst (fst c))) /\ snd (fst (fst c)) = None).
Lemma orig : forall c, In c C -> exists e, same_effect c e.
Proof.
  intros [[[u [v|]] w] o] Hc.
  - apply conv_plain in Hc as (H & _). exists (u, Some v, w, o). repeat split; auto.
  - apply conv_bnd in Hc as (Hu & HT). destruct (table_orig u w o HT) as (e & He & Ec). exists e. pose proof (convert_edge_spec B e) as X. rewrite Ec in X.
    destruct X as (Bu & Ew & _ & (a & x & Ee) & Hends). split; [exact He|]. split; [exact Ew|]. split; [intros k Hk; rewrite Hends by exact Hk; simpl; lia|].
    split; [intros k; subst e; reflexivity|]. right. split; [|reflexivity]. unfold bkey. now rewrite Ec.
Qed.
Lemma origs : forall L, incl L C -> NoDup L -> exists F, Forall2 same_effect L F.
Proof.
  induction L as [|c L IH]; intros HI HN; [exists []; constructor|]. inversion HN; subst. destruct IH as [F HF]; [intros x Hx; apply HI; now right|assumption|].
  destruct (orig c) as [e He]; [apply HI; now left|]. exists (e :: F). now constructor.
Qed.
Lemma same_bnd : forall u w o w' o', In (u, None, w, o) C -> In (u, None, w', o') C -> (u, @None nat, w, o) = (u, None, w', o').
Proof. intros u w o w' o' H1 H2. apply conv_bnd in H1 as [_ H1]. apply conv_bnd in H2 as [_ H2]. congruence. Qed.
Lemma same_effect_inj : forall c c' e, In c C -> In c' C -> same_effect c e -> same_effect c' e -> c = c'.
Proof.
  intros c c' e Hc Hc' (_ & _ & _ & _ & H1) (_ & _ & _ & _ & H2).
  assert (K : forall d, In d C -> bkey B d <> None -> snd (fst (fst d)) = None).
  { intros [[[u [v|]] w] o] Hd Hk; [|reflexivity]. apply conv_plain in Hd as (_ & Bu & Bv). elim Hk. unfold bkey, convert_edge. simpl. now rewrite Bu, Bv. }
  assert (K2 : forall d k, In d C -> snd (fst (fst d)) = None -> bkey B d = Some k -> fst (fst (fst d)) = k).
  { intros [[[u [v|]] w] o] k Hd Hs Hk; [discriminate|]. simpl. unfold bkey, convert_edge in Hk. simpl in Hk. destruct (B u); simpl in Hk; congruence. }
  assert (SB : forall d d', In d C -> In d' C -> snd (fst (fst d)) = None -> snd (fst (fst d')) = None -> fst (fst (fst d)) = fst (fst (fst d')) -> d = d').
  { intros [[[u x] w] o] [[[u' x'] w'] o'] Hd Hd' Hx Hx' Hu. cbn [fst snd] in *. subst x x' u'. now apply same_bnd. }
  destruct H1 as [->|[H1 N1]], H2 as [E2|[H2 N2]].
  - exact E2.
  - assert (Nc : snd (fst (fst c)) = None) by (apply K; [exact Hc|congruence]). apply SB; try assumption. now apply K2.
  - subst e. assert (Nc : snd (fst (fst c')) = None) by (apply K; [exact Hc'|congruence]). apply SB; try assumption. symmetry. now apply K2.
  - apply SB; try assumption. congruence.
Qed.
Lemma origs_NoDup : forall L F, Forall2 same_effect L F -> incl L C -> NoDup L -> NoDup F.
Proof.
  intros L F H. induction H as [|c e L F He HF IH]; intros HI HN; [constructor|]. inversion HN as [|? ? Hc HL]; subst. constructor; [|apply IH; [intros x Hx; apply HI; now right|exact HL]].
  intros Hin. assert (X : exists c', In c' L /\ same_effect c' e).
  { clear - HF Hin. induction HF as [|c e' L F He HF IH]; [destruct Hin|]. destruct Hin as [->|Hin]; [exists c; split; [now left|exact He]|]. destruct (IH Hin) as (c' & H1 & H2). exists c'. split; [now right|exact H2]. }
  destruct X as (c' & Hc' & He'). apply Hc. rewrite (same_effect_inj c c' e); auto; apply HI; [now left|now right].
Qed.
Lemma origs_sums : forall L F, Forall2 same_effect L F ->
  incl F E /\ s_total F = s_total L /\ (forall v, B v = false -> s_degree v F = s_degree v L) /\ (forall k, s_flips k F = s_flips k L).
Proof.
  intros L F H. induction H as [|c e L F (H1 & H2 & H3 & H4 & _) HF (I1 & I2 & I3 & I4)]; [repeat split; auto; intros x []|]. split; [|split; [|split]].
  - intros x [<-|Hx]; auto.
  - unfold s_total in *. cbn [fold_right]. lia.
  - intros v Hv. rewrite !s_degree_cons, H3, I3 by exact Hv. reflexivity.
  - intros k. specialize (H4 k). specialize (I4 k). unfold s_flips in *. cbn [fold_right] in *. rewrite !xorb_false_r in H4. now rewrite H4, I4.
Qed.

(** ** From edges of the user graph to converted edges *)
Hypothesis DR : forall e, In e E -> convert_edge B e = Dropped -> (0 <= s_weight e)%Z.
Hypothesis PB : forall e f k, In e E -> In f E -> e <> f -> bkey B e = Some k -> bkey B f = Some k -> (0 <= s_weight e + s_weight f)%Z.

Definition kept (e c : sedge) : Prop :=
  In c C /\ (s_weight c <= s_weight e)%Z /\ (forall v, B v = false -> s_ends v c = s_ends v e) /\
  match convert_edge B e with Edge e' => c = e | BoundaryEdge u _ _ => fst (fst (fst c)) = u /\ snd (fst (fst c)) = None | Dropped => False end.
Lemma keep : forall e, In e E -> convert_edge B e <> Dropped -> exists c, kept e c.
Proof.
  intros e He Hd. unfold kept. pose proof (convert_edge_spec B e) as X. destruct (convert_edge B e) as [e'|u w o|] eqn:Ec; [| |congruence].
  - destruct X as (-> & u & v & w & o & -> & Bu & Bv). exists (u, Some v, w, o). split; [apply conv_plain; auto|]. split; [reflexivity|]. split; [auto|reflexivity].
  - destruct X as (Bu & Ew & Hin & (a & x & Ee) & Hends). destruct (table_least e u w o He Ec) as (w' & o' & HT & Hl). exists (u, None, w', o').
    split; [apply conv_bnd; split; [apply (RG e He); exact Hin|exact HT]|]. split; [subst e; simpl in *; lia|]. split; [|split; reflexivity].
    intros v Hv. rewrite Hends by exact Hv. simpl. lia.
Qed.
Lemma keeps : forall F, incl F E -> NoDup F -> (forall e, In e F -> convert_edge B e <> Dropped) -> ForallOrdPairs (fun a b => bkey B a = None \/ bkey B a <> bkey B b) F ->
  exists L, NoDup L /\ Forall2 kept F L.
Proof.
  intros F HI HN HD HO. induction HO as [|e F He HO IH]; [exists []; repeat constructor|]. inversion HN as [|? ? Hnin HN']; subst.
  destruct IH as (L & HL & HF); [intros x Hx; apply HI; now right|exact HN'|intros x Hx; apply HD; now right|].
  destruct (keep e) as [c Hc]; [apply HI; now left|apply HD; now left|]. exists (c :: L). split; [|now constructor]. constructor; [|exact HL].
  intros Hin. assert (X : exists f, In f F /\ kept f c).
  { clear - HF Hin. induction HF as [|f c' F L Hf HF IH]; [destruct Hin|]. destruct Hin as [->|Hin]; [exists f; split; [now left|exact Hf]|]. destruct (IH Hin) as (f' & H1 & H2). exists f'. split; [now right|exact H2]. }
  destruct X as (f & Hf & Kf). pose proof (proj1 (Forall_forall _ _) He f Hf) as Q. unfold bkey in Q. pose proof (convert_edge_spec B e) as Se. pose proof (convert_edge_spec B f) as Sf.
  destruct Hc as (_ & _ & _ & M1). destruct Kf as (_ & _ & _ & M2). destruct (convert_edge B e) as [e'|u w o|] eqn:Ee, (convert_edge B f) as [f'|u' w' o'|] eqn:Ef; try contradiction.
  - subst. contradiction.
  - destruct Se as (_ & a & b & w & o & -> & _). subst c. destruct M2 as [_ M2]. discriminate.
  - destruct Sf as (_ & a & b & w' & o' & -> & _). subst c. destruct M1 as [_ M1]. discriminate.
  - destruct M1 as [<- _], M2 as [<- _]. destruct Q as [Q|Q]; [discriminate|]. now apply Q.
Qed.
Lemma keeps_sums : forall F L, Forall2 kept F L -> incl L C /\ (s_total L <= s_total F)%Z /\ (forall v, B v = false -> s_degree v L = s_degree v F).
Proof.
  intros F L H. induction H as [|e c F L (H1 & H2 & H3 & _) HF (I1 & I2 & I3)]; [repeat split; auto; try lia; intros x []|]. split; [|split].
  - intros x [<-|Hx]; auto.
  - unfold s_total in *. cbn [fold_right]. lia.
  - intros v Hv. now rewrite !s_degree_cons, H3, I3 by exact Hv.
Qed.
Lemma dropped_dec : forall F, (exists e F', Permutation F (e :: F') /\ convert_edge B e = Dropped) \/ forall e, In e F -> convert_edge B e <> Dropped.
Proof.
  induction F as [|a F IH]; [right; intros e []|]. destruct (convert_edge B a) as [e0|u0 w0 o0|] eqn:Ea.
  3: { left. exists a, F. auto. }
  all: destruct IH as [(e & F' & P & He)|H]; [left; exists e, (a :: F'); split; [rewrite P; apply perm_swap|exact He]|right; intros x [<-|Hx]; [congruence|auto]].
Qed.
Lemma to_conv : forall F, NoDup F -> incl F E -> exists L, NoDup L /\ incl L C /\ (s_total L <= s_total F)%Z /\ forall v, B v = false -> Nat.odd (s_degree v L) = Nat.odd (s_degree v F).
Proof.
  intros F0. remember (length F0) as m eqn:Em. revert F0 Em. induction m as [m IH] using lt_wf_ind. intros F Em HN HI. subst m.
  destruct (dropped_dec F) as [(e & F' & P & He)|HD].
  - pose proof (Permutation_NoDup P HN) as HN'. inversion HN'; subst.
    destruct (IH (length F')) with (F0 := F') as (L & L1 & L2 & L3 & L4); auto.
    + apply Permutation_length in P. simpl in P. lia.
    + intros x Hx. apply HI. rewrite P. now right.
    + assert (He0 : In e E) by (apply HI; rewrite P; now left). pose proof (DR e He0 He) as Hw. pose proof (convert_edge_spec B e) as X. rewrite He in X. rewrite (perm_total _ _ P). exists L. repeat split; auto.
      * unfold s_total in *. cbn [fold_right]. lia.
      * intros v Hv. rewrite L4, (perm_degree v _ _ P), s_degree_cons, X by exact Hv. reflexivity.
  - destruct (same_key _ (bkey B) F) as [(a & b & F' & k & P & Ka & Kb)|HO].
    + pose proof (Permutation_NoDup P HN) as HN'. inversion HN' as [|? ? Ha HN2]; subst. inversion HN2 as [|? ? Hb HN3]; subst.
      destruct (IH (length F')) with (F0 := F') as (L & L1 & L2 & L3 & L4); auto.
      * apply Permutation_length in P. simpl in P. lia.
      * intros x Hx. apply HI. rewrite P. now do 2 right.
      * assert (Ia : In a E) by (apply HI; rewrite P; now left). assert (Ib : In b E) by (apply HI; rewrite P; right; now left).
        assert (Hw : (0 <= s_weight a + s_weight b)%Z) by (apply (PB a b k); auto; intros ->; apply Ha; now left).
        exists L. repeat split; auto.
        -- rewrite (perm_total _ _ P). unfold s_total in *. cbn [fold_right]. lia.
        -- intros v Hv. rewrite L4, (perm_degree v _ _ P), !s_degree_cons by exact Hv. unfold bkey in Ka, Kb. pose proof (convert_edge_spec B a) as Xa. pose proof (convert_edge_spec B b) as Xb.
           destruct (convert_edge B a) as [|ua wa oa|]; try discriminate. destruct (convert_edge B b) as [|ub wb ob|]; try discriminate. injection Ka as ->. injection Kb as ->.
           destruct Xa as (_ & _ & _ & _ & Xa). destruct Xb as (_ & _ & _ & _ & Xb). rewrite Xa, Xb by exact Hv. rewrite !Nat.odd_add. destruct (k =? v); simpl; now destruct (Nat.odd (s_degree v F')).
    + destruct (keeps F HI HN HD HO) as (L & HL & HF). destruct (keeps_sums F L HF) as (I1 & I2 & I3). exists L. split; [exact HL|]. split; [exact I1|]. split; [exact I2|]. intros v Hv. now rewrite I3.
Qed.

(** ** Both directions, for the declared boundary [bnd] *)
Variables (bnd : list bool) (evs : list nat).
Hypothesis BD : forall v, nth v bnd false = B v.
Lemma conv_ends : forall v, B v = true -> forall e, In e C -> s_ends v e = 0.
Proof.
  intros v Hv [[[u [x|]] w] o] He.
  - apply conv_plain in He as (_ & Bu & Bx). simpl. destruct (Nat.eqb_spec u v); [congruence|]. destruct (Nat.eqb_spec x v); [congruence|reflexivity].
  - apply conv_bnd in He as (_ & HT). destruct (table_orig u w o HT) as (e & He & Ec). pose proof (convert_edge_spec B e) as X. rewrite Ec in X. destruct X as (Bu & _).
    simpl. destruct (Nat.eqb_spec u v); [congruence|reflexivity].
Qed.
Lemma conv_bare : boundary_bare bnd C.
Proof. intros v Hv e He. rewrite BD in Hv. now apply conv_ends. Qed.
Lemma conv_degree : forall v L, B v = true -> incl L C -> s_degree v L = 0.
Proof.
  intros v L Hv. induction L as [|e L IH]; intros HI; [reflexivity|]. rewrite s_degree_cons, conv_ends, IH; auto; [intros x Hx; apply HI; now right|apply HI; now left].
Qed.
Lemma memb_In : forall v l, memb v l = true <-> In v l.
Proof. intros v l. unfold memb. rewrite existsb_exists. split; [intros (x & Hx & E0); apply Nat.eqb_eq in E0; now subst|intros H; exists v; split; [exact H|apply Nat.eqb_refl]]. Qed.
Lemma corr_of_solves : forall X, solves C (wanted bnd evs) X ->
  exists F, NoDup F /\ u_explains E B F evs /\ s_total F = s_total (select C X) /\ (forall k, s_flips k F = s_flips k (select C X)) /\ Forall2 same_effect (select C X) F.
Proof.
  intros X [HL HX]. assert (HI : incl (select C X) C) by (intros e; apply select_incl). pose proof (select_NoDup C X conv_NoDup) as HN.
  destruct (origs _ HI HN) as [F HF]. destruct (origs_sums _ _ HF) as (I1 & I2 & I3 & I4). exists F. split; [exact (origs_NoDup _ _ HF HI HN)|]. split; [|auto].
  split; [exact I1|]. intros v Hv. rewrite I3, HX by exact Hv. unfold wanted. rewrite BD, Hv. simpl. rewrite andb_true_r. apply memb_In.
Qed.
Lemma solves_of_corr : forall F, NoDup F -> u_explains E B F evs -> exists Y, solves C (wanted bnd evs) Y /\ (s_total (select C Y) <= s_total F)%Z.
Proof.
  intros F HN [HI HE]. destruct (to_conv F HN HI) as (L & L1 & L2 & L3 & L4). pose proof (pick_perm C L conv_NoDup L1 L2) as P. exists (pick C L). split.
  - split; [unfold pick; apply map_length|]. intros v. rewrite (perm_degree v _ _ P). unfold wanted. rewrite BD. destruct (B v) eqn:Bv; simpl.
    + now rewrite (conv_degree v L Bv L2), andb_false_r.
    + rewrite andb_true_r, L4 by exact Bv. specialize (HE v Bv). rewrite <- memb_In in HE. destruct (Nat.odd (s_degree v F)), (memb v evs); tauto || (symmetry; tauto) || intuition.
  - now rewrite (perm_total _ _ P).
Qed.
End Corr.
