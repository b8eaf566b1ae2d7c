(** Decoding with a check matrix: what can happen, and the edges of the graph. *)
From Coq Require Import Reals ZArith List Bool Arith Lia Lra Permutation.
From Verif Require Import M_Base M_Core M_CoreHeap M_Bits M_Merge P_Merge P_Dem M_CheckMatrix S_CheckMatrix P_CheckMatrix P_CheckMatrix2 M_Matching S_Matching P_Matching P_Pipeline S_GraphMap P_GraphMap M_UserGraph S_UserGraph P_UserGraph S_Pipeline P_DemDecode S_MatrixDecode P_Compact.
Import ListNotations.
Local Open Scope R_scope.

Lemma odd_xsum : forall A (f : A -> bool) l, Nat.odd (length (filter f l)) = xsum f l.
Proof.
  induction l as [|a l IH]; [reflexivity|]. cbn [filter xsum]. destruct (f a); [|now rewrite xorb_false_l]. cbn [length]. rewrite Nat.odd_succ, <- Nat.negb_odd, IH. now destruct (xsum f l).
Qed.

(** ** Sums over sites and over edges *)
Section Split.
Variables (T : Type) (zero : T) (op : T -> T -> T) (le : T -> T -> Prop).
Hypothesis op_zero : forall a, op zero a = a.
Hypothesis op_assoc : forall a b c, op a (op b c) = op (op a b) c.
Hypothesis op_comm : forall a b, op a b = op b a.
Hypothesis le_op : forall a b c d, le a b -> le c d -> le (op a c) (op b d).
Variables (A S : Type) (acts : A -> S -> bool) (wE : A -> T) (wS : S -> T).
Definition gsum {X} (w : X -> T) (l : list X) : T := fold_right op zero (map w l).
Lemma gsum_split : forall (p : S -> bool) l, gsum wS l = op (gsum wS (filter p l)) (gsum wS (filter (fun s => negb (p s)) l)).
Proof.
  induction l as [|s l IH]; [cbn; symmetry; apply op_zero|]. cbn [gsum map fold_right filter] in *. fold (gsum wS l). unfold gsum in IH. fold (gsum wS l) in IH. rewrite IH.
  destruct (p s); cbn [negb map fold_right]; [now rewrite op_assoc|]. rewrite !op_assoc, (op_comm (wS s)). reflexivity.
Qed.
Definition is_odd (L : list S) (e : A) : bool := Nat.odd (length (filter (acts e) L)).
Lemma filter_negb : forall e e' L, (forall s, In s L -> acts e s = true -> acts e' s = true -> False) -> filter (acts e') (filter (fun s => negb (acts e s)) L) = filter (acts e') L.
Proof.
  intros e e' L H. induction L as [|s L IH]; [reflexivity|]. cbn [filter]. assert (IH' := IH (fun x Hx => H x (or_intror Hx))). destruct (acts e s) eqn:E1; cbn [negb filter].
  - destruct (acts e' s) eqn:E2; [exfalso; exact (H s (or_introl eq_refl) E1 E2)|exact IH'].
  - destruct (acts e' s); now rewrite IH'.
Qed.
Lemma split_le : forall E L, NoDup E -> (forall e e' s, In e E -> In e' E -> In s L -> acts e s = true -> acts e' s = true -> e = e') ->
  (forall e, In e E -> le (if is_odd L e then wE e else zero) (gsum wS (filter (acts e) L))) ->
  (forall L', incl L' L -> (forall s, In s L' -> forall e, In e E -> acts e s = false) -> le zero (gsum wS L')) ->
  le (gsum wE (filter (is_odd L) E)) (gsum wS L).
Proof.
  induction E as [|e E IH]; intros L ND UQ HE HF.
  - cbn. apply HF; [apply incl_refl|intros s _ e []].
  - inversion ND as [|? ? Ne ND']; subst. rewrite (gsum_split (acts e) L). set (L' := filter (fun s => negb (acts e s)) L).
    assert (SAME : forall e', In e' E -> filter (acts e') L' = filter (acts e') L).
    { intros e' He'. apply filter_negb. intros s Hs H1 H2. apply Ne. now rewrite (UQ e e' s (or_introl eq_refl) (or_intror He') Hs H1 H2). }
    assert (SO : filter (is_odd L) E = filter (is_odd L') E). { apply filter_ext_in'. intros e' He'. unfold is_odd. now rewrite SAME. }
    assert (EQ : gsum wE (filter (is_odd L) (e :: E)) = op (if is_odd L e then wE e else zero) (gsum wE (filter (is_odd L') E))).
    { cbn [filter]. rewrite <- SO. destruct (is_odd L e); [reflexivity|symmetry; apply op_zero]. }
    rewrite EQ. apply le_op; [apply HE; now left|]. apply IH; [exact ND'| | |].
    + intros e1 e2 s H1 H2 Hs. apply UQ; [now right|now right|]. now apply filter_In in Hs.
    + intros e' He'. unfold is_odd. rewrite SAME by exact He'. apply HE. now right.
    + intros L'' HI HN. apply HF; [intros s Hs; apply HI in Hs; now apply filter_In in Hs|]. intros s Hs e' [<-|He']; [|now apply HN]. apply HI in Hs. apply filter_In in Hs as [_ Hs]. now apply negb_true_iff in Hs.
Qed.
End Split.

Section Sites.
Variables (S : Type) (eqS : S -> S -> bool).
Hypothesis eqS_spec : forall a b, eqS a b = true <-> a = b.
Variables (st : list S) (E : list (uedge RN)) (acts : uedge RN -> S -> bool) (w : S -> R) (os : S -> list nat).
Hypothesis ND : NoDup E.
Hypothesis NS : NoDup st.
Hypothesis UQ : forall e e' s, In e E -> In e' E -> In s st -> acts e s = true -> acts e' s = true -> e = e'.
Definition rep (e : uedge RN) (s : S) : Prop := In s st /\ acts e s = true /\ weight e = w s /\ obs e = os s.
Hypothesis REP : forall e, In e E -> exists s, rep e s /\ ((forall s', In s' st -> acts e s' = true -> s' = s) \/ (forall s', In s' st -> acts e s' = true -> 0 <= weight e <= w s')).
Hypothesis FREE : forall s, In s st -> (forall e, In e E -> acts e s = false) -> 0 <= w s.

Lemma reps : forall F, NoDup F -> incl F E -> exists L, Forall2 rep F L /\ NoDup L.
Proof.
  intros F N HI. assert (X : exists L, Forall2 rep F L).
  { clear N. induction F as [|e F IH]; [exists []; constructor|]. destruct IH as [L HL]; [intros x Hx; apply HI; now right|]. destruct (REP e (HI e (or_introl eq_refl))) as (s & Hs & _). exists (s :: L). now constructor. }
  destruct X as [L HL]. exists L. split; [exact HL|]. induction HL as [|e s F L H HL IH]; [constructor|]. inversion N as [|? ? Ne N']; subst. constructor; [|apply IH; [exact N'|intros x Hx; apply HI; now right]].
  intros Hs. apply Ne. assert (Z : exists e', In e' F /\ rep e' s).
  { clear - HL Hs. induction HL as [|e' s' F L H HL IH]; [destruct Hs|]. destruct Hs as [->|Hs]; [exists e'; split; [now left|exact H]|]. destruct (IH Hs) as (x & Hx & R). exists x. split; [now right|exact R]. }
  destruct Z as (e' & He' & R'). destruct H as (H1 & H2 & _), R' as (_ & R2 & _). rewrite (UQ e e' s); try assumption; apply HI; [now left|now right].
Qed.
Lemma from_edges : forall F, NoDup F -> incl F E -> exists X : S -> bool,
  fold_right Rplus 0 (map w (filter X st)) = total_weight F /\ length (filter X st) = length F /\
  forall h h', (forall e s, In e E -> rep e s -> h e = h' s) -> xsum h' (filter X st) = xsum h F.
Proof.
  intros F N HI. destruct (reps F N HI) as (L & HL & NL). exists (fun s => existsb (eqS s) L).
  assert (IL : incl L st). { clear - HL. induction HL as [|e s F L H HL IH]; [intros ? []|]. intros x [<-|Hx]; [apply H|now apply IH]. }
  assert (PM : Permutation (filter (fun s => existsb (eqS s) L) st) L).
  { apply NoDup_Permutation; [now apply NoDup_filter|exact NL|]. intros s. rewrite filter_In, existsb_exists. split.
    - intros (_ & x & Hx & Ex). apply eqS_spec in Ex. now subst.
    - intros H. split; [now apply IL|]. exists s. split; [exact H|now apply eqS_spec]. }
  split; [|split].
  - assert (P' : Permutation (map w (filter (fun s => existsb (eqS s) L) st)) (map w L)) by now apply Permutation_map.
    transitivity (fold_right Rplus 0 (map w L)). { clear - P'. induction P'; cbn; try lra. }
    clear - HL. induction HL as [|e s F L H HL IH]; [reflexivity|]. cbn. fold (total_weight F). rewrite IH. destruct H as (_ & _ & -> & _). reflexivity.
  - rewrite (Permutation_length PM). clear - HL. induction HL as [|e s F L H HL IH]; [reflexivity|]. cbn. now rewrite IH.
  - intros h h' Hh. rewrite (xsum_perm _ _ _ _ PM). clear - HL HI Hh. induction HL as [|e s F L H HL IH]; [reflexivity|]. cbn. rewrite IH by (intros x Hx; apply HI; now right). now rewrite (Hh e s (HI e (or_introl eq_refl)) H).
Qed.

Definition odd_edges (Y : S -> bool) : list (uedge RN) := filter (is_odd _ _ acts (filter Y st)) E.
Lemma sum_bound : forall a (u : S -> R) l, (forall s, In s l -> 0 <= a <= u s) -> (if Nat.odd (length l) then a else 0) <= fold_right Rplus 0 (map u l).
Proof.
  intros a u l H. assert (G : forall l, (forall s, In s l -> 0 <= a <= u s) -> 0 <= fold_right Rplus 0 (map u l)).
  { induction l0 as [|s l0 IH]; intros H0; [cbn; lra|]. cbn. pose proof (H0 s (or_introl eq_refl)). assert (0 <= fold_right Rplus 0 (map u l0)) by (apply IH; intros; apply H0; now right). lra. }
  destruct (Nat.odd (length l)) eqn:O; [|now apply G]. destruct l as [|s l]; [discriminate|]. cbn. pose proof (H s (or_introl eq_refl)). pose proof (G l (fun x Hx => H x (or_intror Hx))). lra.
Qed.
Lemma weights_split : forall (wE : uedge RN -> R) (u : S -> R) Y,
  (forall e, In e E -> (if is_odd _ _ acts (filter Y st) e then wE e else 0) <= fold_right Rplus 0 (map u (filter (acts e) (filter Y st)))) ->
  (forall s, In s st -> (forall e, In e E -> acts e s = false) -> 0 <= u s) ->
  fold_right Rplus 0 (map wE (odd_edges Y)) <= fold_right Rplus 0 (map u (filter Y st)).
Proof.
  intros wE u Y HE HF. apply (split_le R 0 Rplus Rle); try (intros; lra).
  - exact ND.
  - intros e e' s He He' Hs. apply UQ; try assumption. now apply filter_In in Hs.
  - exact HE.
  - intros L' HI HN. unfold gsum. induction L' as [|s L' IH]; [cbn; lra|]. cbn. assert (0 <= u s). { apply HF; [|intros e He; apply HN; [now left|exact He]]. assert (In s (filter Y st)) by (apply HI; now left). now apply filter_In in H. }
    assert (0 <= fold_right Rplus 0 (map u L')); [|lra]. apply IH; [intros x Hx; apply HI; now right|]. intros x Hx. apply HN. now right.
Qed.
Lemma odd_weight : forall Y, total_weight (odd_edges Y) <= fold_right Rplus 0 (map w (filter Y st)).
Proof.
  intros Y. assert (TW : forall l, total_weight l = fold_right Rplus 0 (map (fun e : uedge RN => weight e : R) l)) by (induction l as [|e l IH]; [reflexivity|cbn; fold (total_weight l); now rewrite IH]).
  rewrite TW.
  apply weights_split; [|exact FREE]. intros e He. destruct (REP e He) as (s & (R1 & R2 & R3 & R4) & [U|U]).
  - unfold is_odd. assert (N : NoDup (filter (acts e) (filter Y st))) by now apply NoDup_filter, NoDup_filter.
    assert (A1 : forall x, In x (filter (acts e) (filter Y st)) -> x = s). { intros x Hx. apply filter_In in Hx as [Hx Ha]. apply filter_In in Hx as [Hx _]. now apply U. }
    destruct (filter (acts e) (filter Y st)) as [|x [|y l]]; [cbn; lra| |].
    + rewrite (A1 x (or_introl eq_refl)). cbn. rewrite R3. lra.
    + inversion N as [|? ? Nx _]; subst. exfalso. apply Nx. rewrite (A1 x (or_introl eq_refl)), (A1 y (or_intror (or_introl eq_refl))). now left.
  - apply sum_bound. intros x Hx. apply filter_In in Hx as [Hx Ha]. apply filter_In in Hx as [Hx _]. now apply U.
Qed.
Lemma odd_length : forall Y, (length (odd_edges Y) <= length (filter Y st))%nat.
Proof.
  intros Y. apply INR_le. assert (L : forall X (l : list X), INR (length l) = fold_right Rplus 0 (map (fun _ => 1) l)). { intros X l. induction l as [|x l IH]; [reflexivity|]. cbn [length map fold_right]. rewrite S_INR, IH. lra. }
  rewrite !L. apply weights_split; [|intros; lra]. intros e He. apply sum_bound. intros; lra.
Qed.
Lemma odd_parity : forall Y h h', (forall e s, In e E -> In s st -> acts e s = true -> h e = h' s) -> (forall s, In s st -> (forall e, In e E -> acts e s = false) -> h' s = false) ->
  xsum h (odd_edges Y) = xsum h' (filter Y st).
Proof.
  intros Y h h' H1 H2. assert (G : forall X (f : X -> bool) l, xsum f l = gsum bool false xorb f l) by (intros X f l; induction l as [|x l IH]; [reflexivity|]; cbn; now rewrite IH).
  rewrite !G. apply (split_le bool false xorb eq).
  - intros []; reflexivity.
  - intros [] [] []; reflexivity.
  - intros [] []; reflexivity.
  - intros a b c d -> ->. reflexivity.
  - exact ND.
  - intros e e' s He He' Hs. apply UQ; try assumption. now apply filter_In in Hs.
  - intros e He. rewrite <- G. unfold is_odd. assert (A1 : forall x, In x (filter (acts e) (filter Y st)) -> h' x = h e). { intros x Hx. apply filter_In in Hx as [Hx Ha]. apply filter_In in Hx as [Hx _]. symmetry. now apply H1. }
    induction (filter (acts e) (filter Y st)) as [|x l IH]; [reflexivity|]. cbn [xsum length]. rewrite <- IH by (intros y Hy; apply A1; now right). rewrite (A1 x (or_introl eq_refl)), Nat.odd_succ, <- Nat.negb_odd. now destruct (Nat.odd (length l)), (h e).
  - intros L' HI HN. rewrite <- G. symmetry. apply xsum_false. intros s Hs. apply H2; [|now apply HN]. apply HI in Hs. now apply filter_In in Hs.
Qed.
Lemma few_negative : forall N, (forall s, In s st -> w s < 0 -> In s N) -> exists NE, (forall e, In e E -> weight e < 0 -> In e NE) /\ (length NE <= length N)%nat.
Proof.
  intros N HN. exists (filter (fun e : uedge RN => Rltb (weight e) 0) E). split; [intros e He Hw; apply filter_In; split; [exact He|now apply Rltb_true]|].
  destruct (reps (filter (fun e : uedge RN => Rltb (weight e) 0) E)) as (L & HL & NL); [now apply NoDup_filter|intros e He; now apply filter_In in He|].
  assert (Q : length (filter (fun e : uedge RN => Rltb (weight e) 0) E) = length L) by (clear - HL; induction HL; cbn; [reflexivity|now rewrite IHHL]). rewrite Q. apply NoDup_incl_length; [exact NL|].
  assert (NG : forall e, In e (filter (fun e : uedge RN => Rltb (weight e) 0) E) -> weight e < 0) by (intros e He; apply filter_In in He as [_ He]; now apply Rltb_true in He). clear Q.
  induction HL as [|e s F L (H1 & H2 & H3 & H4) HL IH]; [intros ? []|]. intros x [<-|Hx]; [apply HN; [exact H1|rewrite <- H3; apply NG; now left]|]. apply IH; [now inversion NL|intros; apply NG; now right|exact Hx].
Qed.
End Sites.

(** ** The graph of a check matrix *)
Section Calls.
(** With the strategy smallest-weight, the attributes are those of a call of least weight. *)
Lemma effects_smallest_from : forall cs x y old a, (forall c, In c cs -> c_s c = SMALLEST_WEIGHT) -> effects (N := RN) x y (Some old) cs = Some a ->
  (a = old \/ exists c, In c cs /\ same_pair (c_u c) (c_v c) x y = true /\ a = (c_obs c, c_w c, c_p c)) /\
  (snd (fst a) : R) <= snd (fst old) /\ forall c, In c cs -> same_pair (c_u c) (c_v c) x y = true -> (snd (fst a) : R) <= c_w c.
Proof.
  induction cs as [|c cs IH]; intros x y old a HS H.
  - injection H as <-. split; [now left|]. split; [right; reflexivity|intros c []].
  - change (effects x y (effect x y (Some old) c) cs = Some a) in H. unfold effect in H. destruct (same_pair (c_u c) (c_v c) x y) eqn:SP.
    + rewrite (HS c (or_introl eq_refl)) in H. destruct old as [[o w] p]. cbn [merged] in H. destruct (w_ge RN (c_w c) w) eqn:G.
      * destruct (IH x y _ a (fun d Hd => HS d (or_intror Hd)) H) as (I1 & I2 & I3). cbn in G. unfold Rleb in G. destruct (Rle_dec w (c_w c)) as [G'|]; [|discriminate]. clear G. rename G' into G. cbn [fst snd] in *. split; [|split].
        -- destruct I1 as [I1|(d & D1 & D2)]; [now left|right; exists d; split; [now right|exact D2]].
        -- exact I2.
        -- intros d [<-|Hd] Hp; [eapply Rle_trans; [exact I2|exact G]|now apply I3].
      * destruct (IH x y _ a (fun d Hd => HS d (or_intror Hd)) H) as (I1 & I2 & I3). cbn in G. unfold Rleb in G. destruct (Rle_dec w (c_w c)) as [|G']; [discriminate|]. clear G. apply Rnot_le_lt in G'. rename G' into G. cbn [fst snd] in *. split; [|split].
        -- right. destruct I1 as [I1|(d & D1 & D2)]; [exists c; split; [now left|split; [exact SP|exact I1]]|exists d; split; [now right|exact D2]].
        -- eapply Rle_trans; [exact I2|left; exact G].
        -- intros d [<-|Hd] Hp; [exact I2|now apply I3].
    + destruct (IH x y _ a (fun d Hd => HS d (or_intror Hd)) H) as (I1 & I2 & I3). split; [|split; [exact I2|]].
      * destruct I1 as [I1|(d & D1 & D2)]; [now left|right; exists d; split; [now right|exact D2]].
      * intros d [<-|Hd] Hp; [congruence|now apply I3].
Qed.
Lemma effects_smallest : forall cs x y a, (forall c, In c cs -> c_s c = SMALLEST_WEIGHT) -> effects (N := RN) x y None cs = Some a ->
  exists c, In c cs /\ same_pair (c_u c) (c_v c) x y = true /\ a = (c_obs c, c_w c, c_p c) /\ forall d, In d cs -> same_pair (c_u d) (c_v d) x y = true -> (c_w c : R) <= c_w d.
Proof.
  induction cs as [|c cs IH]; intros x y a HS H; [discriminate|]. change (effects x y (effect x y None c) cs = Some a) in H. unfold effect in H. destruct (same_pair (c_u c) (c_v c) x y) eqn:SP.
  - destruct (effects_smallest_from cs x y _ a (fun d Hd => HS d (or_intror Hd)) H) as (I1 & I2 & I3). cbn [fst snd] in *. destruct I1 as [->|(d & D1 & D2 & ->)].
    + exists c. split; [now left|]. split; [exact SP|]. split; [reflexivity|]. intros d [<-|Hd] Hp; [right; reflexivity|]. exact (I3 d Hd Hp).
    + exists d. split; [now right|]. split; [exact D2|]. split; [reflexivity|]. intros d' [<-|Hd] Hp; [exact I2|]. exact (I3 d' Hd Hp).
  - destruct (IH x y a (fun d Hd => HS d (or_intror Hd)) H) as (d & D1 & D2 & D3 & D4). exists d. split; [now right|]. split; [exact D2|]. split; [exact D3|]. intros d' [<-|Hd] Hp; [congruence|now apply D4].
Qed.
Lemma effects_some : forall (cs : list (call RN)) x y c, In c cs -> same_pair (c_u c) (c_v c) x y = true -> effects x y None cs <> None.
Proof.
  assert (G : forall (cs : list (call RN)) x y a, effects x y (Some a) cs <> None).
  { induction cs as [|c cs IH]; intros x y a; [discriminate|]. change (effects x y (effect x y (Some a) c) cs <> None). unfold effect. destruct (same_pair _ _ _ _); apply IH. }
  induction cs as [|c cs IH]; intros x y d Hd SP; [destruct Hd|]. change (effects x y (effect x y None c) cs <> None). unfold effect. destruct Hd as [->|Hd].
  - rewrite SP. apply G.
  - destruct (same_pair (c_u c) (c_v c) x y); [apply G|exact (IH x y d Hd SP)].
Qed.
End Calls.

Lemma nodup_app : forall (X : Type) (l m : list X), NoDup l -> NoDup m -> (forall x, In x l -> In x m -> False) -> NoDup (l ++ m).
Proof.
  induction l as [|a l IH]; intros m H1 H2 D; [exact H2|]. inversion H1; subst. cbn. constructor; [|apply IH; [assumption|assumption|intros x Hx; apply D; now right]].
  rewrite in_app_iff. intros [H|H]; [contradiction|]. exact (D a (or_introl eq_refl) H).
Qed.
Lemma nodup_prod : forall A B (l : list A) (l' : list B), NoDup l -> NoDup l' -> NoDup (list_prod l l').
Proof.
  intros A B l l' H H'. induction H as [|a l Na H IH]; [constructor|]. cbn [list_prod]. apply nodup_app; [|exact IH|].
  - apply FinFun.Injective_map_NoDup; [intros y y' E; now injection E|exact H'].
  - intros [b c] H1 H2. apply in_map_iff in H1 as (y & E & _). injection E as <- <-. apply in_prod_iff in H2 as [H2 _]. contradiction.
Qed.
Lemma nth_of : forall A (l : list A) i a d, nth_error l i = Some a -> nth i l d = a /\ (i < length l)%nat.
Proof. intros A l i a d H. split; [now apply nth_error_nth|apply nth_error_Some; congruence]. Qed.
Lemma nth_some : forall A (l : list A) i d, (i < length l)%nat -> nth_error l i = Some (nth i l d).
Proof. intros A l i d H. now apply nth_error_nth'. Qed.

Section Matrix.
Variables (rows reps fr : nat) (cols faults : list (list nat)) (ws ps : list R) (str : strategy) (virtual : bool) (tws mes : option (list R)) (g : ugraph RN) (M : R).
Let tw : list R := match tws with Some t => t | None => [] end.
Hypothesis LD : load_check_matrix (N := RN) rows cols faults fr ws ps str virtual reps tws mes = Ok g.
Hypothesis SM : sound_matrix rows reps cols faults ws tw str fr M.

Definition site_pair (x : site) : option (nat * option nat) :=
  match x with Flip t i => layer_pair rows reps virtual t (nth i cols []) | Wrong t r => Some (t * rows + r, Some (S t * rows + r))%nat end.
Definition site_obs (x : site) : list nat := match x with Flip _ i => nth i faults [] | Wrong _ _ => [] end.
Definition touches (e : uedge RN) (x : site) : bool := match site_pair x with Some (u, v) => same_pair u v (node1 e) (node2 e) | None => false end.
Definition site_eqb (x y : site) : bool :=
  match x, y with Flip t i, Flip t' i' => (t =? t')%nat && (i =? i')%nat | Wrong t i, Wrong t' i' => (t =? t')%nat && (i =? i')%nat | _, _ => false end.
Lemma site_eqb_spec : forall a b, site_eqb a b = true <-> a = b.
Proof. intros [t i|t i] [t' i'|t' i']; cbn; rewrite ?andb_true_iff, ?Nat.eqb_eq; split; try discriminate; [intros [-> ->]; reflexivity|intros H; injection H as -> ->; auto|intros [-> ->]; reflexivity|intros H; injection H as -> ->; auto]. Qed.
Notation st := (sites rows reps (length cols)).
Notation sw := (site_weight ws tw).
Lemma st_in : forall x, In x st <-> match x with Flip t i => (t < reps)%nat /\ (i < length cols)%nat | Wrong t r => (S t < reps)%nat /\ (r < rows)%nat end.
Proof.
  intros x. unfold sites. rewrite in_app_iff, !in_map_iff. split.
  - intros [([t i] & <- & H)|([t i] & <- & H)]; apply in_prod_iff in H; rewrite !in_seq in H; cbn [fst snd]; lia.
  - destruct x as [t i|t i]; intros H; [left|right]; exists (t, i); (split; [reflexivity|]); apply in_prod_iff; rewrite !in_seq; lia.
Qed.
Lemma st_NoDup : NoDup st.
Proof.
  unfold sites. apply nodup_app.
  - apply FinFun.Injective_map_NoDup; [intros [a b] [a' b'] E; injection E as -> ->; reflexivity|apply nodup_prod; apply seq_NoDup].
  - apply FinFun.Injective_map_NoDup; [intros [a b] [a' b'] E; injection E as -> ->; reflexivity|apply nodup_prod; apply seq_NoDup].
  - intros x H1 H2. apply in_map_iff in H1 as (p & <- & _). apply in_map_iff in H2 as (q & E & _). discriminate.
Qed.

Definition call_of (x : site) (c : call RN) : Prop := site_pair x = Some (c_u c, c_v c) /\ c_w c = sw x /\ c_obs c = site_obs x /\ c_s c = str.
Lemma graph_calls : exists cs, (forall c, In c cs -> exists x, In x st /\ call_of x c) /\
  (forall x u v, In x st -> site_pair x = Some (u, v) -> exists c, In c cs /\ call_of x c) /\
  let g2 := do_calls (new_graph RN (rows * reps) fr) cs in
  g = if negb virtual && (length (nodes g2) =? rows * reps + 1)%nat then set_boundary g2 [rows * reps]%nat else g2.
Proof.
  destruct (load_check_matrix_calls (N := RN) rows cols faults fr ws ps str virtual reps tws mes g LD) as (L1 & L2 & L3 & HT & _ & t0 & m0 & Htm & Eg).
  exists (all_calls rows (zip (N := RN) cols faults ws ps) str virtual reps t0 m0). unfold all_calls. split; [|split; [|exact Eg]].
  - intros c Hc. apply in_app_or in Hc as [Hc|Hc].
    + apply in_flat_map in Hc as (t & Ht & Hc). apply in_flat_map in Hc as ([[[rs fs] w] p] & Hz & Hc). apply In_nth_error in Hz as [i Hz]. apply zip_nth in Hz; try assumption.
      destruct Hz as (Z1 & Z2 & Z3 & Z4). cbn [col_calls] in Hc. destruct (layer_pair rows reps virtual t rs) as [[u v]|] eqn:E; [|destruct Hc]. destruct Hc as [<-|[]].
      exists (Flip t i). apply (nth_of _ _ _ _ []) in Z1 as [Z1 Z1']. apply (nth_of _ _ _ _ []) in Z2 as [Z2 _]. apply (nth_of _ _ _ _ 0) in Z3 as [Z3 _]. rewrite st_in. apply in_seq in Ht.
      split; [lia|]. unfold call_of. cbn. rewrite Z1, Z2, Z3. auto.
    + destruct (Nat.ltb_spec 1 reps) as [Hr|Hr]; [|destruct Hc]. destruct (Htm Hr) as [T1 T2]. destruct (HT Hr) as (t1 & m1 & T3 & T4 & T5 & T6). assert (t1 = t0) by congruence. assert (m1 = m0) by congruence. subst t1 m1.
      apply in_flat_map in Hc as (t & Ht & Hc). apply in_flat_map in Hc as ([row [w p]] & Hz & Hc). apply In_nth_error in Hz as [i Hz]. apply combine_nth_seq in Hz; try assumption. destruct Hz as (-> & Z1 & Z2).
      destruct Hc as [<-|[]]. exists (Wrong t i). apply (nth_of _ _ _ _ 0) in Z1 as [Z1 Z1']. assert (Hi : (i < rows)%nat) by (rewrite <- T5; exact Z1'). rewrite st_in. apply in_seq in Ht. split; [lia|]. unfold call_of. cbn. unfold tw. rewrite T1, Z1. auto.
  - intros [t i|t r] u v Hx Hp; apply st_in in Hx.
    + exists (mkCall (N := RN) u v (nth i faults []) (nth i ws 0) (nth i ps 0) str). split; [|unfold call_of; cbn; auto].
      apply in_or_app. left. apply in_flat_map. exists t. split; [apply in_seq; lia|]. apply in_flat_map. exists (nth i cols [], nth i faults [], nth i ws 0, nth i ps 0). split.
      * apply (nth_error_In _ i). apply (proj2 (zip_nth (N := RN) cols faults ws ps i (nth i cols []) (nth i faults []) (nth i ws 0) (nth i ps 0) L1 L2 L3)). repeat split; apply nth_some; [lia|rewrite L3; lia| |]; first [eapply Nat.lt_le_trans; [|apply Nat.eq_le_incl; symmetry; exact L1]; lia | eapply Nat.lt_le_trans; [|apply Nat.eq_le_incl; symmetry; exact L2]; lia].
      * cbn [col_calls]. cbn [site_pair] in Hp. rewrite Hp. now left.
    + assert (Hr : (1 < reps)%nat) by lia. destruct (Htm Hr) as [T1 T2]. destruct (HT Hr) as (t1 & m1 & T3 & T4 & T5 & T6). assert (t1 = t0) by congruence. assert (m1 = m0) by congruence. subst t1 m1.
      injection Hp as <- <-. exists (mkCall (N := RN) (t * rows + r) (Some (S t * rows + r)) [] (nth r t0 0%R) (nth r m0 0%R) str)%nat. split; [|unfold call_of; cbn; unfold tw; rewrite T1; auto].
      apply in_or_app. right. apply Nat.ltb_lt in Hr. rewrite Hr. apply in_flat_map. exists t. split; [apply in_seq; lia|]. apply in_flat_map. exists (r, (nth r t0 0, nth r m0 0)). split; [|now left].
      apply (nth_error_In _ r). apply (proj2 (combine_nth_seq (N := RN) rows t0 m0 r r (nth r t0 0) (nth r m0 0) T5 T6)). split; [reflexivity|]. split; apply nth_some; [eapply Nat.lt_le_trans; [|apply Nat.eq_le_incl; symmetry; exact T5]|eapply Nat.lt_le_trans; [|apply Nat.eq_le_incl; symmetry; exact T6]]; lia.
Qed.

Lemma matrix_inv : Inv g.
Proof. destruct graph_calls as (cs & _ & _ & ->). pose proof (proj1 (calls_effect cs (new_graph RN (rows * reps) fr) (new_inv _ _))) as I. destruct (_ && _); [now apply set_boundary_inv|exact I]. Qed.
Lemma matrix_flags : flags_ok RN g.
Proof. destruct graph_calls as (cs & _ & _ & ->). pose proof (calls_flags cs (new_graph RN (rows * reps) fr) (flags_new RN _ _)) as I. destruct (_ && _); [now apply flags_boundary|exact I]. Qed.
Lemma matrix_nobs : nobs g = fr.
Proof.
  destruct graph_calls as (cs & HC & _ & ->). assert (I : nobs (do_calls (new_graph RN (rows * reps) fr) cs) = fr).
  { rewrite calls_nobs; [reflexivity|]. intros c k Hc Hk. destruct (HC c Hc) as (x & Hx & _ & _ & Ho & _). rewrite Ho in Hk. cbn. destruct x as [t i|t r]; [|destruct Hk]. cbn in Hk. destruct SM as (_ & S2 & _).
    destruct (nth_in_or_default i faults []) as [Hf|Hf]; [exact (S2 _ k Hf Hk)|rewrite Hf in Hk; destruct Hk]. }
  destruct (_ && _); [|exact I]. destruct (set_boundary_props (do_calls (new_graph RN (rows * reps) fr) cs) [rows * reps]%nat) as (_ & -> & _). exact I.
Qed.
Lemma matrix_bounds : (bnodes g = [rows * reps]%nat /\ num_nodes g = (rows * reps + 1)%nat) \/ (bnodes g = [] /\ num_nodes g = (rows * reps)%nat).
Proof.
  destruct (check_matrix_boundary (N := RN) rows cols faults fr ws ps str virtual reps tws mes g LD) as [B1 B2]; [exact (proj1 SM)|].
  assert (D : forall l : list (list nat), (exists r, In [r] l) \/ ~ exists r, In [r] l).
  { induction l as [|c l IH]; [right; intros (r & [])|]. destruct c as [|r [|]]; [|left; exists r; now left|]; (destruct IH as [(r' & H)|H]; [left; exists r'; now right|right; intros (r' & [E|E]); [discriminate|apply H; now exists r']]). }
  destruct (D cols) as [D'|D'].
  - destruct virtual eqn:V; [right; apply B2; intros (? & _); discriminate|]. destruct (Nat.eq_dec reps 0) as [R0|R0]; [right; apply B2; intros (_ & H & _); lia|]. left. apply B1. split; [reflexivity|]. split; [lia|exact D'].
  - right. apply B2. intros (_ & _ & H). contradiction.
Qed.

Lemma touches_joins : forall e x u v, site_pair x = Some (u, v) -> (touches e x = true <-> joins e u v).
Proof. intros e x u v H. unfold touches. rewrite H, same_pair_spec. unfold joins. split; intros [[H1 H2]|[H1 H2]]; [left|right|left|right]; split; congruence. Qed.
Lemma touches_unique : forall e e' x, In e (edges g) -> In e' (edges g) -> In x st -> touches e x = true -> touches e' x = true -> e = e'.
Proof.
  intros e e' x He He' _ H H'. destruct (site_pair x) as [[u v]|] eqn:E; [|unfold touches in H; rewrite E in H; discriminate]. apply (touches_joins e x u v E) in H. apply (touches_joins e' x u v E) in H'.
  exact (joined_same g matrix_inv e e' He He' (joins_eq e e' u v H H')).
Qed.
Lemma cols_good : forall i, good rows (nth i cols []).
Proof. intros i r Hr. destruct (nth_in_or_default i cols []) as [H|H]; [exact (proj1 SM _ r H Hr)|rewrite H in Hr; destruct Hr]. Qed.
Lemma touches_flip : forall e t i, touches e (Flip t i) = true -> column_joins rows reps virtual t (nth i cols []) (node1 e) (node2 e).
Proof. intros e t i H. unfold touches in H. cbn [site_pair] in H. destruct (layer_pair rows reps virtual t (nth i cols [])) as [[u v]|] eqn:E; [|discriminate]. apply same_pair_spec in H. exists u, v. split; [exact E|exact H]. Qed.
Lemma touches_wrong : forall e t r, touches e (Wrong t r) = true -> time_joins rows t r (node1 e) (node2 e).
Proof. intros e t r H. unfold touches in H. cbn [site_pair] in H. apply same_pair_spec in H. destruct H as [[A B]|[A B]]; [left|right]; split; congruence. Qed.
Lemma joins_flip : forall e t i, column_joins rows reps virtual t (nth i cols []) (node1 e) (node2 e) -> touches e (Flip t i) = true.
Proof. intros e t i (u & v & E & H). unfold touches. cbn [site_pair]. rewrite E. now apply same_pair_spec. Qed.
Lemma joins_wrong : forall e t r, time_joins rows t r (node1 e) (node2 e) -> touches e (Wrong t r) = true.
Proof. intros e t r H. unfold touches. cbn [site_pair]. apply same_pair_spec. destruct H as [[A B]|[A B]]; [left|right]; split; congruence. Qed.
Lemma wrong_alone : forall e t r x, In (Wrong t r) st -> In x st -> touches e (Wrong t r) = true -> touches e x = true -> x = Wrong t r.
Proof.
  intros e t r x H Hx T T'. apply st_in in H. apply touches_wrong in T. destruct x as [t' i|t' r']; apply st_in in Hx.
  - exfalso. exact (column_time_disjoint rows reps virtual t' t (nth i cols []) r _ _ (cols_good i) (proj1 Hx) (proj1 H) (proj2 H) (touches_flip e t' i T') T).
  - destruct (time_unique rows t' t r' r _ _ (proj2 Hx) (proj2 H) (touches_wrong e t' r' T') T) as [-> ->]. reflexivity.
Qed.
Lemma matrix_data : exists cs, (forall c, In c cs -> exists x, In x st /\ call_of x c) /\ (forall x u v, In x st -> site_pair x = Some (u, v) -> exists c, In c cs /\ call_of x c) /\
  forall x y, get_edge_data g x y = effects x y None cs.
Proof.
  destruct graph_calls as (cs & H1 & H2 & Eg). exists cs. split; [exact H1|]. split; [exact H2|]. intros x y. destruct (calls_effect cs (new_graph RN (rows * reps) fr) (new_inv _ _)) as (I & D & _ & _).
  rewrite Eg. cbv zeta. destruct (_ && _); [rewrite set_boundary_data by exact I|]; rewrite D; f_equal; apply data_none; [apply new_inv| | apply new_inv|]; intros e [].
Qed.
Lemma matrix_rep : forall e, In e (edges g) -> exists x, rep _ st touches sw site_obs e x /\
  ((forall x', In x' st -> touches e x' = true -> x' = x) \/ (forall x', In x' st -> touches e x' = true -> 0 <= weight e <= sw x')).
Proof.
  intros e He. pose proof (edge_data_exists g e matrix_inv He) as D. destruct SM as (_ & _ & _ & _ & _ & [S6|[S6 S7]] & _).
  - apply (check_matrix_exact (N := RN) rows cols faults fr ws ps str virtual reps tws mes g LD (proj1 SM) S6) in D.
    destruct D as [(t & i & rs & fs & w & p & Ht & C1 & C2 & C3 & C4 & J & Ea)|(t & r & t1 & m1 & w & p & Ht & T1 & T2 & C3 & C4 & J & Ea)]; injection Ea as E1 E2 E3.
    + apply (nth_of _ _ _ _ []) in C1 as [C1 C1']. apply (nth_of _ _ _ _ []) in C2 as [C2 C2']. apply (nth_of _ _ _ _ 0) in C3 as [C3 C3']. subst rs. apply joins_flip in J.
      assert (Hin : In (Flip t i) st) by (apply st_in; lia). exists (Flip t i). split; [split; [exact Hin|]; split; [exact J|]; cbn; rewrite C2, C3; auto|]. left. intros x Hx Tx. destruct x as [t' j|t' r'].
      * apply st_in in Hx. apply touches_flip in J. apply touches_flip in Tx. destruct (column_unique rows reps virtual t t' _ _ _ _ (cols_good i) (cols_good j) Ht (proj1 Hx) J Tx) as [-> SS]. f_equal.
        symmetry. apply (S6 i j (nth i cols []) (nth j cols [])); [now apply nth_some|apply nth_some; lia| |exact SS]. intros Z. destruct J as (u & v & LP & _). rewrite Z in LP. discriminate.
      * symmetry. exact (wrong_alone e t' r' (Flip t i) Hx Hin Tx J).
    + apply (nth_of _ _ _ _ 0) in C3 as [C3 C3']. apply joins_wrong in J. destruct (load_check_matrix_calls (N := RN) rows cols faults fr ws ps str virtual reps tws mes g LD) as (_ & _ & _ & HT & _).
      destruct (HT ltac:(lia)) as (t2 & m2 & T3 & _ & T5 & _). assert (Hr : (r < rows)%nat) by (rewrite <- T5; replace t2 with t1 by congruence; exact C3').
      assert (Hin : In (Wrong t r) st) by (apply st_in; lia). exists (Wrong t r). split; [split; [exact Hin|]; split; [exact J|]; cbn; unfold tw; rewrite T1, C3; auto|]. left. intros x Hx Tx. exact (wrong_alone e t r x Hin Hx J Tx).
  - destruct matrix_data as (cs & H1 & H2 & HD). pose proof (eq_trans (eq_sym (HD _ _)) D) as D'. apply effects_smallest in D'. 2: { intros c Hc. destruct (H1 c Hc) as (x & _ & _ & _ & _ & Es). congruence. }
    destruct D' as (c & Hc & SP & Ea & LE). injection Ea as E1 E2 E3. destruct (H1 c Hc) as (x & Hx & C1 & C2 & C3 & C4).
    assert (T : touches e x = true) by (unfold touches; rewrite C1; exact SP). exists x. split; [split; [exact Hx|]; split; [exact T|]; split; congruence|].
    destruct x as [t i|t r]; [right|left; intros x' Hx' T'; exact (wrong_alone e t r x' Hx Hx' T T')]. intros x' Hx' T'. split.
    + rewrite E2, C2. cbn [site_weight]. destruct (nth_in_or_default i ws 0) as [Hw|Hw]; [now apply S7|rewrite Hw; apply Rle_refl].
    + destruct (site_pair x') as [[u v]|] eqn:P'; [|unfold touches in T'; rewrite P' in T'; discriminate]. destruct (H2 x' u v Hx' P') as (d & Hd & D1 & D2 & _). rewrite E2, <- D2. apply LE; [exact Hd|].
      unfold touches in T'. rewrite D1 in T'. exact T'.
Qed.
Lemma untouched : forall x, In x st -> (forall e, In e (edges g) -> touches e x = false) -> exists t i, x = Flip t i /\ nth i cols [] = [].
Proof.
  intros x Hx H. destruct matrix_data as (cs & H1 & H2 & HD). destruct (site_pair x) as [[u v]|] eqn:P'.
  - exfalso. destruct (H2 x u v Hx P') as (c & Hc & C1 & _). assert (Q : get_edge_data g u v <> None).
    { rewrite HD. apply (effects_some cs u v c Hc). rewrite P' in C1. injection C1 as -> ->. apply same_pair_spec. now left. }
    destruct (get_edge_data g u v) as [a|] eqn:D; [|congruence]. apply (get_edge_data_spec (N := RN) g u v a matrix_inv) in D. destruct D as (e & He & J & _). apply (touches_joins e x u v P') in J. rewrite (H e He) in J. discriminate.
  - destruct x as [t i|t r]; [|discriminate]. exists t, i. split; [reflexivity|]. cbn in P'. destruct (load_check_matrix_calls (N := RN) rows cols faults fr ws ps str virtual reps tws mes g LD) as (_ & _ & _ & _ & HC & _).
    apply st_in in Hx. specialize (HC ltac:(lia) (nth i cols []) (nth_In cols [] (proj2 Hx))). destruct (nth i cols []) as [|a [|b [|c l]]]; try discriminate; [reflexivity|cbn in HC; lia].
Qed.
Lemma matrix_free : forall x, In x st -> (forall e, In e (edges g) -> touches e x = false) -> 0 <= sw x.
Proof.
  intros x Hx H. destruct (untouched x Hx H) as (t & i & -> & E). cbn. destruct SM as (_ & _ & _ & _ & S5 & _). apply S5. rewrite <- E. apply nth_some. apply st_in in Hx. lia.
Qed.

Lemma edge_shape : forall e, In e (edges g) -> exists u v, joins e u v /\ (u < rows * reps)%nat /\
  match v with None => virtual = true | Some b => (b < rows * reps)%nat \/ (b = (rows * reps)%nat /\ virtual = false) end.
Proof.
  intros e He. destruct (matrix_rep e He) as (x & (Hx & T & _) & _). destruct (site_pair x) as [[u v]|] eqn:P'; [|unfold touches in T; rewrite P' in T; discriminate]. apply (touches_joins e x u v P') in T.
  exists u, v. split; [exact T|]. apply st_in in Hx. destruct x as [t i|t r].
  - cbn in P'. pose proof (cols_good i) as G. destruct (nth i cols []) as [|a [|b [|c l]]]; try discriminate; injection P' as <- <-; pose proof (G a (or_introl eq_refl)); pose proof (lay_lt rows t reps a (proj1 Hx) H).
    + split; [lia|]. destruct virtual; [reflexivity|]. right. split; [lia|reflexivity].
    + pose proof (lay_lt rows t reps b (proj1 Hx) (G b (or_intror (or_introl eq_refl)))). split; [lia|]. left. lia.
  - injection P' as <- <-. pose proof (lay_lt rows t reps r ltac:(lia) (proj2 Hx)). pose proof (lay_lt rows (S t) reps r (proj1 Hx) (proj2 Hx)). split; [lia|]. left. lia.
Qed.
Lemma bnodes_virtual : bnodes g <> [] -> virtual = false.
Proof.
  intros H. destruct (check_matrix_boundary (N := RN) rows cols faults fr ws ps str virtual reps tws mes g LD) as [_ B2]; [exact (proj1 SM)|]. destruct virtual eqn:V; [|reflexivity]. exfalso. apply H, B2. intros (? & _). discriminate.
Qed.
Lemma matrix_harmless : conversion_harmless g.
Proof.
  split.
  - intros e He HB HA. exfalso. destruct (edge_shape e He) as (u & v & J & Hu & Hv). destruct matrix_bounds as [[B _]|[B _]]; unfold at_boundary in HA; rewrite B in HB, HA; [|destruct HB]. destruct HB as [HB|[]].
    destruct J as [[J1 J2]|[J1 J2]]; [lia|]. rewrite J2 in HA. destruct HA as [HA|[]]. lia.
  - intros e f u He Hf NE [U1 H1] [_ H2]. exfalso. apply NE. apply (joined_same g matrix_inv e f He Hf).
    destruct matrix_bounds as [[B _]|[B _]].
    + assert (V : virtual = false) by (apply bnodes_virtual; rewrite B; discriminate).
      assert (W : forall e, In e (edges g) -> (node1 e = u /\ at_boundary g (node2 e)) \/ (node2 e = Some u /\ In (node1 e) (bnodes g)) -> joins e u (Some (rows * reps)%nat)).
      { intros e' He' [[A1 A2]|[A1 A2]].
        - left. split; [exact A1|]. unfold at_boundary in A2. rewrite B in A2. destruct (node2 e') as [b|] eqn:E2; [destruct A2 as [<-|[]]; reflexivity|]. destruct (edge_shape e' He') as (x & y & J & _ & Hy).
          destruct J as [[_ J]|[_ J]]; [|rewrite E2 in J; discriminate]. rewrite E2 in J. subst y. congruence.
        - right. rewrite B in A2. destruct A2 as [A2|[]]. split; [now rewrite A2|exact A1]. }
      exact (joins_eq e f u (Some (rows * reps)%nat) (W e He H1) (W f Hf H2)).
    + destruct H1 as [[A1 A2]|[_ A2]]; [|rewrite B in A2; destruct A2]. destruct H2 as [[B1 B2]|[_ B2]]; [|rewrite B in B2; destruct B2]. unfold at_boundary in *. rewrite B in *.
      assert (node2 e = None) by (destruct (node2 e); [destruct A2|reflexivity]). assert (node2 f = None) by (destruct (node2 f); [destruct B2|reflexivity]). left. split; congruence.
Qed.
Lemma matrix_weights : forall e, In e (edges g) -> Rabs (weight e) <= M.
Proof. intros e He. destruct (matrix_rep e He) as (x & (Hx & _ & -> & _) & _). destruct SM as (_ & _ & S3 & _). now apply S3. Qed.
Lemma matrix_fits : fits (new_matching g) g.
Proof. apply new_fits; [exact matrix_inv|exact matrix_flags|]. intros e He. cbn. apply Rltb_false. eapply Rle_trans; [now apply matrix_weights|apply SM]. Qed.
Lemma matrix_ids : fault_ids_in_range g.
Proof.
  intros e k He Hk. rewrite matrix_nobs. destruct (matrix_rep e He) as (x & (Hx & _ & _ & Ho) & _). rewrite Ho in Hk. destruct x as [t i|t r]; [|destruct Hk]. cbn in Hk. destruct SM as (_ & S2 & _).
  destruct (nth_in_or_default i faults []) as [Hf|Hf]; [exact (S2 _ k Hf Hk)|rewrite Hf in Hk; destruct Hk].
Qed.
Lemma matrix_scalable : scalable g.
Proof.
  assert (W : forall e, In e (edges g) -> weight e = 0 \/ / IZR (2 ^ 999) <= Rabs (weight e)).
  { intros e He. destruct (matrix_rep e He) as (x & (Hx & _ & -> & _) & _). destruct SM as (_ & _ & _ & _ & _ & _ & S7). now apply S7. }
  unfold scalable. revert W. generalize (edges g). induction l as [|e l IH]; intros W; [left; intros e []|]. destruct (W e (or_introl eq_refl)) as [Z|Z]; [|right; exists e; split; [now left|exact Z]].
  destruct (IH (fun f Hf => W f (or_intror Hf))) as [H|(f & Hf & H)]; [left|right; exists f; split; [now right|exact H]]. intros f [<-|Hf]; auto.
Qed.
Lemma matrix_usable : usable g.
Proof. split; [exact matrix_ids|]. split; [exact matrix_scalable|exact matrix_harmless]. Qed.

Definition at_node (n : nat) (p : nat * option nat) : bool := xorb (fst p =? n)%nat (match snd p with Some x => (x =? n)%nat | None => false end).
Lemma ends_joins : forall e u v n, joins e u v -> Nat.odd (edge_ends n e) = at_node n (u, v).
Proof.
  intros e u v n J. unfold edge_ends, at_node. rewrite Nat.odd_add. cbn [fst snd]. assert (O : forall b : bool, Nat.odd (if b then 1 else 0) = b) by (intros []; reflexivity).
  destruct J as [[-> ->]|[-> J2]].
  - rewrite O. f_equal. destruct v as [x|]; [apply O|reflexivity].
  - rewrite J2, !O. apply xorb_comm.
Qed.
Lemma lay_eqb : forall t t' r r', (r < rows)%nat -> (r' < rows)%nat -> ((t * rows + r =? t' * rows + r') = (t =? t') && (r =? r'))%nat.
Proof.
  intros t t' r r' H H'. destruct (Nat.eqb_spec (t * rows + r) (t' * rows + r')) as [E|E].
  - apply lay_inj in E as [-> ->]; try assumption. now rewrite !Nat.eqb_refl.
  - symmetry. apply andb_false_iff. destruct (Nat.eqb_spec t t') as [->|]; [|now left]. right. apply Nat.eqb_neq. intros ->. now apply E.
Qed.
Lemma odd_count_two : forall r a b, odd_count r [a; b] = xorb (a =? r)%nat (b =? r)%nat.
Proof. intros r a b. rewrite !odd_count_cons, (Nat.eqb_sym r a), (Nat.eqb_sym r b). change (odd_count r []) with false. now rewrite xorb_false_r. Qed.
Lemma odd_count_one : forall r a, odd_count r [a] = (a =? r)%nat.
Proof. intros r a. rewrite !odd_count_cons, (Nat.eqb_sym r a). change (odd_count r []) with false. now rewrite xorb_false_r. Qed.
Lemma changes_ends : forall t r e x, (t < reps)%nat -> (r < rows)%nat -> In x st -> touches e x = true -> Nat.odd (edge_ends (t * rows + r) e) = changes cols t r x.
Proof.
  intros t r e x Ht Hr Hx T. destruct (site_pair x) as [[u v]|] eqn:P'; [|unfold touches in T; rewrite P' in T; discriminate]. apply (touches_joins e x u v P') in T. rewrite (ends_joins e u v _ T). clear T. unfold at_node. cbn [fst snd].
  apply st_in in Hx. destruct x as [t' i|t' r']; cbn [site_pair changes] in *.
  - pose proof (cols_good i) as G. destruct (nth i cols []) as [|a [|b [|c l]]]; try discriminate; injection P' as <- <-; pose proof (G a (or_introl eq_refl)) as Ga.
    + rewrite odd_count_one, lay_eqb by assumption. destruct virtual; [now rewrite xorb_false_r|]. pose proof (lay_lt rows t reps r Ht Hr). assert ((reps * rows =? t * rows + r)%nat = false) as -> by (apply Nat.eqb_neq; lia). now rewrite xorb_false_r.
    + pose proof (G b (or_intror (or_introl eq_refl))) as Gb. rewrite odd_count_two, !lay_eqb by assumption. destruct (t' =? t)%nat; reflexivity.
  - injection P' as <- <-. change (rows + t' * rows + r')%nat with (S t' * rows + r')%nat. rewrite !lay_eqb by (assumption || lia).
    destruct (Nat.eqb_spec r' r) as [->|]; [|now rewrite !andb_false_r]. rewrite !andb_true_r. cbn [andb]. destruct (Nat.eqb_spec t' t) as [->|]; [|now destruct (S t' =? t)%nat]. destruct (Nat.eqb_spec (S t) t); [lia|reflexivity].
Qed.
Definition used_edges (h : site -> bool) : list (uedge RN) := odd_edges site st (edges g) touches h.
Lemma used_detection : forall h t r, (t < reps)%nat -> (r < rows)%nat -> Nat.odd (total_degree (t * rows + r) (used_edges h)) = detection rows reps cols t r h.
Proof.
  intros h t r Ht Hr. rewrite degree_xsum. unfold detection, happening. rewrite odd_xsum. unfold used_edges. apply odd_parity.
  - exact (edges_NoDup g matrix_inv).
  - exact touches_unique.
  - intros e x He Hx T. now apply changes_ends.
  - intros x Hx H. destruct (untouched x Hx H) as (t' & i & -> & E). cbn. rewrite E. apply andb_false_r.
Qed.
Lemma used_corrects : forall h P evs, explains rows reps cols P h -> (forall v, In v evs <-> P v) -> (forall v, In v evs -> (v < num_nodes g)%nat) -> corrects g (used_edges h) evs.
Proof.
  intros h P evs EX HE HB. split; [apply NoDup_filter; exact (edges_NoDup g matrix_inv)|]. split; [intros e He; now apply filter_In in He|]. intros v Hv.
  destruct (le_lt_dec (rows * reps) v) as [L|L].
  - assert (OUT : (num_nodes g <= v)%nat). { destruct matrix_bounds as [[B N]|[B N]]; rewrite N; [|exact L]. rewrite B in Hv. destruct (Nat.eq_dec v (rows * reps)) as [->|]; [exfalso; apply Hv; now left|lia]. }
    split; intros H; [|specialize (HB v H); lia]. exfalso. destruct (odd_touches v _ H) as (e & He & Hn). apply filter_In in He as [He _]. pose proof matrix_inv as (_ & HN & _). destruct (HN e He) as [N1 N2]. unfold num_nodes in OUT.
    unfold edge_ends in Hn. destruct (Nat.eqb_spec (node1 e) v) as [<-|]; [lia|]. destruct (node2 e) as [x|]; [|contradiction]. destruct (Nat.eqb_spec x v) as [<-|]; [|contradiction]. specialize (N2 x eq_refl). lia.
  - assert (R0 : rows <> 0%nat) by lia. pose proof (Nat.div_mod v rows R0) as D. pose proof (Nat.mod_upper_bound v rows R0) as U.
    assert (T : (v / rows < reps)%nat) by (apply Nat.div_lt_upper_bound; [exact R0|exact L]). replace v with (v / rows * rows + v mod rows)%nat at 1 by lia. rewrite used_detection by assumption. rewrite (EX _ _ T U), HE. replace (v / rows * rows + v mod rows)%nat with v by lia. reflexivity.
Qed.
Lemma used_small : forall h, (length (used_edges h) <= length (happening rows reps cols h))%nat.
Proof. intros h. apply odd_length; [exact (edges_NoDup g matrix_inv)|exact touches_unique]. Qed.
Lemma used_weight : forall h, total_weight (used_edges h) <= cost rows reps cols ws tw h.
Proof. intros h. apply (odd_weight site st (edges g) touches sw site_obs); [exact (edges_NoDup g matrix_inv)|exact st_NoDup|exact touches_unique|exact matrix_rep|exact matrix_free]. Qed.

Lemma row_cheapest : forall P row w, right_row g P row w -> cheapest rows reps cols faults ws tw fr M P row w.
Proof.
  intros P row w (evs & F & HE & Hrow & HC & HB & HW). pose proof (explained_range g F evs matrix_inv matrix_flags HC) as HV. destruct HC as (N & HI & HD).
  destruct (from_edges site site_eqb site_eqb_spec st (edges g) touches sw site_obs st_NoDup touches_unique matrix_rep F N HI) as (h & H1 & H2 & H3). exists h.
  assert (EX : explains rows reps cols P h).
  { intros t r Ht Hr. unfold detection, happening. rewrite odd_xsum, (H3 (fun e => Nat.odd (edge_ends (t * rows + r) e)) (changes cols t r)).
    - rewrite <- degree_xsum, (HD (t * rows + r)%nat), HE; [reflexivity|]. pose proof (lay_lt rows t reps r Ht Hr). destruct matrix_bounds as [[B _]|[B _]]; rewrite B; [|intros []]. intros [Q|[]]. lia.
    - intros e x He (Hx & T & _). now apply changes_ends. }
  split; [exact EX|]. split; [|split; [|split]].
  - rewrite Hrow, matrix_nobs. apply map_ext. intros k. f_equal. rewrite flips_xsum. unfold fault, happening. rewrite odd_xsum. symmetry. apply H3. intros e x He (Hx & T & _ & Ho). rewrite Ho. destruct x; reflexivity.
  - intros h' EX'. pose proof (used_corrects h' P evs EX' HE HV) as CC. destruct (HB _ CC) as [B1 _]. specialize (B1 M matrix_weights). unfold cost at 1. unfold happening at 1. rewrite H1. eapply Rle_trans; [exact B1|].
    apply Rplus_le_compat; [apply used_weight|]. unfold happening at 1. rewrite H2. pose proof (used_small h') as SM'. destruct (list_eq_nil _ st) as [E0|(x & Hx)].
    + assert (Z1 : length F = 0%nat) by (rewrite <- H2, E0; reflexivity). assert (Z2 : length (happening rows reps cols h') = 0%nat) by (unfold happening; rewrite E0; reflexivity). rewrite Z1, Z2. replace (length (used_edges h')) with 0%nat by lia. right. reflexivity.
    + apply Rmult_le_compat_r; [|apply le_INR; lia]. destruct SM as (_ & _ & S3 & _). specialize (S3 x Hx). pose proof (Rabs_pos (sw x)). apply half_step_pos; lra.
  - unfold cost, happening. rewrite H1, H2. exact (proj1 HW M matrix_weights).
  - intros IN. assert (IE : forall e, In e (edges g) -> exists z, weight e = IZR z) by (intros e He; destruct (matrix_rep e He) as (x & (Hx & _ & -> & _) & _); now apply IN).
    split; [|unfold cost, happening; rewrite H1; intros Hb; exact (proj2 HW IE Hb)]. intros h' EX'. destruct (HB _ (used_corrects h' P evs EX' HE HV)) as [_ B2]. unfold cost at 1. unfold happening at 1. rewrite H1. eapply Rle_trans; [exact (B2 IE)|apply used_weight].
Qed.

Definition negative (x : site) : bool := Rltb (sw x) 0.
Lemma solvable_sites : forall P, solvable g P -> exists h, explains rows reps cols P h.
Proof.
  intros P (evs & F & HE & N & HI & HD). destruct (from_edges site site_eqb site_eqb_spec st (edges g) touches sw site_obs st_NoDup touches_unique matrix_rep F N HI) as (h & _ & _ & H3). exists h.
  intros t r Ht Hr. unfold detection, happening. rewrite odd_xsum, (H3 (fun e => Nat.odd (edge_ends (t * rows + r) e)) (changes cols t r)).
  - rewrite <- degree_xsum, (HD (t * rows + r)%nat), HE; [reflexivity|]. pose proof (lay_lt rows t reps r Ht Hr). destruct matrix_bounds as [[B _]|[B _]]; rewrite B; [|intros []]. intros [Q|[]]. lia.
  - intros e x He (Hx & T & _). now apply changes_ends.
Qed.
Lemma matrix_explainable : forall P evs h, (forall v, In v evs <-> P v) -> (forall v, In v evs -> (v < num_nodes g)%nat) -> explains rows reps cols P h ->
  (length (happening rows reps cols h) + length (filter negative st) <= 64)%nat \/ compact g -> explainable g P.
Proof.
  intros P evs h HE HB EX HN. exists evs, (used_edges h). split; [exact HE|]. split; [exact (used_corrects h P evs EX HE HB)|].
  destruct (few_negative site st (edges g) touches sw site_obs (edges_NoDup g matrix_inv) touches_unique matrix_rep (filter negative st)) as (NE & A & B).
  { intros x Hx Hw. apply filter_In. split; [exact Hx|now apply Rltb_true]. }
  destruct HN as [HN|HN]; [left|now right]. exists NE. split; [exact A|]. left. rewrite app_length. pose proof (used_small h). lia.
Qed.
Lemma accepted_range : forall z v, accepted g z -> event_at z v -> (v < num_nodes g)%nat.
Proof.
  assert (D : (num_detectors g + length (bnodes g) = num_nodes g)%nat) by (unfold num_detectors; destruct matrix_bounds as [[-> ->]|[-> ->]]; cbn; lia).
  intros [l|nc rs|] v HA HV; cbn [accepted event_at] in *; [| |destruct HA].
  - destruct (le_lt_dec (length l) v) as [L|L]; [rewrite nth_overflow in HV by exact L; congruence|lia].
  - destruct HV as (t & c & (Ht & Hc & ->) & _). pose proof (lay_lt (length rs) t nc c Ht Hc). lia.
Qed.
(** Anything may be asked if the graph is compact. *)
Lemma decode_any : forall z, compact g -> accepted g z ->
  exists K m' r, (forall fuel, (K <= fuel)%nat -> mstep fuel cyclic_ints (new_matching g) (AskDecode z) = Ok (m', r)) /\ fits m' g /\
    ((exists h, explains rows reps cols (event_at z) h) -> exists row w, r = Row row w /\ cheapest rows reps cols faults ws tw fr M (event_at z) row w) /\
    ((forall h, ~ explains rows reps cols (event_at z) h) -> r = Raised).
Proof.
  intros z HC AC. destruct (events_in_ok g z AC) as (evs & _ & _ & HE).
  destruct (step_ok (new_matching g) g (AskDecode z) matrix_fits) as (K & m' & r & S1 & S2 & S3); [intros _; split; [exact matrix_usable|]; right; split; [exact HC|]; intros v; now apply accepted_range|].
  exists K, m', r. split; [exact S1|]. split; [exact S3|]. split.
  - intros (h & EX). assert (SX : solvable g (event_at z)) by (exists evs, (used_edges h); split; [exact HE|]; apply (used_corrects h _ evs EX HE); intros v Hv; apply HE in Hv; now apply (accepted_range z)).
    destruct (proj1 S2 AC SX) as (row & w & -> & RR). exists row, w. split; [reflexivity|]. now apply row_cheapest.
  - intros NX. apply (proj1 (proj2 S2) AC). intros SX. destruct (solvable_sites _ SX) as [h EX]. exact (NX h EX).
Qed.
Lemma matrix_few : (rows * reps < 64)%nat -> compact g.
Proof. intros H. apply few_nodes_compact; [exact matrix_inv|]. destruct matrix_bounds as [[_ B]|[_ B]]; rewrite B; lia. Qed.
Lemma decode_cheapest : forall z h, accepted g z -> explains rows reps cols (event_at z) h -> (length (happening rows reps cols h) + length (filter negative st) <= 64)%nat \/ compact g ->
  exists K m' row w, (forall fuel, (K <= fuel)%nat -> mstep fuel cyclic_ints (new_matching g) (AskDecode z) = Ok (m', Row row w)) /\ cheapest rows reps cols faults ws tw fr M (event_at z) row w.
Proof.
  intros z h AC EX HN. destruct (events_in_ok g z AC) as (evs & _ & _ & HE).
  assert (X : explainable g (event_at z)) by (apply (matrix_explainable _ evs h HE); [|exact EX|exact HN]; intros v Hv; apply HE in Hv; now apply (accepted_range z)).
  destruct (step_ok (new_matching g) g (AskDecode z) matrix_fits) as (K & m' & r & S1 & S2 & _); [intros _; split; [exact matrix_usable|now left]|].
  assert (SX : solvable g (event_at z)) by (destruct X as (l & F & H1 & H2 & _); now exists l, F).
  destruct (proj1 S2 AC SX) as (row & w & -> & RR). exists K, m', row, w. split; [exact S1|]. now apply row_cheapest.
Qed.
End Matrix.

(** ** One round *)
Definition of_vector (x : list bool) (s : site) : bool := match s with Flip _ i => nth i x false | Wrong _ _ => false end.
Definition to_vector (n : nat) (h : site -> bool) : list bool := map (fun i => h (Flip 0 i)) (seq 0 n).
Lemma sites_one : forall rows n, sites rows 1 n = map (Flip 0) (seq 0 n).
Proof. intros rows n. unfold sites. cbn [seq list_prod Nat.sub]. cbn [map]. rewrite !app_nil_r, map_map. reflexivity. Qed.
Lemma happening_one : forall rows cols h, happening rows 1 cols h = map (Flip 0) (filter (fun i => h (Flip 0 i)) (seq 0 (length cols))).
Proof. intros. unfold happening. rewrite sites_one, filter_map. reflexivity. Qed.
Lemma happening_of : forall rows cols x, length x = length cols -> happening rows 1 cols (of_vector x) = map (Flip 0) (ones x).
Proof. intros rows cols x L. rewrite happening_one. unfold ones. rewrite L. reflexivity. Qed.
Lemma nth_to : forall n h i, (i < n)%nat -> nth i (to_vector n h) false = h (Flip 0 i).
Proof. intros n h i H. unfold to_vector. rewrite (nth_indep _ false (h (Flip 0 0)%nat)) by (rewrite map_length, seq_length; exact H). rewrite (map_nth (fun i => h (Flip 0 i)) (seq 0 n) 0%nat i), seq_nth by exact H. reflexivity. Qed.
Lemma happening_to : forall rows cols h, happening rows 1 cols h = map (Flip 0) (ones (to_vector (length cols) h)).
Proof.
  intros rows cols h. rewrite happening_one. f_equal. unfold ones, to_vector. rewrite map_length, seq_length. apply filter_ext_in'. intros i Hi. apply in_seq in Hi. symmetry. apply (nth_to (length cols) h i). lia.
Qed.
Lemma detection_one : forall rows cols r h x, happening rows 1 cols h = map (Flip 0) (ones x) -> detection rows 1 cols 0 r h = product cols x r.
Proof. intros rows cols r h x H. unfold detection, product. rewrite H, filter_map, map_length. reflexivity. Qed.
Lemma solves_iff : forall rows cols h x P, length x = length cols -> happening rows 1 cols h = map (Flip 0) (ones x) -> (solves rows cols P x <-> explains rows 1 cols P h).
Proof.
  intros rows cols h x P L H. split.
  - intros [_ S1] t r Ht Hr. assert (t = 0%nat) by lia. subst t. rewrite (detection_one rows cols r h x H). exact (S1 r Hr).
  - intros EX. split; [exact L|]. intros r Hr. rewrite <- (detection_one rows cols r h x H). exact (EX 0%nat r ltac:(lia) Hr).
Qed.
Lemma cost_one : forall rows cols ws tw h x, happening rows 1 cols h = map (Flip 0) (ones x) -> cost rows 1 cols ws tw h = vector_cost ws x.
Proof. intros. unfold cost, vector_cost. rewrite H, map_map. reflexivity. Qed.
Lemma fault_one : forall rows cols h n k, length cols = n -> (k < n)%nat -> fault rows 1 cols (map (fun i => [i]) (seq 0 n)) k h = nth k (to_vector n h) false.
Proof.
  intros rows cols h n k L Hk. unfold fault. rewrite happening_one, L, filter_map, map_length, odd_xsum, xsum_filter, nth_to by exact Hk.
  assert (Q : forall i, In i (seq 0 n) -> (h (Flip 0 i) && has_fault (map (fun i => [i]) (seq 0 n)) k (Flip 0 i)) = ((k =? i)%nat && h (Flip 0 k))).
  { intros i Hi. apply in_seq in Hi. cbn [has_fault]. rewrite (nth_indep _ [] [0%nat]) by (rewrite map_length, seq_length; lia). rewrite (map_nth (fun i => [i]) (seq 0 n) 0%nat i), seq_nth, odd_count_one by lia. cbn [plus].
    rewrite (Nat.eqb_sym i k). destruct (Nat.eqb_spec k i) as [->|]; [now rewrite andb_true_r|now rewrite andb_false_r]. }
  rewrite (xsum_ext _ _ _ _ Q), (xsum_one _ _ _ k); [now rewrite Nat.eqb_refl|apply seq_NoDup|apply in_seq; lia|]. intros i _ Hi. apply andb_true_iff in Hi as [Hi _]. apply Nat.eqb_eq in Hi. now symmetry.
Qed.
Lemma decode_vector : forall rows cols (ws ps : list R) str virtual (tws mes : option (list R)) g M z x0, let n := length cols in let tw := match tws with Some t => t | None => [] end in
  load_check_matrix (N := RN) rows cols (map (fun i => [i]) (seq 0 n)) n ws ps str virtual 1 tws mes = Ok g -> sound_matrix rows 1 cols (map (fun i => [i]) (seq 0 n)) ws tw str n M ->
  accepted g z -> solves rows cols (event_at z) x0 -> (length (ones x0) + length (filter (fun i => Rltb (nth i ws 0%R) 0) (seq 0 n)) <= 64)%nat \/ compact g ->
  exists K m' x w, (forall fuel, (K <= fuel)%nat -> mstep fuel cyclic_ints (new_matching g) (AskDecode z) = Ok (m', Row (map Z.b2z x) w)) /\
    solves rows cols (event_at z) x /\ (forall y, solves rows cols (event_at z) y -> vector_cost ws x <= vector_cost ws y + INR (length (ones x) + length (ones y)) * half_step M) /\
    Rabs (w - vector_cost ws x) <= INR (length (ones x)) * half_step M /\
    ((forall i, (i < n)%nat -> exists k, nth i ws 0 = IZR k) -> (forall y, solves rows cols (event_at z) y -> vector_cost ws x <= vector_cost ws y) /\ (Rabs (vector_cost ws x) <= IZR (2 ^ 52) -> w = vector_cost ws x)).
Proof.
  intros rows cols ws ps str virtual tws mes g M z x0 n tw LD SM AC S0 HN.
  assert (H0 : happening rows 1 cols (of_vector x0) = map (Flip 0) (ones x0)) by (apply happening_of; exact (proj1 S0)).
  destruct (decode_cheapest rows 1 n cols _ ws ps str virtual tws mes g M LD SM z (of_vector x0) AC) as (K & m' & row & w & D & h & C1 & C2 & C3 & C4 & C5).
  - apply (solves_iff rows cols (of_vector x0) x0); [exact (proj1 S0)|exact H0|exact S0].
  - destruct HN as [HN|HN]; [left|now right]. rewrite H0, map_length, sites_one, filter_map, map_length. exact HN.
  - pose proof (happening_to rows cols h) as HH. fold n in HH. set (x := to_vector n h) in *. assert (Lx : length x = length cols) by (unfold x, to_vector; now rewrite map_length, seq_length).
    exists K, m', x, w. assert (Er : row = map Z.b2z x).
    { rewrite C2. unfold x, to_vector. rewrite map_map. apply map_ext_in. intros k Hk. apply in_seq in Hk. f_equal. rewrite fault_one by (reflexivity || lia). apply nth_to. lia. }
    split; [rewrite <- Er; exact D|]. pose proof (cost_one rows cols ws tw h x HH) as CX.
    assert (CY : forall y, solves rows cols (event_at z) y -> explains rows 1 cols (event_at z) (of_vector y) /\ cost rows 1 cols ws tw (of_vector y) = vector_cost ws y /\ length (happening rows 1 cols (of_vector y)) = length (ones y)).
    { intros y Hy. pose proof (happening_of rows cols y (proj1 Hy)) as HY. split; [now apply (solves_iff rows cols (of_vector y) y _ (proj1 Hy) HY)|]. split; [now apply cost_one|]. now rewrite HY, map_length. }
    assert (LX : length (happening rows 1 cols h) = length (ones x)) by now rewrite HH, map_length.
    split; [now apply (solves_iff rows cols h x _ Lx HH)|]. split; [|split].
    + intros y Hy. destruct (CY y Hy) as (Y1 & Y2 & Y3). rewrite <- CX, <- LX, <- Y2, <- Y3. exact (C3 _ Y1).
    + rewrite <- CX, <- LX. exact C4.
    + intros IN. destruct C5 as [C5 C6].
      * intros s Hs. fold n in Hs. rewrite sites_one in Hs. apply in_map_iff in Hs as (i & <- & Hi). apply in_seq in Hi. apply IN. lia.
      * rewrite <- CX. split; [|exact C6]. intros y Hy. destruct (CY y Hy) as (Y1 & Y2 & Y3). rewrite <- Y2. exact (C5 _ Y1).
Qed.
Lemma vector_any : forall rows cols (ws ps : list R) str virtual (tws mes : option (list R)) g M z, let n := length cols in let tw := match tws with Some t => t | None => [] end in
  load_check_matrix (N := RN) rows cols (map (fun i => [i]) (seq 0 n)) n ws ps str virtual 1 tws mes = Ok g -> sound_matrix rows 1 cols (map (fun i => [i]) (seq 0 n)) ws tw str n M ->
  accepted g z -> (rows < 64)%nat \/ compact g -> (forall x, ~ solves rows cols (event_at z) x) ->
  exists K m', (forall fuel, (K <= fuel)%nat -> mstep fuel cyclic_ints (new_matching g) (AskDecode z) = Ok (m', Raised)) /\ fits m' g.
Proof.
  intros rows cols ws ps str virtual tws mes g M z n tw LD SM AC HC NX.
  assert (HC' : compact g) by (destruct HC as [HC|HC]; [apply (matrix_few rows 1 n cols _ ws ps str virtual tws mes g M LD SM); lia|exact HC]).
  destruct (decode_any rows 1 n cols _ ws ps str virtual tws mes g M LD SM z HC' AC) as (K & m' & r & D & F & _ & D2). exists K, m'. split; [|exact F].
  rewrite <- D2; [exact D|]. intros h EX. apply (NX (to_vector n h)). pose proof (happening_to rows cols h) as HH. fold n in HH.
  apply (solves_iff rows cols h _ _); [unfold to_vector; now rewrite map_length, seq_length|exact HH|exact EX].
Qed.
