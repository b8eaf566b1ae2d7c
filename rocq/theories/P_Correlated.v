(** Reweighting both graphs for the edges of a selection gives the graphs built from the lowered edges. *)
From Coq Require Import ZArith NArith List Bool Arith Lia Permutation.
From Verif Require Import M_Base M_Core S_Core M_Build S_Build M_Flip S_Flip P_Flip M_ToEdges S_ToEdges M_Reweight S_Reweight P_Reweight M_Correlated S_Correlated
  P_Build P_Convert P_Convert2 P_Signed P_ToEdges P_ToEdges2.
Import ListNotations.
Local Open Scope nat_scope.

(** ** Rows of the adjacency lists and of the rules *)
Definition bat (u : nat) (e : sedge) : bool := let '(a, x, _, _) := e in match x with None => a =? u | Some _ => false end.
Definition eat (u : nat) (e : sedge) : bool := let '(a, x, _, _) := e in match x with Some b => negb (a =? b) && ((a =? u) || (b =? u)) | None => false end.
Definition other (u : nat) (e : sedge) : option nat := let '(a, x, _, _) := e in match x with None => None | Some b => if a =? u then Some b else Some a end.
Definition ent (nobs u : nat) (e : sedge) : nbr := let '(a, x, w, obs) := e in (other u e, Z.abs w, mask_of nobs obs).
Definition row (R : list redge) (u : nat) : list redge := filter (fun e => bat u (fst e)) R ++ filter (fun e => eat u (fst e)) R.

Lemma adj_row : forall nobs R u, adj_of nobs (map fst R) u = map (fun e => ent nobs u (fst e)) (row R u).
Proof.
  intros nobs R u. unfold adj_of, row. rewrite map_app. f_equal.
  - induction R as [|[[[[a x] w] obs] rs] R IH]; [reflexivity|]. cbn [map flat_map filter fst bat bentry_of]. rewrite IH. destruct x as [b|]; [reflexivity|]. destruct (a =? u); reflexivity.
  - induction R as [|[[[[a x] w] obs] rs] R IH]; [reflexivity|]. cbn [map flat_map filter fst eat entry_of]. rewrite IH. destruct x as [b|]; [|reflexivity].
    destruct (Nat.eqb_spec a b); cbn [negb andb]; [reflexivity|]. destruct (Nat.eqb_spec a u) as [->|]; cbn [orb app map fst ent other]; [now rewrite Nat.eqb_refl|].
    destruct (Nat.eqb_spec b u); cbn [app map fst ent other]; [|reflexivity]. destruct (Nat.eqb_spec a u); [congruence|reflexivity].
Qed.
Lemma bat_count : forall nobs (R : list redge) u, length (flat_map (fun e => bentry_of nobs e u) (map fst R)) = length (filter (fun e => bat u (fst e)) R).
Proof.
  intros nobs R u. induction R as [|[[[[a x] w] obs] rs] R IH]; [reflexivity|]. cbn [map flat_map filter fst bat bentry_of]. rewrite app_length, IH. destruct x as [b|]; [reflexivity|]. destruct (a =? u); reflexivity.
Qed.

Lemma nth_upd_at : forall {A} (U : list (list A)) u f v, u < length U -> nth v (upd_at U u f) [] = if v =? u then f (nth u U []) else nth v U [].
Proof.
  intros A. unfold upd_at. induction U as [|l U IH]; intros u f v Hu; simpl in Hu; [lia|]. destruct u as [|u]; simpl.
  - destruct v as [|v]; reflexivity.
  - destruct v as [|v]; simpl; [reflexivity|]. apply IH. lia.
Qed.
Lemma length_upd_at : forall {A} (U : list (list A)) u f, length (upd_at U u f) = length U.
Proof. intros A U u f. unfold upd_at. rewrite <- (firstn_skipn u U) at 3. rewrite !app_length. destruct (skipn u U); reflexivity. Qed.

Lemma table_rows : forall n R, (forall e, In e R -> in_range n (fst e)) -> (forall u, length (filter (fun e => bat u (fst e)) R) <= 1) ->
  length (rules_table n R) = n /\ forall u, nth u (rules_table n R) [] = map snd (row R u).
Proof.
  intros n R. induction R as [|e R IH] using rev_ind; intros HR HB.
  - unfold rules_table. cbn [fold_left]. split; [apply repeat_length|]. intros u. destruct (Nat.lt_ge_cases u n); [now rewrite nth_repeat|]. apply nth_overflow. rewrite repeat_length. lia.
  - destruct IH as [L HU].
    { intros e0 He. apply HR. apply in_or_app. now left. }
    { intros u. specialize (HB u). rewrite filter_app, app_length in HB. etransitivity; [|exact HB]. apply Nat.le_add_r. }
    unfold rules_table in *. rewrite fold_left_app. cbn [fold_left]. set (U := fold_left add_rules R (repeat [] n)) in *.
    assert (Rg : in_range n (fst e)) by (apply HR, in_or_app; right; now left). destruct e as [[[[a x] w] obs] rs]. cbn [fst] in Rg. unfold in_range in Rg. cbn [s_node_list] in Rg. unfold row.
    cbn [add_rules]. destruct x as [b|].
    + assert (Ha : a < n) by (apply Rg; now left). assert (Hb : b < n) by (apply Rg; right; now left).
      destruct (Nat.eqb_spec a b) as [->|N].
      * split; [exact L|]. intros u. rewrite HU. unfold row. rewrite !filter_app. cbn [filter fst bat eat]. rewrite Nat.eqb_refl. cbn [negb andb]. now rewrite !app_nil_r.
      * split; [now rewrite !length_upd_at|]. intros u. rewrite nth_upd_at by (rewrite length_upd_at; exact (eq_ind_r (fun k => b < k) Hb L)). rewrite !nth_upd_at by exact (eq_ind_r (fun k => a < k) Ha L). rewrite !HU. unfold row. rewrite !filter_app, !map_app. cbn [filter fst bat eat].
        destruct (Nat.eqb_spec a b); [congruence|]. cbn [negb andb]. rewrite !app_nil_r.
        destruct (Nat.eqb_spec u b) as [->|]; [destruct (Nat.eqb_spec b a); [congruence|]; rewrite Nat.eqb_refl, orb_true_r; cbn [map snd]; now rewrite app_assoc|].
        destruct (Nat.eqb_spec u a) as [->|]; [rewrite Nat.eqb_refl; cbn [orb map snd]; now rewrite app_assoc|].
        destruct (Nat.eqb_spec a u); [congruence|]. destruct (Nat.eqb_spec b u); [congruence|]. cbn [orb map]. now rewrite app_nil_r.
    + assert (Ha : a < n) by (apply Rg; now left). split; [now rewrite length_upd_at|]. intros u. rewrite nth_upd_at by exact (eq_ind_r (fun k => a < k) Ha L). rewrite !HU. unfold row. rewrite !filter_app, !map_app. cbn [filter fst bat eat map]. rewrite !app_nil_r.
      destruct (Nat.eqb_spec u a) as [->|].
      * rewrite Nat.eqb_refl. specialize (HB a). rewrite filter_app, app_length in HB. cbn [filter fst bat] in HB. rewrite Nat.eqb_refl in HB. cbn [length] in HB.
        destruct (filter (fun e => bat a (fst e)) R); [reflexivity|simpl in HB; lia].
      * destruct (Nat.eqb_spec a u); [congruence|]. cbn [map]. now rewrite app_nil_r.
Qed.

Lemma row_In : forall R u e, In e (row R u) <-> In e R /\ loop (fst e) = false /\ same_edge (u, other u (fst e)) (s_pair (fst e)) = true.
Proof.
  intros R u e. unfold row. rewrite in_app_iff, !filter_In. destruct e as [[[[a x] w] obs] rs]. cbn [fst bat eat loop other s_pair]. rewrite same_edge_spec. cbn [fst snd]. destruct x as [b|].
  - destruct (Nat.eqb_spec a b) as [->|N]; cbn [negb andb]; [intuition discriminate|]. destruct (Nat.eqb_spec a u) as [->|]; cbn [orb]; [intuition|].
    destruct (Nat.eqb_spec b u) as [->|]; [intuition|]. split; [intros [[_ H]|[_ H]]; discriminate|]. intros (_ & _ & [H|[_ H]]); congruence.
  - destruct (Nat.eqb_spec a u) as [->|]; split; [intuition| |intros [[_ H]|[_ H]]; discriminate|]; intros (H1 & _ & [H|[H _]]); try discriminate; [intuition|congruence].
Qed.

Lemma nth_error_ext : forall (A : Type) (l l' : list A), (forall k, nth_error l k = nth_error l' k) -> l = l'.
Proof.
  induction l as [|a l IH]; intros [|b l'] H; [reflexivity|specialize (H 0); discriminate|specialize (H 0); discriminate|]. f_equal; [specialize (H 0); now injection H|]. apply IH. intros k. exact (H (S k)).
Qed.
(** ** Building from edges that differ only in their weights *)
Definition alike_edge (e f : sedge) : Prop :=
  let '(u, x, w, o) := e in let '(u', x', w', o') := f in u = u' /\ x = x' /\ o = o' /\ (0 <= w)%Z /\ (0 <= w')%Z.
Definition bare (G : graph) : list (list (option nat * N)) := map (map (fun e : nbr => (fst (fst e), snd e))) G.
Lemma bare_length : forall G G', bare G = bare G' -> length G = length G'.
Proof. intros G G' H. apply (f_equal (@length _)) in H. unfold bare in H. now rewrite !map_length in H. Qed.
Lemma bare_nth : forall G G' u, bare G = bare G' -> map (fun e : nbr => (fst (fst e), snd e)) (nth u G []) = map (fun e : nbr => (fst (fst e), snd e)) (nth u G' []).
Proof. intros G G' u H. apply (f_equal (fun l => nth u l [])) in H. unfold bare in H. change (@nil (option nat * N)) with (map (fun e : nbr => (fst (fst e), snd e)) []) in H. now rewrite !map_nth in H. Qed.
Lemma bare_upd : forall G G' u f f', bare G = bare G' ->
  (forall l l' : list nbr, map (fun e : nbr => (fst (fst e), snd e)) l = map (fun e : nbr => (fst (fst e), snd e)) l' -> map (fun e : nbr => (fst (fst e), snd e)) (f l) = map (fun e : nbr => (fst (fst e), snd e)) (f' l')) ->
  bare (upd_node G u f) = bare (upd_node G' u f').
Proof.
  intros G. induction G as [|l G IH]; intros [|l' G'] u f f' H Hf; try discriminate; [destruct u; reflexivity|]. cbn [bare map] in H. injection H as H1 H2. unfold upd_node in *. destruct u as [|u]; cbn [firstn skipn app bare map]; f_equal; auto.
Qed.
Lemma build_alike : forall nobs n E E' g, Forall2 alike_edge E E' -> build nobs n E = Ok g ->
  exists g', build nobs n E' = Ok g' /\ bare (adj g) = bare (adj g') /\ neg_dets g' = neg_dets g /\ neg_obss g' = neg_obss g /\ neg_total g' = neg_total g.
Proof.
  intros nobs n E E' g HF. unfold build. set (g0 := empty_graph n) at 1. set (g0' := empty_graph n).
  assert (H0 : bare (adj g0) = bare (adj g0') /\ neg_dets g0' = neg_dets g0 /\ neg_obss g0' = neg_obss g0 /\ neg_total g0' = neg_total g0) by (repeat split).
  revert H0. generalize g0 g0'. clear g0 g0'. induction HF as [|[[[u x] w] o] [[[u' x'] w'] o'] E E' He HF IH]; intros g0 g0' (B & D & O & TT) H; cbn [fold_left] in *.
  - injection H as <-. exists g0'. auto.
  - cbn [bindO] in *. destruct He as (<- & <- & <- & P & P').
    assert (N1 : forall g ends, note_negative g ends w o = g) by (intros; unfold note_negative; destruct (Z.ltb_spec w 0); [lia|reflexivity]).
    assert (N2 : forall g ends, note_negative g ends w' o = g) by (intros; unfold note_negative; destruct (Z.ltb_spec w' 0); [lia|reflexivity]).
    assert (Step : forall g1, add_any nobs g0 (u, x, w, o) = Ok g1 -> exists g1', add_any nobs g0' (u, x, w', o) = Ok g1' /\
       bare (adj g1) = bare (adj g1') /\ neg_dets g1' = neg_dets g1 /\ neg_obss g1' = neg_obss g1 /\ neg_total g1' = neg_total g1).
    { intros g1. cbn [add_any]. destruct x as [v|].
      - unfold add_edge. rewrite N1, N2, <- (bare_length _ _ B). destruct (length (adj g0) <=? Nat.max u v); [discriminate|]. destruct (u =? v); intros H1; injection H1 as <-; eexists; (split; [reflexivity|]); [auto|].
        cbn [adj neg_dets neg_obss neg_total]. split; [|auto]. apply bare_upd; [apply bare_upd; [exact B|]|]; intros l l' Hl; rewrite !map_app; f_equal; exact Hl.
      - unfold add_boundary_edge. rewrite N1, N2, <- (bare_length _ _ B). destruct (length (adj g0) <=? u); [discriminate|]. pose proof (bare_nth _ _ u B) as Bu. intros H1.
        assert (E1 : match nth u (adj g0) [] with (None, _, _) :: _ => true | _ => false end = false) by (destruct (nth u (adj g0) []) as [|[[[?|] ?] ?] ?]; [reflexivity|reflexivity|discriminate]).
        assert (E2 : match nth u (adj g0') [] with (None, _, _) :: _ => true | _ => false end = false).
        { destruct (nth u (adj g0) []) as [|[[[?|] ?] ?] ?], (nth u (adj g0') []) as [|[[[?|] ?] ?] ?]; cbn in *; try discriminate; reflexivity. }
        assert (G1 : g1 = mkG (upd_node (adj g0) u (fun l => (None, Z.abs w, mask_of nobs o) :: l)) (neg_dets g0) (neg_obss g0) (neg_total g0)) by (destruct (nth u (adj g0) []) as [|[[[?|] ?] ?] ?]; [now injection H1|now injection H1|discriminate]).
        eexists. split; [destruct (nth u (adj g0') []) as [|[[[?|] ?] ?] ?]; [reflexivity|reflexivity|discriminate]|]. subst g1. cbn [adj neg_dets neg_obss neg_total]. split; [|auto].
        apply bare_upd; [exact B|]. intros l l' Hl. cbn [map fst snd]. now f_equal. }
    destruct (add_any nobs g0 (u, x, w, o)) as [g1| | |] eqn:E1; try (exfalso; eapply fold_bind_fail; [|exact H]; discriminate).
    destruct (Step g1 eq_refl) as (g1' & -> & Inv). exact (IH g1 g1' Inv H).
Qed.

(** ** The rules in force *)

Lemma about_same : forall r u x, about r u x <-> same_edge (fst r) (u, x) = true.
Proof. intros [[i j] h] u x. unfold about. rewrite same_edge_spec. cbn [fst snd]. intuition congruence. Qed.

Lemma fold_min : forall (l : list Z) w, let m := fold_right Z.min w l in (m <= w)%Z /\ (forall x, In x l -> (m <= x)%Z) /\ (m = w \/ In m l).
Proof.
  induction l as [|a l IH]; intros w; cbn [fold_right]; [split; [lia|split; [intros x []|now left]]|]. destruct (IH w) as (A & B & C).
  split; [lia|]. split; [intros x [<-|Hx]; [lia|]; specialize (B x Hx); lia|]. destruct (Z.min_spec a (fold_right Z.min w l)) as [[_ ->]|[_ ->]]; [right; now left|]. destruct C as [C|C]; [now left|right; now right].
Qed.
Lemma is_min_lowered : forall G U edges u x w m L, (forall r, triggered G U edges r <-> In r L) -> is_min G U edges u x w m ->
  m = fold_right Z.min w (map implied (filter (fun r => same_edge (fst r) (u, x)) L)).
Proof.
  intros G U edges u x w m L HL (A & B & C). set (l := map implied _). destruct (fold_min l w) as (A' & B' & C').
  assert (In_l : forall r, triggered G U edges r -> about r u x -> In (implied r) l) by (intros r Hr Ha; apply in_map, filter_In; split; [now apply HL|now apply about_same]).
  apply Z.le_antisymm.
  - destruct C' as [->|H]; [exact A|]. apply in_map_iff in H as (r & <- & Hr). apply filter_In in Hr as [H1 H2]. apply B; [now apply HL|now apply about_same].
  - destruct C as [->|(r & Hr & Ha & ->)]; [exact A'|]. apply B', In_l; assumption.
Qed.

Lemma active_In : forall R X r, In r (active R X) <-> exists i e, nth_error R i = Some e /\ nth_error X i = Some true /\ In r (snd e).
Proof.
  induction R as [|[e rs] R IH]; intros X r; cbn [active].
  - split; [intros []|]. intros (i & e & H & _). destruct i; discriminate.
  - destruct X as [|b X]; [split; [intros []|intros (i & e' & _ & H & _); destruct i; discriminate]|]. rewrite in_app_iff, IH. split.
    + intros [H|(i & e' & H1 & H2 & H3)]; [destruct b; [exists 0, (e, rs); auto|destruct H]|]. exists (S i), e'. auto.
    + intros (i & e' & H1 & H2 & H3). destruct i as [|i]; cbn in H1, H2; [injection H1 as <-; injection H2 as ->; now left|]. right. exists i, e'. auto.
Qed.
Lemma select_nth : forall E X e, In e (select E X) <-> exists i, nth_error E i = Some e /\ nth_error X i = Some true.
Proof.
  induction E as [|a E IH]; intros X e; cbn [select].
  - split; [intros []|]. intros (i & H & _). destruct i; discriminate.
  - destruct X as [|b X]; [split; [intros []|intros (i & _ & H); destruct i; discriminate]|].
    assert (D : In e (if b then a :: select E X else select E X) <-> (b = true /\ a = e) \/ In e (select E X)) by (destruct b; simpl; intuition discriminate).
    rewrite D, IH. split.
    + intros [[-> ->]|(i & H1 & H2)]; [now exists 0|now exists (S i)].
    + intros (i & H1 & H2). destruct i as [|i]; cbn in H1, H2; [injection H1 as ->; injection H2 as ->; now left|]. right. now exists i.
Qed.

Lemma with_weights_length : forall W G, length (with_weights W G) = length G.
Proof. intros W G. unfold with_weights. generalize 0. induction G as [|l G IH]; intros s; cbn [reweigh length]; [reflexivity|]. now rewrite (IH (S s)). Qed.

Section Relower.
Variables (nobs n : nat) (R : list redge) (g : mgraph) (T : list (list (list rule))) (X : list bool) (out : list (nat * option nat)).
Let E := map fst R.
Let U := rules_table n R.
Hypothesis HB : build nobs n E = Ok g.
Hypothesis NP : ForallOrdPairs (fun e f => ~ parallel e f) E.
Hypothesis EV : forall e, In e E -> Z.even (s_weight e) = true.
Hypothesis POS : forall e, In e E -> (0 <= s_weight e)%Z.
Hypothesis HT : convert_implied_weights (adj g) U = Ok T.
Hypothesis HO : lists_edges out (select E X).
Hypothesis HN : forall e, In e (select E X) -> loop e = false.

Lemma rows_of : forall u, nbrs (adj g) u = map (fun e => ent nobs u (fst e)) (row R u) /\ nth u U [] = map snd (row R u).
Proof.
  intros u. destruct (build_built _ _ _ _ HB) as (_ & HL & HA & HR & HC). split; [rewrite HA; apply adj_row|].
  apply (table_rows n R).
  - intros e He. apply HR, in_map, He.
  - intros v. rewrite <- (bat_count nobs). apply HC.
Qed.
Lemma cell_row : forall u k e, nth_error (row R u) k = Some e -> nth_error (nbrs (adj g) u) k = Some (ent nobs u (fst e)) /\ nth k (nth u U []) [] = snd e.
Proof.
  intros u k e H. destruct (rows_of u) as [-> ->]. split; [rewrite nth_error_map, H; reflexivity|]. apply nth_error_nth. rewrite nth_error_map, H. reflexivity.
Qed.
Lemma row_cell : forall u k x w o, nth_error (nbrs (adj g) u) k = Some (x, w, o) -> exists e, nth_error (row R u) k = Some e /\ (x, w, o) = ent nobs u (fst e).
Proof.
  intros u k x w o H. destruct (rows_of u) as [HA _]. rewrite HA, nth_error_map in H. destruct (nth_error (row R u) k) as [e|]; [|discriminate]. exists e. split; [reflexivity|]. now injection H.
Qed.
Lemma ent_other : forall u e, fst (fst (ent nobs u e)) = other u e.
Proof. intros u [[[a x] w] o]. reflexivity. Qed.
Lemma unique_edge : forall e f, In e R -> In f R -> same_edge (s_pair (fst e)) (s_pair (fst f)) = true -> fst e = fst f.
Proof. intros e f He Hf H. apply (fop_unique E NP); [now apply in_map|now apply in_map|]. destruct (fst e) as [[[a x] w] o], (fst f) as [[[b y] w'] o']. apply same_edge_spec in H. cbn [s_pair fst snd] in H. unfold parallel. intuition congruence. Qed.
Lemma unique_place : forall i j e f, nth_error R i = Some e -> nth_error R j = Some f -> fst e = fst f -> i = j.
Proof.
  intros i j e f Hi Hj H. assert (ND : NoDup E) by exact (fop_nodup E NP). rewrite NoDup_nth_error in ND. apply ND.
  - unfold E. rewrite map_length. apply nth_error_Some. congruence.
  - unfold E. rewrite !nth_error_map, Hi, Hj. cbn. congruence.
Qed.

(** Position of an edge in a row. *)
Lemma edge_place : forall a x e, In e R -> loop (fst e) = false -> same_edge (a, x) (s_pair (fst e)) = true ->
  exists k, nth_error (row R a) k = Some e /\ other a (fst e) = x /\ index_of_neighbor (adj g) a x = Ok k /\ a < length (adj g) /\ match x with Some v => v < length (adj g) | None => True end.
Proof.
  intros a x e He Hl Hs. assert (Ho : other a (fst e) = x).
  { destruct e as [[[[b y] w] o] rs]. apply same_edge_spec in Hs. cbn [s_pair other fst snd loop] in *. destruct y as [c|].
    - destruct Hs as [H|[H1 H2]]; [injection H as -> ->; now rewrite Nat.eqb_refl|]. injection H2 as ->. destruct (Nat.eqb_spec b a) as [Eb|]; [|congruence]. cbn in Hl. discriminate.
    - destruct Hs as [H|[H1 H2]]; congruence. }
  assert (Hr : In e (row R a)) by (apply row_In; rewrite Ho; auto). apply In_nth_error in Hr as [k Hk]. exists k. split; [exact Hk|]. split; [exact Ho|].
  destruct (cell_row a k e Hk) as [Hc _]. pose proof (built_wf nobs n E g (build_built _ _ _ _ HB) NP EV) as WF.
  assert (Hx : exists w o, In (x, w, o) (nbrs (adj g) a)).
  { pose proof (ent_other a (fst e)) as H. rewrite Ho in H. destruct (ent nobs a (fst e)) as [[y w] o]. cbn [fst] in H. subst y. exists w, o. apply nth_error_In in Hc. exact Hc. }
  assert (Hi : index_of_neighbor (adj g) a x = Ok k).
  { destruct Hx as (w & o & Hin). unfold index_of_neighbor.
    assert (F : forall l k0, In (x, w, o) l -> exists j, index_of l x k0 = Ok j).
    { induction l as [|[[y w1] o1] l IH]; intros k0 Hl'; [destruct Hl'|]. cbn [index_of]. match goal with |- context [if ?c then _ else _] => destruct c eqn:Ey end; [eauto|]. destruct Hl' as [Hl'|Hl'].
      - injection Hl' as -> _ _. destruct x as [v|]; cbn in Ey; [rewrite Nat.eqb_refl in Ey|]; discriminate.
      - now apply IH. }
    destruct (F _ 0 Hin) as [j Hj]. rewrite Hj. f_equal.
    apply (at_index_unique (adj g) a x); [apply (wf_simple _ WF)|now apply index_of_neighbor_spec|].
    pose proof (ent_other a (fst e)) as H. rewrite Ho in H. destruct (ent nobs a (fst e)) as [[y w'] o']. cbn [fst] in H. subst y. now exists w', o'. }
  split; [exact Hi|]. destruct (build_built _ _ _ _ HB) as (_ & HL & _ & HR & _). rewrite HL. specialize (HR (fst e) (in_map fst R e He)). unfold in_range in HR.
  destruct e as [[[[b y] w] o] rs]. cbn [fst s_pair s_node_list] in *. apply same_edge_spec in Hs. cbn [fst snd] in Hs. destruct Hs as [Hs|[Hs1 Hs2]].
  - injection Hs as -> ->. split; [apply HR; now left|]. destruct y as [c|]; [apply HR; right; now left|exact Logic.I].
  - subst x y. split; [apply HR; right; now left|apply HR; now left].
Qed.

Lemma out_edge : forall p, In p out -> exists i e, nth_error R i = Some e /\ nth_error X i = Some true /\ loop (fst e) = false /\ same_edge p (s_pair (fst e)) = true.
Proof.
  intros p Hp. destruct HO as (L & HP & HF).
  assert (Ex : exists e, In e L /\ same_edge p (s_pair e) = true).
  { clear - Hp HF. induction HF as [|a b l l' H HF IH]; [destruct Hp|]. destruct Hp as [<-|Hp]; [exists b; split; [now left|exact H]|]. destruct (IH Hp) as (e & H1 & H2). exists e. split; [now right|exact H2]. }
  destruct Ex as (e & He & Hs). apply (Permutation_in _ HP) in He. pose proof (HN e He) as Hl. apply select_nth in He as (i & H1 & H2). unfold E in H1. rewrite nth_error_map in H1.
  destruct (nth_error R i) as [re|] eqn:Ei; [|discriminate]. cbn in H1. injection H1 as <-. exists i, re. auto.
Qed.
Lemma edge_out : forall i e, nth_error R i = Some e -> nth_error X i = Some true -> exists p, In p out /\ same_edge p (s_pair (fst e)) = true.
Proof.
  intros i e H1 H2. destruct HO as (L & HP & HF).
  assert (He : In (fst e) L) by (apply (Permutation_in _ (Permutation_sym HP)), select_nth; exists i; split; [unfold E; now rewrite nth_error_map, H1|exact H2]).
  clear - He HF. induction HF as [|a b l l' H HF IH]; [destruct He|]. destruct He as [->|He]; [exists a; split; [now left|exact H]|]. destruct (IH He) as (p & Hp1 & Hp2). exists p. split; [now right|exact Hp2].
Qed.

Lemma flat_pair : forall (x : option nat), (if (match x with Some v => Z.of_nat v | None => (-1) end =? -1)%Z then None else Some (Z.to_nat match x with Some v => Z.of_nat v | None => (-1) end))%Z = x.
Proof. intros [v|]; [|reflexivity]. destruct (Z.eqb_spec (Z.of_nat v) (-1)); [lia|]. now rewrite Nat2Z.id. Qed.

(** Rules triggered by the listed edges. *)
Lemma triggered_out : forall r, triggered (adj g) U (flatten out) r <-> In r (active R X).
Proof.
  intros r. assert (Step : forall l, triggered (adj g) U (flatten l) r <-> exists p k, In p l /\ at_index (adj g) (fst p) (snd p) k /\ In r (nth k (nth (fst p) U []) [])).
  { induction l as [|[a x] l IH]; [split; [intros []|intros (p & k & [] & _)]|]. unfold flatten. cbn [flat_map fst snd app]. fold (flatten l). cbn [triggered]. rewrite flat_pair, Nat2Z.id, IH. split.
    - intros [(k & H)|(p & k & H1 & H2)]; [exists (a, x), k; split; [now left|exact H]|exists p, k; split; [now right|exact H2]].
    - intros (p & k & [<-|H1] & H2); [left; exists k; exact H2|right; exists p, k; auto]. }
  rewrite Step, active_In. split.
  - intros (p & k & Hp & Hat & Hr). destruct (out_edge p Hp) as (i & e & H1 & H2 & H3 & H4). exists i, e. split; [exact H1|]. split; [exact H2|].
    destruct p as [a x]. cbn [fst snd] in *. destruct (edge_place a x e (nth_error_In _ _ H1) H3 H4) as (k' & K1 & K2 & K3 & _).
    assert (k = k') by (pose proof (built_wf nobs n E g (build_built _ _ _ _ HB) NP EV) as WF; apply (at_index_unique (adj g) a x); [apply (wf_simple _ WF)|exact Hat|now apply index_of_neighbor_spec]). subst k'.
    destruct (cell_row a k e K1) as [_ HU]. rewrite HU in Hr. exact Hr.
  - intros (i & e & H1 & H2 & H3). destruct (edge_out i e H1 H2) as ([a x] & Hp & Hs).
    assert (Hl : loop (fst e) = false) by (apply HN, select_nth; exists i; split; [unfold E; now rewrite nth_error_map, H1|exact H2]).
    destruct (edge_place a x e (nth_error_In _ _ H1) Hl Hs) as (k & K1 & K2 & K3 & _). exists (a, x), k. split; [exact Hp|]. cbn [fst snd]. split; [now apply index_of_neighbor_spec|].
    destruct (cell_row a k e K1) as [_ HU]. rewrite HU. exact H3.
Qed.
Lemma reweight_ok : forall st, exists st', reweight_for_edges (adj g) T (flatten out) st = (st', Ok tt).
Proof.
  assert (Step : forall l st, (forall p, In p l -> In p out) -> exists st', reweight_for_edges (adj g) T (flatten l) st = (st', Ok tt)).
  { induction l as [|[a x] l IH]; intros st Hl; [now exists st|]. unfold flatten. cbn [flat_map fst snd app]. fold (flatten l). cbn [reweight_for_edges].
    destruct (out_edge (a, x) (Hl _ (or_introl eq_refl))) as (i & e & H1 & H2 & H3 & H4). destruct (edge_place a x e (nth_error_In _ _ H1) H3 H4) as (k & K1 & K2 & K3 & K4 & K5).
    assert (N : forall v, v < length (adj g) -> node_of (adj g) (Z.of_nat v) = Ok v).
    { intros v Hv. unfold node_of. destruct (Z.leb_spec 0 (Z.of_nat v)); [|lia]. destruct (Z.ltb_spec (Z.of_nat v) (Z.of_nat (length (adj g)))); [|lia]. cbn [andb]. now rewrite Nat2Z.id. }
    assert (NX : neighbor_of (adj g) match x with Some v => Z.of_nat v | None => (-1)%Z end = Ok x).
    { unfold neighbor_of. destruct x as [v|]; [|reflexivity]. destruct (Z.eqb_spec (Z.of_nat v) (-1)); [lia|]. now rewrite N. }
    unfold rules_for_edge. rewrite (N a K4). cbn [bindO]. rewrite NX. cbn [bindO]. rewrite K3. cbn [bindO]. apply IH. intros p Hp. apply Hl. now right. }
  intros st. apply Step. auto.
Qed.

(** The lowered edges. *)
Lemma lowered_alike : Forall2 alike_edge E (lowered R X).
Proof.
  unfold lowered. generalize (active R X). intros L. unfold E. assert (P : forall e, In e R -> (0 <= s_weight (fst e))%Z) by (intros e He; apply POS, in_map, He). clear - P.
  induction R as [|[[[[u x] w] o] rs] R' IH]; constructor; [|apply IH; intros e He; apply P; now right]. cbn [fst lowered_edge alike_edge]. specialize (P _ (or_introl eq_refl)). cbn [fst s_weight] in P.
  split; [reflexivity|]. split; [reflexivity|]. split; [reflexivity|]. split; [exact P|]. set (l := map implied _). destruct (fold_min l w) as (_ & _ & [->|H]); [exact P|].
  apply in_map_iff in H as (r & <- & _). unfold implied. lia.
Qed.

Lemma with_weights_ext : forall W W' G, (forall u k, nth_error (nbrs G u) k <> None -> W (u, k) = W' (u, k)) -> with_weights W G = with_weights W' G.
Proof.
  intros W W' G H. apply (nth_ext _ _ [] []).
  - now rewrite !with_weights_length.
  - intros u _. change (nbrs (with_weights W G) u = nbrs (with_weights W' G) u). apply nth_error_ext. intros k. rewrite !with_weights_nth. specialize (H u k).
    destruct (nth_error (nbrs G u) k) as [[[x w] o]|]; [|reflexivity]. rewrite H by discriminate. reflexivity.
Qed.

Let low (e : redge) : redge := (lowered_edge (active R X) (fst e), snd e).
Lemma low_row : forall u, row (map low R) u = map low (row R u).
Proof.
  intros u. unfold row, low. generalize (active R X). intros L. rewrite map_app. clear. f_equal.
  - induction R as [|[[[[a x] w] o] rs] R' IH]; [reflexivity|]. cbn [map filter fst lowered_edge bat]. rewrite IH. destruct x as [b|]; [reflexivity|]. destruct (a =? u); reflexivity.
  - induction R as [|[[[[a x] w] o] rs] R' IH]; [reflexivity|]. cbn [map filter fst lowered_edge eat]. rewrite IH. destruct x as [b|]; [|reflexivity]. destruct (negb (a =? b) && ((a =? u) || (b =? u))); reflexivity.
Qed.
Lemma lowered_map : lowered R X = map fst (map low R).
Proof. unfold lowered. rewrite map_map. reflexivity. Qed.

Lemma relowered : exists g' p, build nobs n (lowered R X) = Ok g' /\ neg_dets g' = neg_dets g /\ neg_obss g' = neg_obss g /\ neg_total g' = neg_total g /\
  reweight_graph false T (flatten out) (adj g, []) = ((adj g', p), Ok tt) /\ undo_graph (adj g', p) = (adj g, []).
Proof.
  destruct (build_alike nobs n E (lowered R X) g lowered_alike HB) as (g' & HB' & HBa & N1 & N2 & N3).
  destruct (reweight_ok (weights_of (adj g), [])) as (st' & Hst). exists g', (snd st').
  pose proof (built_wf nobs n E g (build_built _ _ _ _ HB) NP EV) as WF.
  destruct (reweight_spec (adj g) U T (flatten out) st' WF HT Hst) as [_ HM].
  assert (HG : with_weights (fst st') (adj g) = adj g').
  { apply (nth_ext _ _ [] []).
    - rewrite <- (bare_length _ _ HBa). apply with_weights_length.
    - intros u _. change (nbrs (with_weights (fst st') (adj g)) u = nbrs (adj g') u). apply nth_error_ext. intros k. specialize (HM u k).
      destruct (build_built _ _ _ _ HB') as (_ & _ & HA' & _). rewrite HA', lowered_map, adj_row, low_row, map_map, nth_error_map.
      destruct (nth_error (row R u) k) as [e|] eqn:Ek.
      + destruct (cell_row u k e Ek) as [Hc _]. rewrite with_weights_nth in HM |- *. rewrite Hc in HM |- *. cbn [option_map].
        assert (Hin : In e (row R u)) by (eapply nth_error_In; eauto). apply row_In in Hin as (Hin & _ & Hs).
        pose proof (POS (fst e) (in_map fst R e Hin)) as Pe. destruct e as [[[[a x] w] o] rs]. cbn [fst ent low lowered_edge s_weight s_pair] in *. destruct HM as (_ & _ & HM).
        apply (is_min_lowered _ _ _ _ _ _ _ (active R X) triggered_out) in HM. rewrite HM.
        assert (Ho : other u (a, x, fold_right Z.min w (map implied (filter (fun r => same_edge (fst r) (a, x)) (active R X))), o) = other u (a, x, w, o)) by reflexivity.
        rewrite Ho.
        assert (Hf : filter (fun r => same_edge (fst r) (u, other u (a, x, w, o))) (active R X) = filter (fun r => same_edge (fst r) (a, x)) (active R X)).
        { apply filter_ext. intros r. apply eq_true_iff_eq. split; intros H; eapply same_edge_trans; eauto. now rewrite same_edge_sym. }
        rewrite Hf, (Z.abs_eq w) by assumption. set (l := map implied _). rewrite (Z.abs_eq (fold_right Z.min w l)); [reflexivity|]. destruct (fold_min l w) as (_ & _ & [->|H]); [exact Pe|].
        apply in_map_iff in H as (r & <- & _). unfold implied. lia.
      + rewrite with_weights_nth. cbn [option_map]. destruct (nth_error (nbrs (adj g) u) k) as [[[x w] o]|] eqn:En; [|reflexivity]. destruct (row_cell u k x w o En) as (e & He & _). congruence. }
  split; [exact HB'|]. split; [exact N1|]. split; [exact N2|]. split; [exact N3|]. split.
  - unfold reweight_graph, reweight_checked. cbn [fst snd]. rewrite Hst. cbn [fst snd]. now rewrite HG.
  - unfold undo_graph, undo_reweights. cbn [fst snd]. f_equal. rewrite <- HG.
    destruct (restores_edges (flatten out) (adj g) T (weights_of (adj g), [])) as (q & Eq & Hq). rewrite Hst in Eq, Hq. cbn [fst snd app] in Eq, Hq. rewrite Eq.
    apply (nth_ext _ _ [] []).
    + now rewrite !with_weights_length.
    + intros u _. match goal with |- nth u ?G1 [] = nth u ?G2 [] => change (nbrs G1 u = nbrs G2 u) end. apply nth_error_ext. intros k. rewrite !with_weights_nth.
      destruct (nth_error (nbrs (adj g) u) k) as [[[x w] o]|] eqn:En; [|reflexivity]. match goal with |- Some (_, ?a, _) = Some (_, ?b, _) => cut (a = b); [intros ->; reflexivity|] end.
      assert (Hw : weights_of (adj g) (u, k) = w) by exact (weights_at (adj g) u k x w o En). rewrite <- Hw, <- Hq. unfold undo_list.
      assert (Loc : forall l W W' c, W c = W' c -> fold_left (fun W (p : cell * Z) => setw W (fst p) (snd p)) l W c = fold_left (fun W p => setw W (fst p) (snd p)) l W' c).
      { induction l as [|y l IH]; intros W W' c Hc; cbn [fold_left]; [exact Hc|]. apply IH. unfold setw. now destruct (cell_eqb c (fst y)). }
      apply Loc. unfold weights_of at 1. cbn [fst snd]. assert (Hx : nth_error (nbrs (with_weights (fst st') (adj g)) u) k = Some (x, fst st' (u, k), o)) by now rewrite with_weights_nth, En.
      now rewrite (nth_error_nth _ _ _ Hx).
Qed.
End Relower.
