(** Answers to the same syndrome. *)
From Coq Require Import Reals ZArith NArith List Bool Arith Lia Lra Permutation Classical.
From Verif Require Import M_Base M_Core M_CoreHeap M_Build S_Build M_Discretise P_Discretise M_Merge M_Bits S_Bits M_Pipeline M_Matching S_Matching M_UserGraph S_UserGraph P_UserGraph S_Pipeline P_Pipeline P_Matched P_Matching P_Distance S_Weights P_Weights S_Triangle P_Triangle S_Agree.
Import ListNotations.
Local Open Scope nat_scope.

Lemma half_step_pos : forall M, (0 <= M)%R -> (0 <= half_step M)%R.
Proof.
  intros M HM. unfold half_step. assert (0 < IZR (2 * (2 ^ 24 - 1)))%R by (apply IZR_lt; reflexivity). assert (0 < / IZR (2 ^ 20))%R by (apply Rinv_0_lt_compat, IZR_lt; reflexivity).
  apply Rmult_le_pos; [apply Rmult_le_pos; [exact HM|left; now apply Rinv_0_lt_compat]|lra].
Qed.
Lemma total_app : forall F F', total_weight (F ++ F') = (total_weight F + total_weight F')%R.
Proof. intros F F'. unfold total_weight. induction F as [|e F IH]; cbn [app fold_right]; [lra|]. rewrite IH. lra. Qed.

(** [L] weighs no less than some correction [F'] that is part of it, and is as light as any: then its weight is what is told. *)
Lemma agrees_ok : forall g evs F w L F', corrects g F evs -> near_best g F evs -> weight_reported g w F ->
  near_best g L evs -> corrects g F' evs -> length F' <= length L -> (total_weight F' <= total_weight L)%R -> agrees g w (total_weight L) (length L).
Proof.
  intros g evs F w L F' CF NF WR NL CF' LE TE. destruct WR as [W1 W2]. split.
  - intros M HM. destruct (NF F' CF') as [A _]. specialize (A M HM). destruct (NL F CF) as [B _]. specialize (B M HM). specialize (W1 M HM).
    assert (LF : length F <= length (edges g)) by (destruct CF as (ND & I & _); now apply NoDup_incl_length).
    destruct (edges g) as [|e0 es] eqn:EG.
    + destruct F as [|f F]; [|cbn in LF; lia]. destruct CF' as (ND' & I' & _). rewrite EG in I'. destruct F' as [|f F']; [|destruct (I' f (or_introl eq_refl))].
      cbn [length] in *. change (INR 0) with 0%R in W1. rewrite Rmult_0_l in W1. change (total_weight []) with 0%R in *. rewrite Rminus_0_r in W1.
      assert (w = 0%R) by (apply Rabs_le_inv in W1; lra). subst w. replace (2 * 0 + length L) with (length L + 0) by lia.
      apply Rabs_le. split; lra.
    + assert (HS : (0 <= half_step M)%R) by (apply half_step_pos, Rle_trans with (Rabs (weight e0)); [apply Rabs_pos|apply HM; now left]).
      assert (X : forall a, a <= 2 * length (e0 :: es) + length L -> (INR a * half_step M <= INR (2 * length (e0 :: es) + length L) * half_step M)%R) by (intros a Ha; apply Rmult_le_compat_r; [exact HS|now apply le_INR]).
      pose proof (X (length F + (length F + length F')) ltac:(lia)) as X1. pose proof (X (length F + (length L + length F)) ltac:(lia)) as X2. rewrite plus_INR, Rmult_plus_distr_r in X1, X2.
      apply Rabs_le_inv in W1. apply Rabs_le. lra.
  - intros HI HB. destruct (NF F' CF') as [_ A]. specialize (A HI). destruct (NL F CF) as [_ B]. specialize (B HI). assert (E : total_weight F = total_weight L) by lra. rewrite <- E. apply W2; [exact HI|rewrite E; exact HB].
Qed.

(** Sets of edges that join the pairs, taken together modulo two. *)
Lemma joined_corrects : forall (g : ugraph RN) out Qs, (forall e, In e (edges g) -> (0 <= weight e)%R) -> Forall2 (joins_pair g) out Qs -> NoDup (flat_map ends_of out) ->
  exists F, corrects g F (flat_map ends_of out) /\ incl F (concat Qs) /\ (total_weight F <= total_weight (concat Qs))%R.
Proof.
  intros g out Qs POS H. induction H as [|p Q out Qs J _ IH]; intros ND.
  - exists []. split; [|split; [apply incl_refl|right; reflexivity]]. split; [constructor|]. split; [intros e []|]. intros v _. cbn. split; [discriminate|intros []].
  - cbn [flat_map concat] in *. assert (JC : corrects g Q (ends_of p)) by (unfold joins_pair, ends_of in *; destruct (snd p); [exact (proj1 J)|exact J]).
    assert (D : forall v, In v (ends_of p) -> ~ In v (flat_map ends_of out)) by (clear -ND; induction (ends_of p) as [|a l IH]; cbn [app] in ND; intros v []; [subst; inversion ND; subst; intros X; apply H1, in_or_app; now right|inversion ND; subst; now apply IH]).
    destruct IH as (F & C & I & T); [clear -ND; induction (ends_of p); [exact ND|inversion ND; auto]|]. exists (flip_all Q F). destruct (flip_all_ok Q F (proj1 C)) as (_ & B & _ & _ & W).
    split; [|split].
    + apply (corrects_sum g Q F _ _ _ JC C). intros v _. rewrite in_app_iff. specialize (D v). tauto.
    + intros e He. apply B, in_app_or in He as [He|He]; apply in_or_app; [now left|right; now apply I].
    + rewrite total_app. specialize (W (fun e He => POS e (proj1 (proj2 JC) e He))). lra.
Qed.

Section Replies.
Variables (g : ugraph RN) (z : syndrome) (row : list Z) (w : R).
Hypothesis ROW : right_row g (event_at z) row w.
Lemma edges_agree_ok : forall out, right_edges g (event_at z) out -> edges_agree g (event_at z) row w out.
Proof.
  intros out (e2 & F2 & E2 & S & C2 & N2). destruct ROW as (e1 & F1 & E1 & R & C1 & N1 & W). exists F2. split; [exact S|]. split; [now exists e2|].
  assert (EE : forall v, In v e1 <-> In v e2) by (intros v; rewrite E1, E2; tauto). pose proof (corrects_iff g F1 e1 e2 EE C1) as C1'.
  assert (N1' : near_best g F1 e2) by (intros F' HF'; apply N1; apply (corrects_iff g F' e2 e1); [intros v; symmetry; apply EE|exact HF']).
  split; [apply (agrees_ok g e2 F1 w F2 F2); auto; right; reflexivity|]. intros CC. rewrite R. apply map_ext. intros i. f_equal. exact (CC e2 F1 F2 E2 C1' N1' C2 N2 i).
Qed.
Lemma pairs_agree_ok : forall out, (forall e, In e (edges g) -> (0 <= weight e)%R) -> right_pairs g (event_at z) out -> pairs_agree g w out.
Proof.
  intros out POS (ND & HE & e2 & Qs & E2 & J & N2). destruct ROW as (e1 & F1 & E1 & R & C1 & N1 & W).
  assert (EE : forall v, In v e1 <-> In v e2) by (intros v; rewrite E1, E2; tauto). pose proof (corrects_iff g F1 e1 e2 EE C1) as C1'.
  assert (N1' : near_best g F1 e2) by (intros F' HF'; apply N1; apply (corrects_iff g F' e2 e1); [intros v; symmetry; apply EE|exact HF']).
  assert (X : forall Qs', Forall2 (joins_pair g) out Qs' -> exists F, corrects g F e2 /\ length F <= length (concat Qs') /\ (total_weight F <= total_weight (concat Qs'))%R).
  { intros Qs' J'. destruct (joined_corrects g out Qs' POS J' ND) as (F & (A & B & D) & I & T). exists F. split; [|split; [now apply NoDup_incl_length|exact T]].
    split; [exact A|]. split; [exact B|]. intros v Hv. rewrite (D v Hv), HE, E2. tauto. }
  exists Qs. split; [exact J|]. split.
  - destruct (X Qs J) as (F & C & L & T). apply (agrees_ok g e2 F1 w (concat Qs) F); assumption.
  - intros HI Qs' J'. destruct (X Qs' J') as (F & C & L & T). destruct (N2 F C) as [_ B]. specialize (B HI). lra.
Qed.
End Replies.

Lemma solution_ok : forall g z c row w r', fair g c -> asks_solution c z -> accepted g z -> right_row g (event_at z) row w -> right g c r' -> replies_agree g z (Row row w) c r'.
Proof.
  intros g z c row w r' HF HC AC RR HR'. assert (S : solvable g (event_at z)) by (destruct RR as (evs & F & E & _ & C & _); now exists evs, F). right. exists row, w. split; [reflexivity|]. destruct HC as [->|[-> | ->]]; cbn [right fair] in *; destruct HR' as (B1 & _).
  - destruct (B1 AC S) as (out & -> & RE). exists out. split; [reflexivity|]. now apply edges_agree_ok.
  - destruct (B1 AC S) as (out & -> & RE). exists out. split; [reflexivity|]. apply (pairs_agree_ok g z row w RR out); [apply HF; exact AC|exact RE].
  - destruct (B1 AC S) as (t & -> & out & RE & RD). exists t, out. split; [reflexivity|]. split; [exact RD|]. apply (pairs_agree_ok g z row w RR out); [apply HF; exact AC|exact RE].
Qed.
Lemma replies_ok : forall g z c r r', fair g c -> asks_solution c z -> right g (AskDecode z) r -> right g c r' -> replies_agree g z r c r'.
Proof.
  intros g z c r r' HF HC HR HR'. cbn [right] in HR. destruct HR as (A1 & A2 & A3). destruct (accepted_dec g z) as [AC|NA].
  - destruct (classic (solvable g (event_at z))) as [S|NS].
    + destruct (A1 AC S) as (row & w & -> & RR). now apply solution_ok.
    + left. split; [exact (A2 AC NS)|]. destruct HC as [->|[-> | ->]]; destruct HR' as (_ & B & _); exact (B AC NS).
  - left. split; [exact (A3 NA)|]. destruct HC as [->|[-> | ->]]; destruct HR' as (_ & _ & B); exact (B NA).
Qed.
Lemma right_row_same : forall g (P Q : nat -> Prop) row w, (forall v, P v <-> Q v) -> right_row g P row w -> right_row g Q row w.
Proof. intros g P Q row w H (evs & F & E & X). exists evs, F. split; [intros v; rewrite E; apply H|exact X]. Qed.
Lemma batch_row : forall g ps pp nc shots l, right g (AskBatch ps pp (Syn2 nc shots)) (Rows l) -> Forall2 (right_shot g ps pp) shots l.
Proof.
  intros g ps pp nc shots l [A B]. destruct (accepted_batch_dec g ps (Syn2 nc shots)) as [AC|NA]; [|discriminate (B NA)]. destruct (A AC) as [A1 A2].
  destruct (classic (Exists (fun shot => ~ solvable g (shot_event ps shot)) shots)) as [X|X]; [discriminate (A2 X)|].
  destruct A1 as (l' & E & F); [|injection E as ->; exact F]. apply Forall_forall. intros shot HS. apply NNPP. intros N. apply X, Exists_exists. eauto.
Qed.
Lemma nth_two : forall {X Y} (R : X -> Y -> Prop) l l', Forall2 R l l' -> forall k x y, nth_error l k = Some x -> nth_error l' k = Some y -> R x y.
Proof. intros X Y R l l' H. induction H as [|a b l l' HR _ IH]; intros [|k] x y A B; try discriminate; [injection A as <-; injection B as <-; exact HR|eauto]. Qed.
Lemma batch_replies_ok : forall g ps pp nc shots l k shot w bytes z c r', fair g c -> asks_solution c z -> accepted g z -> (forall v, shot_event ps shot v <-> event_at z v) ->
  right g (AskBatch ps pp (Syn2 nc shots)) (Rows l) -> right g c r' -> nth_error shots k = Some shot -> nth_error l k = Some (bytes, w) ->
  exists row, prediction_of g pp bytes row /\ replies_agree g z (Row row w) c r'.
Proof.
  intros g ps pp nc shots l k shot w bytes z c r' HF HC AC HE HR HR' Q1 Q2. destruct (nth_two _ _ _ (batch_row _ _ _ _ _ _ HR) k _ _ Q1 Q2) as (row & RR & X). cbn [fst snd] in *. exists row. split; [exact X|].
  apply solution_ok; auto. exact (right_row_same _ _ _ _ _ HE RR).
Qed.
Lemma all_right_split : forall cs qs g rs, all_right g (cs ++ qs) rs -> exists r1 r2, rs = r1 ++ r2 /\ length r1 = length cs /\ all_right (graph_after g cs) qs r2.
Proof.
  induction cs as [|c cs IH]; intros qs g rs H; [exists [], rs; auto|]. cbn [app] in H. destruct rs as [|r rs]; [destruct H|]. destruct H as [_ H]. destruct (IH qs _ rs H) as (r1 & r2 & -> & L & X). exists (r :: r1), r2. split; [reflexivity|]. split; [cbn; lia|exact X].
Qed.
Lemma all_fair_split : forall cs qs g, all_fair g (cs ++ qs) -> all_fair (graph_after g cs) qs.
Proof. induction cs as [|c cs IH]; intros qs g H; [exact H|]. exact (IH qs _ (proj2 H)). Qed.
Lemma asks_same : forall qs g rs, Forall asks qs -> all_fair g qs -> all_right g qs rs -> length rs = length qs /\
  forall i c r, nth_error qs i = Some c -> nth_error rs i = Some r -> fair g c /\ right g c r.
Proof.
  induction qs as [|c qs IH]; intros g rs H F R; destruct rs as [|r rs]; try destruct R as []; [split; [reflexivity|intros [|i]; discriminate]|].
  inversion H as [|? ? HA HQ]; subst. destruct F as [F1 F2]. assert (E : after g c = g) by (destruct c; [destruct HA| | | | |]; reflexivity). rewrite E in *. destruct (IH g rs HQ F2 H1) as [L X]. split; [cbn; lia|].
  intros [|i] c' r' A B; cbn in A, B; [injection A as <-; injection B as <-; auto|eauto].
Qed.
Lemma session_asks : forall n k cs qs, let g := graph_after (new_graph RN n k) cs in all_fair (new_graph RN n k) (cs ++ qs) -> Forall asks qs ->
  exists K m rs rs', (forall fuel, K <= fuel -> mrun fuel cyclic_ints (new_matching (new_graph RN n k)) (cs ++ qs) = Ok (m, rs ++ rs')) /\ length rs = length cs /\ length rs' = length qs /\
    forall i c r, nth_error qs i = Some c -> nth_error rs' i = Some r -> fair g c /\ right g c r.
Proof.
  intros n k cs qs g HF HA. destruct (session_ok n k (cs ++ qs) HF) as (K & m & rs & A & B). destruct (all_right_split cs qs _ rs B) as (r1 & r2 & -> & L & X). destruct (asks_same qs _ r2 HA (all_fair_split _ _ _ HF) X) as [L2 Y].
  exists K, m, r1, r2. auto.
Qed.
Lemma session_agree : forall n k cs qs, let g := graph_after (new_graph RN n k) cs in all_fair (new_graph RN n k) (cs ++ qs) -> Forall asks qs ->
  exists K m rs rs', (forall fuel, K <= fuel -> mrun fuel cyclic_ints (new_matching (new_graph RN n k)) (cs ++ qs) = Ok (m, rs ++ rs')) /\ length rs = length cs /\ length rs' = length qs /\
    (forall i j z c r r', nth_error qs i = Some (AskDecode z) -> nth_error rs' i = Some r -> nth_error qs j = Some c -> nth_error rs' j = Some r' -> asks_solution c z ->
      replies_agree g z r c r') /\
    (forall i j ps pp nc shots l p shot bytes w z c r', nth_error qs i = Some (AskBatch ps pp (Syn2 nc shots)) -> nth_error rs' i = Some (Rows l) -> nth_error qs j = Some c -> nth_error rs' j = Some r' ->
      asks_solution c z -> accepted g z -> (forall v, shot_event ps shot v <-> event_at z v) -> nth_error shots p = Some shot -> nth_error l p = Some (bytes, w) ->
      exists row, prediction_of g pp bytes row /\ replies_agree g z (Row row w) c r').
Proof.
  intros n k cs qs g HF HA. destruct (session_asks n k cs qs HF HA) as (K & m & r1 & r2 & A & L & L2 & Y). exists K, m, r1, r2. split; [exact A|]. split; [exact L|]. split; [exact L2|]. split.
  - intros i j z c r r' Q1 R1 Q2 R2 S. destruct (Y i _ _ Q1 R1) as [_ Z1]. destruct (Y j _ _ Q2 R2) as [F2 Z2]. exact (replies_ok g z c r r' F2 S Z1 Z2).
  - intros i j ps pp nc shots l p shot bytes w z c r' Q1 R1 Q2 R2 S AC E P1 P2. destruct (Y i _ _ Q1 R1) as [_ Z1]. destruct (Y j _ _ Q2 R2) as [F2 Z2]. exact (batch_replies_ok g ps pp nc shots l p shot w bytes z c r' F2 S AC E Z1 Z2 P1 P2).
Qed.
