(** Graphs that fall into separate parts are decoded part by part. *)
From Coq Require Import Reals ZArith NArith List Bool Arith Lia Lra Permutation Classical.
From Verif Require Import M_Base M_Core M_CoreHeap M_Build S_Build M_Discretise P_Discretise M_Merge M_Bits S_Bits M_Double P_Double M_Pipeline M_Matching S_Matching M_UserGraph S_UserGraph P_UserGraph S_Pipeline P_Pipeline P_Matched P_Matching P_Distance S_Weights P_Weights S_Triangle P_Triangle S_Parts.
Import ListNotations.
Local Open Scope nat_scope.

Section Parts.
Variable g : ugraph RN.
Variable A : nat -> bool.
Hypothesis SEP : separate g A.
Definition inner (v : nat) : bool := A v && (if in_dec Nat.eq_dec v (bnodes g) then false else true).
Definition side (e : uedge RN) : bool := inner (node1 e) || match node2 e with Some v => inner v | None => false end.
Lemma inner_out : forall v, ~ In v (bnodes g) -> inner v = A v.
Proof. intros v H. unfold inner. destruct (in_dec Nat.eq_dec v (bnodes g)); [contradiction|apply andb_true_r]. Qed.
Lemma inner_bnd : forall v, In v (bnodes g) -> inner v = false.
Proof. intros v H. unfold inner. destruct (in_dec Nat.eq_dec v (bnodes g)); [apply andb_false_r|contradiction]. Qed.
Lemma side_end : forall e v, In e (edges g) -> ~ In v (bnodes g) -> edge_ends v e <> 0 -> side e = A v.
Proof.
  intros e v He Hv N. unfold edge_ends in N. unfold side. destruct (Nat.eqb_spec (node1 e) v) as [E|E].
  - rewrite E, (inner_out v Hv). destruct (node2 e) as [u|] eqn:E2; [|apply orb_false_r]. destruct (in_dec Nat.eq_dec u (bnodes g)) as [B|B]; [rewrite (inner_bnd u B); apply orb_false_r|].
    rewrite (inner_out u B). rewrite <- (SEP e u He E2); [rewrite E; apply orb_diag|now rewrite E|exact B].
  - destruct (node2 e) as [u|] eqn:E2; [|lia]. destruct (Nat.eqb_spec u v) as [E3|E3]; [subst u|lia]. rewrite (inner_out v Hv). destruct (in_dec Nat.eq_dec (node1 e) (bnodes g)) as [B|B]; [now rewrite (inner_bnd _ B)|].
    rewrite (inner_out _ B), (SEP e v He E2 B Hv). apply orb_diag.
Qed.
Lemma part_degree : forall (b : bool) F v, incl F (edges g) -> ~ In v (bnodes g) -> total_degree v (filter (fun e => Bool.eqb (side e) b) F) = if Bool.eqb (A v) b then total_degree v F else 0.
Proof.
  intros b F v I Hv. induction F as [|e F IH]; [cbn; now destruct (Bool.eqb (A v) b)|]. assert (IH' := IH (fun x Hx => I x (or_intror Hx))). pose proof (side_end e v (I e (or_introl eq_refl)) Hv) as D.
  cbn [filter]. change (total_degree v (e :: F)) with (edge_ends v e + total_degree v F).
  destruct (Nat.eq_dec (edge_ends v e) 0) as [Z|N].
  - rewrite Z. destruct (Bool.eqb (side e) b); [change (total_degree v (e :: ?X)) with (edge_ends v e + total_degree v X); rewrite Z|]; exact IH'.
  - rewrite (D N). destruct (Bool.eqb (A v) b); [|exact IH']. match goal with |- total_degree v (e :: ?X) = _ => change (total_degree v (e :: X)) with (edge_ends v e + total_degree v X) end. now rewrite IH'.
Qed.
Lemma part_corrects : forall (b : bool) F evs evs', corrects g F evs -> (forall v, ~ In v (bnodes g) -> (In v evs' <-> In v evs /\ A v = b)) -> corrects g (filter (fun e => Bool.eqb (side e) b) F) evs'.
Proof.
  intros b F evs evs' (N & I & D) H. split; [now apply NoDup_filter|]. split; [intros e He; apply filter_In in He as [He _]; auto|]. intros v Hv. rewrite (part_degree b F v I Hv), (H v Hv), <- (D v Hv).
  destruct (A v), b; cbn; intuition congruence.
Qed.
Lemma part_rounded : forall c (F : list (uedge RN)), rounded c F = (rounded c (filter (fun e => Bool.eqb (side e) true) F) + rounded c (filter (fun e => Bool.eqb (side e) false) F))%Z.
Proof. intros c F. induction F as [|e F IH]; [reflexivity|]. cbn [filter]. destruct (side e); cbn [Bool.eqb]; rewrite !rounded_cons, IH; lia. Qed.
Lemma part_combines : forall S P Q, split_by g A S P Q -> combines g P Q S.
Proof. intros S P Q H v Hv. destruct (H v Hv) as [-> ->]. destruct (A v); intuition congruence. Qed.

Hypothesis POS : forall e, In e (edges g) -> (0 <= weight e)%R.
Lemma reported_sum : forall d x y z, (0 < d)%R -> (d <= IZR (2 ^ 1024))%R -> (0 <= x)%Z -> (0 <= y)%Z -> (x + y <= z)%Z -> (reported d x + reported d y <= reported d z * (1 + / IZR (2 ^ 47)))%R.
Proof.
  intros d x y z Hd HL Hx Hy Hz. pose proof (reported_mono d (x + y) z Hd Hz) as M.
  pose proof (fl_quotient x d Hd HL) as E1. pose proof (fl_quotient y d Hd HL) as E2. pose proof (fl_quotient (x + y) d Hd HL) as E3. fold (reported d x) in E1. fold (reported d y) in E2. fold (reported d (x + y)) in E3.
  assert (P : forall k, (0 <= k)%Z -> (0 <= IZR k / d)%R) by (intros k Hk; apply Rmult_le_pos; [now apply IZR_le|left; now apply Rinv_0_lt_compat]).
  rewrite Rabs_pos_eq with (x := (IZR x / d)%R) in E1 by now apply P. rewrite Rabs_pos_eq with (x := (IZR y / d)%R) in E2 by now apply P. rewrite Rabs_pos_eq with (x := (IZR (x + y) / d)%R) in E3 by (apply P; lia).
  assert (S : (IZR (x + y) / d = IZR x / d + IZR y / d)%R) by (rewrite plus_IZR; field; lra). rewrite S in E3. pose proof (P x Hx) as P1. pose proof (P y Hy) as P2.
  apply Rabs_le_inv in E1. apply Rabs_le_inv in E2. apply Rabs_le_inv in E3. change (IZR (2 ^ 47)) with 140737488355328%R.
  set (a := reported d x) in *. set (b := reported d y) in *. set (e := reported d (x + y)) in *. set (s := reported d z) in *. set (p := (IZR x / d)%R) in *. set (q := (IZR y / d)%R) in *. clearbody a b e s p q. lra.
Qed.
Lemma told_parts : forall S P Q s p q, split_by g A S P Q -> told g S s -> told g P p -> told g Q q ->
  (s <= (p + q) * (1 + / IZR (2 ^ 47)))%R /\ (p + q <= s * (1 + / IZR (2 ^ 47)))%R /\
  ((forall e, In e (edges g) -> exists k, weight e = IZR k) -> (p <= IZR (2 ^ 51))%R -> (q <= IZR (2 ^ 51))%R -> s = (p + q)%R).
Proof.
  intros S P Q s p q SB TS TP TQ. destruct (told_triangle g POS P Q S p q s (part_combines S P Q SB) TP TQ TS) as [U1 U2].
  destruct TP as (c & e1 & F1 & C & E1 & K1 & A1 & ->), TQ as (c2 & e2 & F2 & C2 & E2 & K2 & A2 & ->), TS as (c3 & e3 & F3 & C3 & E3 & K3 & A3 & ->).
  rewrite C in C2, C3. injection C2 as <-. injection C3 as <-.
  assert (X1 : (rounded c F1 <= rounded c (filter (fun e => Bool.eqb (side e) true) F3))%Z) by (apply A1; apply (part_corrects true F3 e3 e1 K3); intros v Hv; rewrite E1, E3; exact (proj1 (SB v Hv))).
  assert (X2 : (rounded c F2 <= rounded c (filter (fun e => Bool.eqb (side e) false) F3))%Z) by (apply A2; apply (part_corrects false F3 e3 e2 K3); intros v Hv; rewrite E2, E3; exact (proj2 (SB v Hv))).
  pose proof (part_rounded c F3) as X3. destruct K1 as (N1 & I1 & _), K2 as (N2 & I2 & _).
  assert (G1 : (0 <= rounded c F1)%Z) by (apply rounded_nonneg; intros e He; apply (pos_kept g c C POS); auto). assert (G2 : (0 <= rounded c F2)%Z) by (apply rounded_nonneg; intros e He; apply (pos_kept g c C POS); auto).
  destruct (constant_pos _ _ C) as [H1 H2]. split; [exact U1|]. split; [apply reported_sum; [lra|lra|exact G1|exact G2|lia]|].
  intros HI L1 L2. apply Rle_antisym; [exact (U2 HI L1 L2)|]. assert (c = 1%R) by (apply (normalising_integral _ c C); intros x Hx; apply in_map_iff in Hx as (e & <- & He); auto). subst c.
  destruct (rounded_even 1 F1) as [x Ex], (rounded_even 1 F2) as [y Ey]. rewrite Ex in L1. rewrite Ey in L2. apply small_half in L1. apply small_half in L2.
  apply Rle_trans with (reported (2 * 1) (2 * (x + y))); [|apply reported_mono; [lra|lia]]. right. rewrite Ex, Ey. unfold reported. rewrite Rmult_1_r, !fl_half by lia. symmetry. apply plus_IZR.
Qed.
Lemma part_solvable : forall (b : bool) (S P : nat -> Prop) e1, (forall v, ~ In v (bnodes g) -> (P v <-> S v /\ A v = b)) -> (forall v, In v e1 <-> P v) -> solvable g S -> solvable g P.
Proof.
  intros b S P e1 SB E1 (e3 & F3 & E3 & K3). exists e1, (filter (fun e => Bool.eqb (side e) b) F3). split; [exact E1|]. apply (part_corrects b F3 e3 e1 K3). intros v Hv. rewrite E1, E3. exact (SB v Hv).
Qed.
End Parts.

(** ** Sessions *)
Lemma session_parts : forall n k cs c Ps A, let g := graph_after (new_graph RN n k) cs in
  all_fair (new_graph RN n k) (cs ++ [c]) -> asks_weights g c Ps -> (forall e, In e (edges g) -> (0 <= weight e)%R) -> separate g A ->
  exists K m rs r, (forall fuel, K <= fuel -> mrun fuel cyclic_ints (new_matching (new_graph RN n k)) (cs ++ [c]) = Ok (m, rs ++ [r])) /\
    forall ws, weights_told r = Some ws -> length ws = length Ps /\
      forall S P Q s p q, In (S, s) (combine Ps ws) -> In (P, p) (combine Ps ws) -> In (Q, q) (combine Ps ws) -> split_by g A S P Q ->
        (s <= (p + q) * (1 + / IZR (2 ^ 47)))%R /\ (p + q <= s * (1 + / IZR (2 ^ 47)))%R /\
        ((forall e, In e (edges g) -> exists k, weight e = IZR k) -> (p <= IZR (2 ^ 51))%R -> (q <= IZR (2 ^ 51))%R -> s = (p + q)%R).
Proof.
  intros n k cs c Ps A g HF HW POS SEP. destruct (last_call n k cs c Ps HF HW) as (K & m & rs & r & R & _ & _ & T). exists K, m, rs, r. split; [exact R|]. intros ws Ew. rewrite Ew in T. fold g in T.
  split; [symmetry; exact (F2_length _ _ _ _ _ T)|].
  intros S P Q s p q H1 H2 H3 SB. exact (told_parts g A SEP POS S P Q s p q SB (F2_in _ _ _ _ _ _ _ T H1) (F2_in _ _ _ _ _ _ _ T H2) (F2_in _ _ _ _ _ _ _ T H3)).
Qed.
Lemma told_one : forall (g : ugraph RN) z r, accepted g z -> right g (AskDecode z) r -> match weights_told r with Some ws => Forall2 (told g) [event_at z] ws | None => Exists (fun P => ~ solvable g P) [event_at z] end ->
  (r = Raised <-> ~ solvable g (event_at z)).
Proof.
  intros g z r X RT T. split.
  - intros ->. cbn in T. inversion T as [? ? N|? ? N]; subst; [exact N|inversion N].
  - intros N. exact (proj1 (proj2 RT) X N).
Qed.
Lemma session_parts_raise : forall n k cs z z1 z2 A, let g := graph_after (new_graph RN n k) cs in
  (forall y, In y [z; z1; z2] -> all_fair (new_graph RN n k) (cs ++ [AskDecode y]) /\ accepted g y) -> separate g A -> split_by g A (event_at z) (event_at z1) (event_at z2) ->
  exists K m m1 m2 rs rs1 rs2 r r1 r2,
    (forall fuel, K <= fuel -> mrun fuel cyclic_ints (new_matching (new_graph RN n k)) (cs ++ [AskDecode z]) = Ok (m, rs ++ [r])) /\
    (forall fuel, K <= fuel -> mrun fuel cyclic_ints (new_matching (new_graph RN n k)) (cs ++ [AskDecode z1]) = Ok (m1, rs1 ++ [r1])) /\
    (forall fuel, K <= fuel -> mrun fuel cyclic_ints (new_matching (new_graph RN n k)) (cs ++ [AskDecode z2]) = Ok (m2, rs2 ++ [r2])) /\
    (r = Raised <-> r1 = Raised \/ r2 = Raised).
Proof.
  intros n k cs z z1 z2 A g H SEP SB.
  destruct (H z (or_introl eq_refl)) as [H0 X0]. destruct (H z1 (or_intror (or_introl eq_refl))) as [H1 X1]. destruct (H z2 (or_intror (or_intror (or_introl eq_refl)))) as [H2 X2].
  destruct (last_call n k cs (AskDecode z) [event_at z] H0 (conj X0 eq_refl)) as (K & m & rs & r & A0 & _ & R0 & T0).
  destruct (last_call n k cs (AskDecode z1) [event_at z1] H1 (conj X1 eq_refl)) as (K1 & m1 & rs1 & r1 & A1 & _ & R1 & T1).
  destruct (last_call n k cs (AskDecode z2) [event_at z2] H2 (conj X2 eq_refl)) as (K2 & m2 & rs2 & r2 & A2 & _ & R2 & T2).
  exists (Nat.max K (Nat.max K1 K2)), m, m1, m2, rs, rs1, rs2, r, r1, r2. split; [intros; apply A0; lia|]. split; [intros; apply A1; lia|]. split; [intros; apply A2; lia|]. fold g in R0, R1, R2, T0, T1, T2.
  rewrite (told_one g z r X0 R0 T0), (told_one g z1 r1 X1 R1 T1), (told_one g z2 r2 X2 R2 T2).
  destruct (events_in_ok g z X0) as (e0 & _ & _ & E0). destruct (events_in_ok g z1 X1) as (e1 & _ & _ & E1). destruct (events_in_ok g z2 X2) as (e2 & _ & _ & E2). split.
  - intros N. destruct (classic (solvable g (event_at z1))) as [S1|S1]; [|now left]. right. intros S2. apply N. exact (combined_listed g _ _ _ e0 (part_combines g A _ _ _ SB) E0 S1 S2).
  - intros [N|N] S0; apply N; [exact (part_solvable g A SEP true _ _ e1 (fun v Hv => proj1 (SB v Hv)) E1 S0)|exact (part_solvable g A SEP false _ _ e2 (fun v Hv => proj2 (SB v Hv)) E2 S0)].
Qed.

(** ** Predictions *)
Lemma part_weight : forall (g : ugraph RN) A (F : list (uedge RN)), total_weight F = (total_weight (filter (fun e => Bool.eqb (side g A e) true) F) + total_weight (filter (fun e => Bool.eqb (side g A e) false) F))%R.
Proof.
  intros g A F. induction F as [|e F IH]; [cbn; lra|]. assert (C : forall X, total_weight (e :: X) = (weight e + total_weight X)%R) by reflexivity. cbn [filter]. destruct (side g A e); cbn [Bool.eqb]; rewrite !C, IH; lra.
Qed.
Lemma parts_best : forall (g : ugraph RN) A e0 e1 e2 F1 F2, separate g A -> split_by g A (fun v => In v e0) (fun v => In v e1) (fun v => In v e2) -> (forall e, In e (edges g) -> (0 <= weight e)%R /\ exists k, weight e = IZR k) ->
  corrects g F1 e1 -> near_best g F1 e1 -> corrects g F2 e2 -> near_best g F2 e2 -> corrects g (flip_all F1 F2) e0 /\ near_best g (flip_all F1 F2) e0.
Proof.
  intros g A e0 e1 e2 F1 F2 SEP SB W K1 B1 K2 B2. pose proof (corrects_sum g F1 F2 e1 e2 e0 K1 K2 (part_combines g A _ _ _ SB)) as K0. split; [exact K0|]. intros F' K'.
  assert (L : (total_weight (flip_all F1 F2) <= total_weight F')%R).
  { pose proof (proj2 (B1 _ (part_corrects g A SEP true F' e0 e1 K' (fun v Hv => proj1 (SB v Hv)))) (fun e He => proj2 (W e He))) as L1.
    pose proof (proj2 (B2 _ (part_corrects g A SEP false F' e0 e2 K' (fun v Hv => proj2 (SB v Hv)))) (fun e He => proj2 (W e He))) as L2.
    destruct K1 as (_ & I1 & _), K2 as (N2 & _ & _). destruct (flip_all_ok F1 F2 N2) as (_ & _ & _ & _ & L3). specialize (L3 (fun e He => proj1 (W e (I1 e He)))). pose proof (part_weight g A F'). lra. }
  split; [|intros _; exact L]. intros M HM. apply Rle_trans with (1 := L). destruct (in_dec Nat.eq_dec 0 [length (flip_all F1 F2) + length F']) as [[Z|[]]|N]; [rewrite Z; cbn [INR]; lra|].
  assert (X : exists e, In e (edges g)).
  { destruct K0 as (_ & I0 & _), K' as (_ & I' & _). destruct (flip_all F1 F2) as [|e l]; [destruct F' as [|e l]; [exfalso; apply N; now left|]|]; exists e; [apply I'|apply I0]; now left. }
  destruct X as [e He]. assert (HS : (0 <= half_step M)%R).
  { unfold half_step. apply Rmult_le_pos; [apply Rmult_le_pos; [apply Rle_trans with (2 := HM e He), Rabs_pos|]|]; [left; apply Rinv_0_lt_compat, IZR_lt; reflexivity|].
    assert (0 < / IZR (2 ^ 20))%R by (apply Rinv_0_lt_compat, IZR_lt; reflexivity). lra. }
  pose proof (Rmult_le_pos _ _ (pos_INR (length (flip_all F1 F2) + length F')) HS). lra.
Qed.
Lemma lxor_row : forall (f f1 f2 : nat -> bool) l, (forall i, f i = xorb (f1 i) (f2 i)) ->
  map (fun i => Z.b2z (f i)) l = map (fun x => Z.lxor (fst x) (snd x)) (combine (map (fun i => Z.b2z (f1 i)) l) (map (fun i => Z.b2z (f2 i)) l)).
Proof. intros f f1 f2 l H. induction l as [|i l IH]; [reflexivity|]. cbn [map combine fst snd]. rewrite <- IH, H. f_equal. now destruct (f1 i), (f2 i). Qed.
Lemma session_parts_row : forall n k cs z z1 z2 A, let g := graph_after (new_graph RN n k) cs in
  (forall y, In y [z; z1; z2] -> all_fair (new_graph RN n k) (cs ++ [AskDecode y]) /\ accepted g y) -> separate g A -> split_by g A (event_at z) (event_at z1) (event_at z2) ->
  (forall e, In e (edges g) -> (0 <= weight e)%R /\ exists k, weight e = IZR k) -> clear_cut g (event_at z) ->
  exists K m m1 m2 rs rs1 rs2 r r1 r2,
    (forall fuel, K <= fuel -> mrun fuel cyclic_ints (new_matching (new_graph RN n k)) (cs ++ [AskDecode z]) = Ok (m, rs ++ [r])) /\
    (forall fuel, K <= fuel -> mrun fuel cyclic_ints (new_matching (new_graph RN n k)) (cs ++ [AskDecode z1]) = Ok (m1, rs1 ++ [r1])) /\
    (forall fuel, K <= fuel -> mrun fuel cyclic_ints (new_matching (new_graph RN n k)) (cs ++ [AskDecode z2]) = Ok (m2, rs2 ++ [r2])) /\
    (solvable g (event_at z) -> exists row w row1 w1 row2 w2, r = Row row w /\ r1 = Row row1 w1 /\ r2 = Row row2 w2 /\ row = map (fun x => Z.lxor (fst x) (snd x)) (combine row1 row2)).
Proof.
  intros n k cs z z1 z2 A g H SEP SB W CC.
  destruct (H z (or_introl eq_refl)) as [H0 X0]. destruct (H z1 (or_intror (or_introl eq_refl))) as [H1 X1]. destruct (H z2 (or_intror (or_intror (or_introl eq_refl)))) as [H2 X2].
  destruct (last_call n k cs (AskDecode z) [event_at z] H0 (conj X0 eq_refl)) as (K & m & rs & r & A0 & _ & R0 & _).
  destruct (last_call n k cs (AskDecode z1) [event_at z1] H1 (conj X1 eq_refl)) as (K1 & m1 & rs1 & r1 & A1 & _ & R1 & _).
  destruct (last_call n k cs (AskDecode z2) [event_at z2] H2 (conj X2 eq_refl)) as (K2 & m2 & rs2 & r2 & A2 & _ & R2 & _).
  exists (Nat.max K (Nat.max K1 K2)), m, m1, m2, rs, rs1, rs2, r, r1, r2. split; [intros; apply A0; lia|]. split; [intros; apply A1; lia|]. split; [intros; apply A2; lia|]. fold g in R0, R1, R2. intros S0.
  destruct (events_in_ok g z1 X1) as (e1 & _ & _ & E1). destruct (events_in_ok g z2 X2) as (e2 & _ & _ & E2).
  pose proof (part_solvable g A SEP true _ _ e1 (fun v Hv => proj1 (SB v Hv)) E1 S0) as S1. pose proof (part_solvable g A SEP false _ _ e2 (fun v Hv => proj2 (SB v Hv)) E2 S0) as S2.
  destruct (proj1 R0 X0 S0) as (row & w & -> & v0 & F & V0 & -> & C0 & B0 & _). destruct (proj1 R1 X1 S1) as (row1 & w1 & -> & v1 & F1 & V1 & -> & C1 & B1 & _). destruct (proj1 R2 X2 S2) as (row2 & w2 & -> & v2 & F2 & V2 & -> & C2 & B2 & _).
  do 6 eexists. do 3 (split; [reflexivity|]).
  assert (SB' : split_by g A (fun v => In v v0) (fun v => In v v1) (fun v => In v v2)) by (intros v Hv; rewrite V0, V1, V2; exact (SB v Hv)).
  destruct (parts_best g A v0 v1 v2 F1 F2 SEP SB' W C1 B1 C2 B2) as [C3 B3]. apply lxor_row. intros i. rewrite (CC v0 F (flip_all F1 F2) V0 C0 B0 C3 B3 i).
  destruct C2 as (N2 & _). destruct (flip_all_ok F1 F2 N2) as (_ & _ & _ & D & _). apply D.
Qed.
