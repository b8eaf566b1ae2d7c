(** The reported weight as a measure of distance. *)
From Coq Require Import Reals ZArith NArith List Bool Arith Lia Lra Permutation Classical.
From Verif Require Import M_Base M_Core M_CoreHeap M_Build S_Build M_Discretise P_Discretise M_Merge M_Bits S_Bits M_Double P_Double M_Pipeline M_Matching S_Matching M_UserGraph S_UserGraph P_UserGraph S_Pipeline P_Pipeline P_Matched P_Matching P_Distance S_Weights P_Weights S_Triangle.
Import ListNotations.
Local Open Scope nat_scope.

Definition zw (c : R) (e : uedge RN) : Z := discretise c (weight e).
Lemma rounded_cons : forall c e F, rounded c (e :: F) = (zw c e + rounded c F)%Z.
Proof. reflexivity. Qed.
Lemma rounded_perm : forall c F F', Permutation F F' -> rounded c F = rounded c F'.
Proof. intros c F F' P. induction P; [reflexivity| | |congruence]; rewrite !rounded_cons; lia. Qed.
Lemma rounded_even : forall c F, exists t, rounded c F = (2 * t)%Z.
Proof. intros c F. induction F as [|e F [t IH]]; [exists 0%Z; reflexivity|]. rewrite rounded_cons, IH. unfold zw, discretise. eexists. rewrite <- Z.mul_add_distr_l. reflexivity. Qed.
Lemma rounded_nonneg : forall c F, (forall e, In e F -> (0 <= zw c e)%Z) -> (0 <= rounded c F)%Z.
Proof. intros c F H. induction F as [|e F IH]; [reflexivity|]. rewrite rounded_cons. pose proof (H e (or_introl eq_refl)). pose proof (IH (fun x Hx => H x (or_intror Hx))). lia. Qed.
Lemma flip_rounded : forall c e F, NoDup F -> (0 <= zw c e)%Z -> (rounded c (flip e F) <= zw c e + rounded c F)%Z.
Proof.
  intros c e F ND P. unfold flip. destruct (in_dec uedge_dec e F) as [H|H]; [|rewrite rounded_cons; lia]. destruct (remove_perm e F ND H) as [Q _]. rewrite (rounded_perm c _ _ Q), rounded_cons. lia.
Qed.
Lemma flip_all_rounded : forall c E F, NoDup F -> (forall e, In e E -> (0 <= zw c e)%Z) -> (rounded c (flip_all E F) <= rounded c E + rounded c F)%Z.
Proof.
  intros c E F ND. induction E as [|e E IH]; intros H; [change (flip_all [] F) with F; change (rounded c []) with 0%Z; lia|]. change (flip_all (e :: E) F) with (flip e (flip_all E F)). rewrite rounded_cons.
  pose proof (flip_rounded c e (flip_all E F) (proj1 (flip_all_ok E F ND)) (H e (or_introl eq_refl))). pose proof (IH (fun x Hx => H x (or_intror Hx))). lia.
Qed.
Lemma corrects_sum : forall g F1 F2 e1 e2 e3, corrects g F1 e1 -> corrects g F2 e2 -> combines g (fun v => In v e1) (fun v => In v e2) (fun v => In v e3) -> corrects g (flip_all F1 F2) e3.
Proof.
  intros g F1 F2 e1 e2 e3 (N1 & I1 & D1) (N2 & I2 & D2) C. destruct (flip_all_ok F1 F2 N2) as (A & B & D & _). split; [exact A|]. split; [intros x Hx; apply B, in_app_or in Hx as [Hx|Hx]; auto|].
  intros v Hv. rewrite D, (C v Hv), <- (D1 v Hv), <- (D2 v Hv). destruct (Nat.odd (total_degree v F1)), (Nat.odd (total_degree v F2)); cbn [xorb]; intuition congruence.
Qed.

Lemma constant_pos : forall ws c, normalising_constant ws = Ok c -> (0 < c /\ 2 * c <= IZR (2 ^ 1024))%R.
Proof. intros ws c H. destruct (constant_cases ws c (max_abs ws) H (proj1 (proj2 (max_abs_fold ws 0%R)))) as (A & B & _). auto. Qed.
Lemma reported_mono : forall d x y, (0 < d)%R -> (x <= y)%Z -> (reported d x <= reported d y)%R.
Proof.
  intros d x y Hd H. unfold reported. apply fl_le. apply Rmult_le_compat_r; [left; now apply Rinv_0_lt_compat|]. apply fl_le. now apply IZR_le.
Qed.
Lemma reported_0 : forall d, reported d 0 = 0%R.
Proof. intros d. unfold reported. rewrite fl_0. unfold Rdiv. rewrite Rmult_0_l. exact fl_0. Qed.
Lemma reported_triangle : forall d x y z, (0 < d)%R -> (d <= IZR (2 ^ 1024))%R -> (0 <= x)%Z -> (0 <= y)%Z -> (z <= x + y)%Z -> (reported d z <= (reported d x + reported d y) * (1 + / IZR (2 ^ 47)))%R.
Proof.
  intros d x y z Hd HL Hx Hy Hz. pose proof (reported_mono d z (x + y) Hd Hz) as M.
  pose proof (fl_quotient x d Hd HL) as E1. pose proof (fl_quotient y d Hd HL) as E2. pose proof (fl_quotient (x + y) d Hd HL) as E3. fold (reported d x) in E1. fold (reported d y) in E2. fold (reported d (x + y)) in E3.
  assert (P : forall k, (0 <= k)%Z -> (0 <= IZR k / d)%R) by (intros k Hk; apply Rmult_le_pos; [now apply IZR_le|left; now apply Rinv_0_lt_compat]).
  rewrite Rabs_pos_eq with (x := (IZR x / d)%R) in E1 by now apply P. rewrite Rabs_pos_eq with (x := (IZR y / d)%R) in E2 by now apply P. rewrite Rabs_pos_eq with (x := (IZR (x + y) / d)%R) in E3 by (apply P; lia).
  assert (S : (IZR (x + y) / d = IZR x / d + IZR y / d)%R) by (rewrite plus_IZR; field; lra). rewrite S in E3. pose proof (P x Hx) as P1. pose proof (P y Hy) as P2.
  apply Rabs_le_inv in E1. apply Rabs_le_inv in E2. apply Rabs_le_inv in E3. change (IZR (2 ^ 47)) with 140737488355328%R.
  set (a := reported d x) in *. set (b := reported d y) in *. set (e := reported d (x + y)) in *. set (p := (IZR x / d)%R) in *. set (q := (IZR y / d)%R) in *. clearbody a b e p q. lra.
Qed.
Lemma small_half : forall t, (reported (2 * 1) (2 * t) <= IZR (2 ^ 51))%R -> (t <= 2 ^ 51)%Z.
Proof.
  intros t L. destruct (Z_le_gt_dec t (2 ^ 51)) as [|G]; [assumption|exfalso]. assert (X : (reported (2 * 1) (2 * (2 ^ 51 + 1)) <= reported (2 * 1) (2 * t))%R) by (apply reported_mono; [lra|lia]).
  assert (Y : reported (2 * 1) (2 * (2 ^ 51 + 1)) = IZR (2 ^ 51 + 1)) by (unfold reported; rewrite Rmult_1_r; apply fl_half; lia).
  rewrite Y in X. assert (Z : (IZR (2 ^ 51 + 1) <= IZR (2 ^ 51))%R) by lra. apply le_IZR in Z. lia.
Qed.
Lemma reported_exact : forall x y z, (0 <= x)%Z -> (0 <= y)%Z -> (2 * z <= 2 * x + 2 * y)%Z -> (reported (2 * 1) (2 * x) <= IZR (2 ^ 51))%R -> (reported (2 * 1) (2 * y) <= IZR (2 ^ 51))%R ->
  (reported (2 * 1) (2 * z) <= reported (2 * 1) (2 * x) + reported (2 * 1) (2 * y))%R.
Proof.
  intros x y z Hx Hy Hz Lx Ly. apply small_half in Lx. apply small_half in Ly. apply Rle_trans with (reported (2 * 1) (2 * (x + y))); [apply reported_mono; [lra|lia]|].
  right. unfold reported. rewrite Rmult_1_r, !fl_half by lia. apply plus_IZR.
Qed.

(** ** Weights told for the shots of one call *)
Section Told.
Variable g : ugraph RN.
Hypothesis POS : forall e, In e (edges g) -> (0 <= weight e)%R.
Lemma told_nonneg : forall P w, told g P w -> (0 <= w)%R.
Proof.
  intros P w (c & evs & F & C & _ & (_ & I & _) & _ & ->). rewrite <- (reported_0 (2 * c)). destruct (constant_pos _ _ C). apply reported_mono; [lra|]. apply rounded_nonneg. intros e He. apply (pos_kept g c C POS). auto.
Qed.
Lemma told_nothing : forall P w, no_events g P -> told g P w -> w = 0%R.
Proof.
  intros P w N (c & evs & F & C & E & (_ & I & _) & A & ->). rewrite <- (reported_0 (2 * c)). f_equal. apply Z.le_antisymm; [|apply rounded_nonneg; intros e He; apply (pos_kept g c C POS); auto].
  apply (A []). split; [constructor|]. split; [intros e []|]. intros v Hv. cbn. split; [discriminate|]. intros H. apply E in H. destruct (N v Hv H).
Qed.
Lemma told_triangle : forall P Q S p q s, combines g P Q S -> told g P p -> told g Q q -> told g S s ->
  (s <= (p + q) * (1 + / IZR (2 ^ 47)))%R /\ ((forall e, In e (edges g) -> exists k, weight e = IZR k) -> (p <= IZR (2 ^ 51))%R -> (q <= IZR (2 ^ 51))%R -> (s <= p + q)%R).
Proof.
  intros P Q S p q s CB (c & e1 & F1 & C & E1 & K1 & _ & ->) (c2 & e2 & F2 & C2 & E2 & K2 & _ & ->) (c3 & e3 & F3 & C3 & E3 & K3 & A3 & ->).
  rewrite C in C2, C3. injection C2 as <-. injection C3 as <-.
  assert (CB' : combines g (fun v => In v e1) (fun v => In v e2) (fun v => In v e3)) by (intros v Hv; rewrite E1, E2, E3; exact (CB v Hv)).
  pose proof (A3 _ (corrects_sum g F1 F2 e1 e2 e3 K1 K2 CB')) as L. destruct K1 as (N1 & I1 & _), K2 as (N2 & I2 & _).
  assert (G1 : forall e, In e F1 -> (0 <= zw c e)%Z) by (intros e He; apply (pos_kept g c C POS); auto). assert (G2 : forall e, In e F2 -> (0 <= zw c e)%Z) by (intros e He; apply (pos_kept g c C POS); auto).
  pose proof (flip_all_rounded c F1 F2 N2 G1) as L2. pose proof (rounded_nonneg c F1 G1) as P1. pose proof (rounded_nonneg c F2 G2) as P2. destruct (constant_pos _ _ C) as [H1 H2]. split.
  - apply reported_triangle; [lra|lra|exact P1|exact P2|lia].
  - intros HI. assert (c = 1%R) by (apply (normalising_integral _ c C); intros x Hx; apply in_map_iff in Hx as (e & <- & He); auto). subst c.
        destruct (rounded_even 1 F1) as [x Ex], (rounded_even 1 F2) as [y Ey], (rounded_even 1 F3) as [z Ez]. rewrite Ex, Ey, Ez. apply reported_exact; lia.
Qed.
End Told.
Lemma combined_listed : forall (g : ugraph RN) P Q S e3, combines g P Q S -> (forall v, In v e3 <-> S v) -> solvable g P -> solvable g Q -> solvable g S.
Proof.
  intros g P Q S e3 CB E3 (e1 & F1 & E1 & K1) (e2 & F2 & E2 & K2). exists e3, (flip_all F1 F2). split; [exact E3|]. apply (corrects_sum g F1 F2 e1 e2 e3 K1 K2). intros v Hv. rewrite E1, E2, E3. exact (CB v Hv).
Qed.
Lemma F2_in : forall (A B : Type) (R : A -> B -> Prop) l1 l2 a b, Forall2 R l1 l2 -> In (a, b) (combine l1 l2) -> R a b.
Proof. intros A B R l1 l2 a b H. induction H as [|x y l1 l2 H1 H2 IH]; intros I; [destruct I|]. destruct I as [I|I]; [injection I as <- <-; exact H1|auto]. Qed.

Lemma F2_length : forall (A B : Type) (R : A -> B -> Prop) l1 l2, Forall2 R l1 l2 -> length l1 = length l2.
Proof. intros A B R l1 l2 H. induction H; cbn; congruence. Qed.
Lemma F2_head : forall (A B : Type) (R : A -> B -> Prop) a b l1 l2, Forall2 R (a :: l1) (b :: l2) -> R a b.
Proof. intros A B R a b l1 l2 H. now inversion H. Qed.

(** ** Sessions *)
Lemma session_norm : forall n k cs c Ps, let g := graph_after (new_graph RN n k) cs in
  all_fair (new_graph RN n k) (cs ++ [c]) -> asks_weights g c Ps -> (forall e, In e (edges g) -> (0 <= weight e)%R) ->
  exists K m rs r, (forall fuel, K <= fuel -> mrun fuel cyclic_ints (new_matching (new_graph RN n k)) (cs ++ [c]) = Ok (m, rs ++ [r])) /\
    forall ws, weights_told r = Some ws -> length ws = length Ps /\
      (forall P w, In (P, w) (combine Ps ws) -> (0 <= w)%R /\ (no_events g P -> w = 0%R)) /\
      forall P Q S p q s, In (P, p) (combine Ps ws) -> In (Q, q) (combine Ps ws) -> In (S, s) (combine Ps ws) -> combines g P Q S ->
        (s <= (p + q) * (1 + / IZR (2 ^ 47)))%R /\
        ((forall e, In e (edges g) -> exists k, weight e = IZR k) -> (p <= IZR (2 ^ 51))%R -> (q <= IZR (2 ^ 51))%R -> (s <= p + q)%R).
Proof.
  intros n k cs c Ps g HF HW POS. destruct (last_call n k cs c Ps HF HW) as (K & m & rs & r & A & _ & _ & T). exists K, m, rs, r. split; [exact A|]. intros ws Ew. rewrite Ew in T. fold g in T.
  split; [symmetry; exact (F2_length _ _ _ _ _ T)|]. split.
  - intros P w Hi. pose proof (F2_in _ _ _ _ _ _ _ T Hi) as X. split; [exact (told_nonneg g POS P w X)|]. intros N. exact (told_nothing g POS P w N X).
  - intros P Q S p q s H1 H2 H3 CB. exact (told_triangle g POS P Q S p q s CB (F2_in _ _ _ _ _ _ _ T H1) (F2_in _ _ _ _ _ _ _ T H2) (F2_in _ _ _ _ _ _ _ T H3)).
Qed.
Lemma told_more : forall g1 g2 P1 P2 w1 w2, has_more_edges g1 g2 -> (forall e, In e (edges g2) -> exists k, weight e = IZR k) -> (forall v, ~ In v (bnodes g1) -> (P1 v <-> P2 v)) -> told g1 P1 w1 -> told g2 P2 w2 -> (w2 <= w1)%R.
Proof.
  intros g1 g2 P1 P2 w1 w2 [HI HB] HZ HP (c1 & e1 & F1 & C1 & E1 & (N1 & I1 & D1) & _ & ->) (c2 & e2 & F2 & C2 & E2 & K2 & A2 & ->).
  assert (c1 = 1%R) by (apply (normalising_integral _ c1 C1); intros x Hx; apply in_map_iff in Hx as (e & <- & He); auto). assert (c2 = 1%R) by (apply (normalising_integral _ c2 C2); intros x Hx; apply in_map_iff in Hx as (e & <- & He); auto). subst c1 c2.
  apply reported_mono; [lra|]. apply A2. split; [exact N1|]. split; [intros e He; auto|]. intros v Hv. rewrite <- HB in Hv. rewrite (D1 v Hv), E1, E2. exact (HP v Hv).
Qed.
Lemma solvable_more : forall g1 g2 P1 P2 e2, has_more_edges g1 g2 -> (forall v, ~ In v (bnodes g1) -> (P1 v <-> P2 v)) -> (forall v, In v e2 <-> P2 v) -> solvable g1 P1 -> solvable g2 P2.
Proof.
  intros g1 g2 P1 P2 e2 [HI HB] HP E2 (e1 & F & E1 & (N1 & I1 & D1)). exists e2, F. split; [exact E2|]. split; [exact N1|]. split; [intros e He; auto|]. intros v Hv. rewrite <- HB in Hv. rewrite (D1 v Hv), E1, E2. exact (HP v Hv).
Qed.
Lemma told_solvable : forall g P w, told g P w -> solvable g P.
Proof. intros g P w (c & evs & F & _ & E & H & _). now exists evs, F. Qed.
Lemma session_three : forall n k cs z1 z2 z3, let g := graph_after (new_graph RN n k) cs in
  (forall z, In z [z1; z2; z3] -> all_fair (new_graph RN n k) (cs ++ [AskDecode z]) /\ accepted g z) -> (forall e, In e (edges g) -> (0 <= weight e)%R) ->
  combines g (event_at z1) (event_at z2) (event_at z3) ->
  exists K m1 m2 m3 rs1 rs2 rs3 r1 r2 r3,
    (forall fuel, K <= fuel -> mrun fuel cyclic_ints (new_matching (new_graph RN n k)) (cs ++ [AskDecode z1]) = Ok (m1, rs1 ++ [r1])) /\
    (forall fuel, K <= fuel -> mrun fuel cyclic_ints (new_matching (new_graph RN n k)) (cs ++ [AskDecode z2]) = Ok (m2, rs2 ++ [r2])) /\
    (forall fuel, K <= fuel -> mrun fuel cyclic_ints (new_matching (new_graph RN n k)) (cs ++ [AskDecode z3]) = Ok (m3, rs3 ++ [r3])) /\
    forall p q, weights_told r1 = Some [p] -> weights_told r2 = Some [q] -> exists s, weights_told r3 = Some [s] /\ (s <= (p + q) * (1 + / IZR (2 ^ 47)))%R.
Proof.
  intros n k cs z1 z2 z3 g H POS CB.
  destruct (H z1 (or_introl eq_refl)) as [H1 X1]. destruct (H z2 (or_intror (or_introl eq_refl))) as [H2 X2]. destruct (H z3 (or_intror (or_intror (or_introl eq_refl)))) as [H3 X3].
  destruct (last_call n k cs (AskDecode z1) [event_at z1] H1 (conj X1 eq_refl)) as (K1 & m1 & rs1 & r1 & A1 & _ & _ & T1).
  destruct (last_call n k cs (AskDecode z2) [event_at z2] H2 (conj X2 eq_refl)) as (K2 & m2 & rs2 & r2 & A2 & _ & _ & T2).
  destruct (last_call n k cs (AskDecode z3) [event_at z3] H3 (conj X3 eq_refl)) as (K3 & m3 & rs3 & r3 & A3 & _ & _ & T3).
  exists (Nat.max K1 (Nat.max K2 K3)), m1, m2, m3, rs1, rs2, rs3, r1, r2, r3. split; [intros; apply A1; lia|]. split; [intros; apply A2; lia|]. split; [intros; apply A3; lia|].
  intros p q E1 E2. rewrite E1 in T1. rewrite E2 in T2. fold g in T1, T2, T3. apply F2_head in T1. apply F2_head in T2. destruct (weights_told r3) as [ws|].
  - inversion T3 as [|a s l ws' T4 T5]; subst. inversion T5; subst. exists s. split; [reflexivity|]. exact (proj1 (told_triangle g POS _ _ _ p q s CB T1 T2 T4)).
  - exfalso. apply Exists_exists in T3 as (S & [<-|[]] & NS). apply NS. destruct (events_in_ok g z3 X3) as (e3 & _ & _ & E3). exact (combined_listed g _ _ _ e3 CB E3 (told_solvable _ _ _ T1) (told_solvable _ _ _ T2)).
Qed.
Lemma session_more : forall n1 k1 cs1 c1 Ps1 n2 k2 cs2 c2 Ps2, let g1 := graph_after (new_graph RN n1 k1) cs1 in let g2 := graph_after (new_graph RN n2 k2) cs2 in
  all_fair (new_graph RN n1 k1) (cs1 ++ [c1]) -> all_fair (new_graph RN n2 k2) (cs2 ++ [c2]) -> has_more_edges g1 g2 -> (forall e, In e (edges g2) -> exists k, weight e = IZR k) ->
  asks_weights g1 c1 Ps1 -> asks_weights g2 c2 Ps2 -> Forall2 (same_events (fun v => v) g1) Ps1 Ps2 ->
  exists K m1 rs1 r1 m2 rs2 r2,
    (forall fuel, K <= fuel -> mrun fuel cyclic_ints (new_matching (new_graph RN n1 k1)) (cs1 ++ [c1]) = Ok (m1, rs1 ++ [r1])) /\
    (forall fuel, K <= fuel -> mrun fuel cyclic_ints (new_matching (new_graph RN n2 k2)) (cs2 ++ [c2]) = Ok (m2, rs2 ++ [r2])) /\
    forall ws1, weights_told r1 = Some ws1 -> exists ws2, weights_told r2 = Some ws2 /\ Forall2 Rle ws2 ws1.
Proof.
  intros n1 k1 cs1 c1 Ps1 n2 k2 cs2 c2 Ps2 g1 g2 H1 H2 HM HZ W1 W2 SE.
  destruct (last_call n1 k1 cs1 c1 Ps1 H1 W1) as (K1 & m1 & rs1 & r1 & A1 & _ & _ & A2). destruct (last_call n2 k2 cs2 c2 Ps2 H2 W2) as (K2 & m2 & rs2 & r2 & B1 & _ & _ & B2). fold g1 in A2. fold g2 in B2.
  exists (Nat.max K1 K2), m1, rs1, r1, m2, rs2, r2. split; [intros; apply A1; lia|]. split; [intros; apply B1; lia|]. intros ws1 E1. rewrite E1 in A2. destruct (weights_told r2) as [ws2|].
  - exists ws2. split; [reflexivity|]. clear -A2 B2 SE HM HZ. revert ws1 ws2 A2 B2. induction SE as [|P1 P2 l1 l2 HP _ IH]; intros ws1 ws2 A2 B2; inversion A2; inversion B2; subst; constructor; [|auto]. eapply (told_more g1 g2 P1 P2); eassumption.
  - exfalso. pose proof (asked_listed g2 c2 Ps2 W2) as L2. clear -A2 B2 SE HM L2. revert ws1 A2. induction SE as [|P1 P2 l1 l2 HP _ IH]; intros ws1 A2; inversion B2 as [? ? NS|? ? NS]; subst; inversion A2 as [|? ? ? ? T A3]; subst; inversion L2 as [|? ? (e2 & _ & E2) L3]; subst.
    + apply NS. exact (solvable_more g1 g2 P1 P2 e2 HM HP E2 (told_solvable _ _ _ T)).
    + exact (IH NS L3 _ A3).
Qed.
