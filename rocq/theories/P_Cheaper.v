(** Cheaper edges never make a reported weight larger. *)
From Coq Require Import Reals ZArith NArith List Bool Arith Lia Lra Permutation Classical.
From Verif Require Import M_Base M_Core M_CoreHeap M_Build S_Build M_Discretise P_Discretise M_Merge M_Bits S_Bits M_Double P_Double M_Pipeline M_Matching S_Matching M_UserGraph S_UserGraph P_UserGraph S_Pipeline P_Pipeline P_Matched P_Matching P_Distance S_Weights P_Weights S_Triangle P_Triangle S_Cheaper.
Import ListNotations.
Local Open Scope nat_scope.

Definition cheaper (e1 e2 : uedge RN) : Prop := joins e2 (node1 e1) (node2 e1) /\ (weight e2 <= weight e1)%R.
Section Cheaper.
Variables g1 g2 : ugraph RN.
Hypothesis SIMPLE : forall e e' : uedge RN, In e (edges g1) -> In e' (edges g1) -> joins e (node1 e') (node2 e') -> e = e'.
Hypothesis ND : no_dearer g1 g2.
Lemma cheaper_set : forall F, NoDup F -> incl F (edges g1) -> exists F', NoDup F' /\ incl F' (edges g2) /\ Forall2 cheaper F F'.
Proof.
  induction F as [|e F IH]; intros N I; [exists []; split; [constructor|split; [intros x []|constructor]]|]. inversion N as [|? ? NI N']; subst. destruct (IH N' (fun x Hx => I x (or_intror Hx))) as (F' & A & B & C).
  destruct (proj1 ND e (I e (or_introl eq_refl))) as (e2 & H1 & H2 & H3). exists (e2 :: F'). split; [|split; [intros x [<-|Hx]; auto|constructor; [split; assumption|exact C]]]. constructor; [|exact A]. intros H.
  assert (X : exists f, In f F /\ cheaper f e2) by (clear -C H; induction C as [|a b l l' Hab _ IH]; [destruct H|]; destruct H as [<-|H]; [exists a; split; [now left|exact Hab]|]; destruct (IH H) as (f & P & Q); exists f; split; [now right|exact Q]).
  destruct X as (f & Hf & (J & _)). apply NI. assert (e = f); [|now subst]. apply SIMPLE; [apply I; now left|apply I; now right|]. apply joins_sym in H2. apply joins_sym in J.
  clear -H2 J. unfold joins in *. destruct H2 as [[P Q]|[P Q]], J as [[P' Q']|[P' Q']]; [left|right|right|left]; split; congruence.
Qed.
Lemma joins_ends : forall (e e' : uedge RN) v, joins e (node1 e') (node2 e') -> edge_ends v e = edge_ends v e'.
Proof. intros e e' v [[A B]|[A B]]; unfold edge_ends; [now rewrite A, B|]. rewrite A, B. lia. Qed.
Lemma cheaper_degree : forall F F', Forall2 cheaper F F' -> forall v, total_degree v F' = total_degree v F.
Proof. intros F F' H v. induction H as [|a b F F' [J _] _ IH]; [reflexivity|]. change (edge_ends v b + total_degree v F' = edge_ends v a + total_degree v F). now rewrite IH, (joins_ends b a v J). Qed.
Lemma cheaper_corrects : forall F e1 e2, (forall v, ~ In v (bnodes g1) -> (In v e1 <-> In v e2)) -> corrects g1 F e1 -> exists F', corrects g2 F' e2 /\ Forall2 cheaper F F'.
Proof.
  intros F e1 e2 HE (N & I & D). destruct (cheaper_set F N I) as (F' & A & B & C). exists F'. split; [|exact C]. split; [exact A|]. split; [exact B|]. intros v Hv. rewrite <- (proj2 ND) in Hv. rewrite (cheaper_degree F F' C), (D v Hv). now apply HE.
Qed.
Hypothesis Z1 : forall e, In e (edges g1) -> exists k, weight e = IZR k.
Hypothesis Z2 : forall e, In e (edges g2) -> exists k, weight e = IZR k.
Lemma told_cheaper : forall P1 P2 w1 w2, (forall v, ~ In v (bnodes g1) -> (P1 v <-> P2 v)) -> told g1 P1 w1 -> told g2 P2 w2 -> (w2 <= w1)%R.
Proof.
  intros P1 P2 w1 w2 HP (c1 & e1 & F1 & C1 & E1 & K1 & _ & ->) (c2 & e2 & F2 & C2 & E2 & K2 & A2 & ->).
  assert (W1 : forall x, In x (map weight (edges g1)) -> exists k, x = IZR k) by (intros x Hx; apply in_map_iff in Hx as (e & <- & He); auto). assert (W2 : forall x, In x (map weight (edges g2)) -> exists k, x = IZR k) by (intros x Hx; apply in_map_iff in Hx as (e & <- & He); auto).
  pose proof (normalising_integral _ c1 C1 W1). pose proof (normalising_integral _ c2 C2 W2). subst c1 c2. apply reported_mono; [lra|].
  destruct (cheaper_corrects F1 e1 e2) as (F' & KF & CF); [intros v Hv; rewrite E1, E2; auto|exact K1|]. apply Z.le_trans with (rounded 1 F'); [now apply A2|].
  pose proof (proj1 (proj2 K1)) as I1. pose proof (proj1 (proj2 KF)) as I2. clear -CF I1 I2 C1 C2 W1 W2 Z1 Z2. induction CF as [|a b F F' [_ L] _ IH]; [reflexivity|]. rewrite !rounded_cons. pose proof (IH (fun x Hx => I1 x (or_intror Hx)) (fun x Hx => I2 x (or_intror Hx))) as X.
  destruct (Z1 a (I1 a (or_introl eq_refl))) as (ka & Ea). destruct (Z2 b (I2 b (or_introl eq_refl))) as (kb & Eb). unfold zw.
  rewrite (discretise_integral _ 1 C1 W1 (weight a) ka), (discretise_integral _ 1 C2 W2 (weight b) kb); [|apply in_map, I2; now left|exact Eb|apply in_map, I1; now left|exact Ea]. rewrite Ea, Eb in L. apply le_IZR in L. lia.
Qed.
Lemma solvable_cheaper : forall P1 P2 e2, (forall v, ~ In v (bnodes g1) -> (P1 v <-> P2 v)) -> (forall v, In v e2 <-> P2 v) -> solvable g1 P1 -> solvable g2 P2.
Proof. intros P1 P2 e2 HP E2 (e1 & F & E1 & K). destruct (cheaper_corrects F e1 e2) as (F' & KF & _); [intros v Hv; rewrite E1, E2; auto|exact K|]. exists e2, F'. auto. Qed.
End Cheaper.
Lemma session_cheaper : forall n1 k1 cs1 c1 Ps1 n2 k2 cs2 c2 Ps2, let g1 := graph_after (new_graph RN n1 k1) cs1 in let g2 := graph_after (new_graph RN n2 k2) cs2 in
  all_fair (new_graph RN n1 k1) (cs1 ++ [c1]) -> all_fair (new_graph RN n2 k2) (cs2 ++ [c2]) -> no_dearer g1 g2 -> integer_weights g1 -> integer_weights g2 ->
  asks_weights g1 c1 Ps1 -> asks_weights g2 c2 Ps2 -> Forall2 (same_events (fun v => v) g1) Ps1 Ps2 ->
  exists K m1 rs1 r1 m2 rs2 r2,
    (forall fuel, K <= fuel -> mrun fuel cyclic_ints (new_matching (new_graph RN n1 k1)) (cs1 ++ [c1]) = Ok (m1, rs1 ++ [r1])) /\
    (forall fuel, K <= fuel -> mrun fuel cyclic_ints (new_matching (new_graph RN n2 k2)) (cs2 ++ [c2]) = Ok (m2, rs2 ++ [r2])) /\
    forall ws1, weights_told r1 = Some ws1 -> exists ws2, weights_told r2 = Some ws2 /\ Forall2 Rle ws2 ws1.
Proof.
  intros n1 k1 cs1 c1 Ps1 n2 k2 cs2 c2 Ps2 g1 g2 H1 H2 HM HZ1 HZ2 W1 W2 SE.
  destruct (last_call n1 k1 cs1 c1 Ps1 H1 W1) as (K1 & m1 & rs1 & r1 & A1 & INV & _ & A2). destruct (last_call n2 k2 cs2 c2 Ps2 H2 W2) as (K2 & m2 & rs2 & r2 & B1 & _ & _ & B2). fold g1 in A2, INV. fold g2 in B2. pose proof (joined_same g1 INV) as SI.
  exists (Nat.max K1 K2), m1, rs1, r1, m2, rs2, r2. split; [intros; apply A1; lia|]. split; [intros; apply B1; lia|]. intros ws1 E1. rewrite E1 in A2. destruct (weights_told r2) as [ws2|].
  - exists ws2. split; [reflexivity|]. clear -A2 B2 SE HM HZ1 HZ2 SI. revert ws1 ws2 A2 B2. induction SE as [|P1 P2 l1 l2 HP _ IH]; intros ws1 ws2 A2 B2; inversion A2; inversion B2; subst; constructor; [|auto]. eapply (told_cheaper g1 g2 SI HM HZ1 HZ2 P1 P2); eassumption.
  - exfalso. pose proof (asked_listed g2 c2 Ps2 W2) as L2. clear -A2 B2 SE HM L2 SI. revert ws1 A2. induction SE as [|P1 P2 l1 l2 HP _ IH]; intros ws1 A2; inversion B2 as [? ? NS|? ? NS]; subst; inversion A2 as [|? ? ? ? T A3]; subst; inversion L2 as [|? ? (e2 & _ & E2) L3]; subst.
    + apply NS. exact (solvable_cheaper g1 g2 SI HM P1 P2 e2 HP E2 (told_solvable _ _ _ T)).
    + exact (IH NS L3 _ A3).
Qed.
