(** The masks that decoding for up to 64 observables gives. *)
From Coq Require Import Reals ZArith NArith List Bool Arith Lia.
From Verif Require Import M_Base M_Core M_CoreHeap M_Session S_Core S_Session S_CoreHeap S_Decode M_Build S_Build P_Build P_Convert P_Convert2 M_Flip S_Flip P_Flip M_Search S_Search M_ToEdges S_ToEdges
  P_ToEdges P_ToEdges2 M_SearchHeap S_SearchHeap P_CoreGeo P_CoreDecode P_Signed P_Decode P_Halt P_Halt2 P_Machine P_CoreSim P_CoreHeap P_CoreHeap2
  M_Reweight S_Reweight P_Reweight M_Correlated S_Correlated P_Correlated P_Correlated2 M_Pipeline M_PipelineHeap S_PipelineHeap P_Pipeline2 P_PipelineHeap M_Matching M_CorrDecode P_CorrDecode M_Cli M_CliDecode S_CliDecode.
Import ListNotations.
Local Open Scope nat_scope.

(** ** Masks and rows *)
Lemma as_mask_pos : forall l, (0 <= as_mask l)%Z.
Proof. induction l as [|b l IH]; [cbn; lia|]. cbn [as_mask fold_right]. fold (as_mask l). destruct b; cbn [Z.b2z]; lia. Qed.
Lemma as_mask_small : forall l, (as_mask l < 2 ^ Z.of_nat (length l))%Z.
Proof.
  induction l as [|b l IH]; [cbn; lia|]. cbn [as_mask fold_right length]. fold (as_mask l). rewrite Nat2Z.inj_succ, Z.pow_succ_r by lia. destruct b; cbn [Z.b2z]; lia.
Qed.
Lemma as_mask_bit : forall l k, Z.testbit (as_mask l) (Z.of_nat k) = nth k l false.
Proof.
  induction l as [|b l IH]; intros k; [cbn; rewrite Z.bits_0; now destruct k|]. cbn [as_mask fold_right]. fold (as_mask l). rewrite Z.add_comm. destruct k as [|k].
  - cbn [nth Z.of_nat]. destruct b; cbn [Z.b2z]; [apply Z.testbit_odd_0|rewrite Z.add_0_r; apply Z.testbit_even_0].
  - rewrite Nat2Z.inj_succ. cbn [nth]. destruct b; cbn [Z.b2z]; [rewrite Z.testbit_odd_succ by lia|rewrite Z.add_0_r, Z.testbit_even_succ by lia]; apply IH.
Qed.
Lemma as_mask_inj : forall l l', length l = length l' -> as_mask l = as_mask l' -> l = l'.
Proof.
  intros l l' L E. apply (nth_ext _ _ false false L). intros k _. rewrite <- !as_mask_bit. now rewrite E.
Qed.
Lemma mask_of_bits : forall n o, (forall k, n <= k -> N.testbit o (N.of_nat k) = false) -> Z.of_N o = as_mask (bits n o).
Proof.
  intros n o H. apply Z.bits_inj'. intros k Hk. rewrite <- (Z2Nat.id k Hk). rewrite as_mask_bit. rewrite <- nat_N_Z, N2Z.inj_testbit. unfold bits.
  destruct (Nat.lt_ge_cases (Z.to_nat k) n) as [L|L].
  - rewrite (nth_indep _ false (N.testbit o (N.of_nat 0))) by now rewrite map_length, seq_length. rewrite (map_nth (fun k => N.testbit o (N.of_nat k))), seq_nth by exact L. reflexivity.
  - rewrite nth_overflow by now rewrite map_length, seq_length. now apply H.
Qed.
Lemma mask_row : forall f A evs d r r' o w, d_nobs d <= 64 -> mask_pass_h f A evs d r = Ok (r', (o, w)) -> py_decode_h d f A r evs = Ok (r', (bits (d_nobs d) o, reported (d_norm d) w)).
Proof.
  intros f A evs d r r' o w L H. unfold py_decode_h, decode_events_h. rewrite (proj2 (Nat.ltb_ge _ _) L). unfold mask_pass_h in H. destruct (decode_h _ _ _ _ _ _ _) as [[[s' h'] [[o' w'] l]]| | |]; cbn [bindO] in *; try discriminate. injection H as <- <- <-. reflexivity.
Qed.
Lemma same_mask : forall d e, same_decoder d e -> forall f A r evs, mask_pass_h f A evs d r = mask_pass_h f A evs e r.
Proof. intros d e [H1 H2 H3 H4 H5 H6] f A r evs. unfold mask_pass_h. now rewrite H2, H3. Qed.
Lemma flips_high : forall k F, (forall u x w os, In (u, x, w, os) F -> ~ In k os) -> s_flips k F = false.
Proof.
  intros k. induction F as [|[[[u x] w] os] F IH]; intros H; [reflexivity|]. cbn [s_flips fold_right]. fold (s_flips k F). rewrite IH by (intros; eapply H; right; eassumption).
  rewrite (proj1 (count_occ_not_In Nat.eq_dec os k)); [reflexivity|]. apply (H u x w os). now left.
Qed.
Lemma select_In : forall E X e, In e (select E X) -> In e E.
Proof. induction E as [|a E IH]; intros [|[|] X] e H; cbn in H; try destruct H; [left; assumption|right; now apply (IH X)|right; now apply (IH X)]. Qed.

(** ** One pass *)
Section Mask.
Variables (nb n : nat) (C : list sedge) (mg : mgraph) (bnd : list bool) (so : option sgraph) (nc : R).
Hypothesis HB : build nb n C = Ok mg.
Hypothesis NP : ForallOrdPairs (fun e f => ~ parallel e f) C.
Hypothesis EV : forall e, In e C -> Z.even (s_weight e) = true.
Hypothesis BN : boundary_bare bnd C.
Let d := mkDec nb mg so bnd nc.
Let I := neg_info_of nb mg bnd.
Variables (r : running) (evs : list nat).
Context {AB : able spy_ints (adj mg) I evs}.
Hypothesis RD : ready d r.
Hypothesis V : valid_events (adj mg) evs.

Lemma no_masks : 64 < nb -> forall u x w o, In (x, w, o) (nbrs (adj mg) u) -> o = 0%N.
Proof.
  intros L u x w o H. destruct (build_built _ _ _ _ HB) as (_ & _ & HA & _). rewrite HA in H. unfold adj_of in H.
  assert (Z0 : forall os, mask_of nb os = 0%N) by (intros os; unfold mask_of; now rewrite (proj2 (Nat.leb_gt _ _) L)).
  apply in_app_or in H as [H|H]; apply in_flat_map in H as ([[[a y] w'] os] & _ & H); cbn in H; rewrite Z0 in H; destruct y as [b|];
    repeat match type of H with In _ (if ?c then _ else _) => destruct c end; cbn in H; intuition congruence.
Qed.
Lemma mask_pass : (exists Y, solves C (wanted bnd evs) Y) ->
  exists K r' o w X, (forall f, K <= f -> mask_pass_h f cyclic_ints evs d r = Ok (r', (o, w))) /\ ready d r' /\ (forall u i, r_marks r' u i = r_marks r u i) /\
    best C (wanted bnd evs) X /\ s_total (select C X) = w /\ (nb <= 64 -> forall k, N.testbit o (N.of_nat k) = s_flips k (select C X)) /\ (64 < nb -> o = 0%N).
Proof.
  intros HY. pose proof (signed_wf nb n C mg HB NP EV) as WF. pose proof (neg_valid nb n C mg bnd HB) as VN.
  destruct (decode_h_spec (adj mg) WF I _ _ evs (AB := AB) (rd_idle _ _ RD) (rd_drained _ _ RD) V VN) as (K1 & orc & y & Hy & D1 & D2).
  destruct (signed_ends nb n C mg bnd HB NP EV BN (NI := spy_ints) orc (r_state r) evs (AB := AB) (rd_idle _ _ RD) V HY) as (K2 & s' & o & w & l & X & E1 & E2 & E3 & E4 & E5).
  fold I in E1. pose proof (D1 (Nat.max K1 K2) ltac:(lia)) as Ey. rewrite E1 in Ey by lia. subst y. destruct D2 as (h' & D2 & D3).
  pose proof (decode_answer (NI := spy_ints) (AB := AB) (adj mg) K2 orc I (r_state r) evs WF (rd_idle _ _ RD) V VN s' o w l (E1 K2 (le_n _))) as (ev & F & _ & _ & _ & [FE _] & FO & _).
  pose proof (decode_idle (NI := spy_ints) (AB := AB) (adj mg) K2 orc I (r_state r) evs WF (rd_idle _ _ RD) V VN s' _ (E1 K2 (le_n _))) as DI.
  exists K1, (mkRun s' h' (r_search r) (r_sheap r) (r_marks r)), o, w, X. split; [|split; [|split; [reflexivity|split; [split; [exact E2|rewrite E3; exact E5]|split; [exact E3|split; [exact E4|]]]]]].
  - intros f Hf. unfold mask_pass_h, d_neg. cbn [d d_graph d_nobs d_flags]. fold I. rewrite D2 by exact Hf. reflexivity.
  - destruct RD. split; cbn [r_state r_heap r_search r_sheap r_marks]; auto.
  - intros L. rewrite <- FO. assert (ZF : obs_of F = 0%N).
    { clear FO. induction FE as [|[[[u x] w0] o0] F [He _] FE IH]; [reflexivity|]. cbn [obs_of]. now rewrite IH, (no_masks L u x w0 o0 He). }
    rewrite ZF. cbn [I neg_info_of neg_obs]. unfold mask_of. now rewrite (proj2 (Nat.leb_gt _ _) L).
Qed.
End Mask.
