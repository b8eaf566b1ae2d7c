(** Nothing happened. *)
From Coq Require Import Reals ZArith NArith List Bool Arith Lia Lra Permutation Classical.
From Verif Require Import M_Base M_Core M_CoreHeap M_Build S_Build M_Discretise P_Discretise M_Merge M_Bits S_Bits M_Pipeline M_Matching S_Matching M_UserGraph S_UserGraph P_UserGraph S_Pipeline P_Pipeline P_Matched P_Matching P_Distance S_Weights P_Weights S_Triangle P_Triangle S_Agree P_Agree S_Quiet.
Import ListNotations.
Local Open Scope nat_scope.

Section Quiet.
Variable g : ugraph RN.
Variable M : R.
Hypothesis HM : forall e, In e (edges g) -> (half_step M < weight e <= M)%R.
Lemma quiet_abs : forall e, In e (edges g) -> (Rabs (weight e) <= M)%R.
Proof.
  intros e He. destruct (HM e He) as [A B]. assert (0 <= weight e)%R; [|rewrite Rabs_pos_eq; assumption].
  destruct (Rle_dec 0 M) as [P|P]; [pose proof (half_step_pos M P); lra|]. exfalso. revert A B P. unfold half_step. change (IZR (2 * (2 ^ 24 - 1))) with 33554430%R. change (IZR (2 ^ 20)) with 1048576%R. intros. lra.
Qed.
Lemma quiet_heavy : forall F, incl F (edges g) -> F <> [] -> (INR (length F) * half_step M < total_weight F)%R.
Proof.
  intros F. induction F as [|e F IH]; intros I N; [now elim N|]. change (total_weight (e :: F)) with (weight e + total_weight F)%R. cbn [length]. rewrite S_INR. pose proof (proj1 (HM e (I e (or_introl eq_refl)))) as A.
  destruct F as [|f F]; [cbn; change (total_weight []) with 0%R; lra|]. pose proof (IH (fun x Hx => I x (or_intror Hx)) ltac:(discriminate)). lra.
Qed.
Lemma quiet_empty : forall (P : nat -> Prop) evs F, no_events g P -> (forall v, In v evs <-> P v) -> incl F (edges g) -> near_best g F evs -> F = [].
Proof.
  intros P evs F N E I NB. destruct F as [|e F]; [reflexivity|exfalso]. assert (C0 : corrects g [] evs).
  { split; [constructor|]. split; [intros x []|]. intros v Hv. cbn. split; [discriminate|]. intros H. destruct (N v Hv). now apply E. }
  destruct (NB [] C0) as [A _]. specialize (A M quiet_abs). rewrite Nat.add_0_r in A. change (total_weight []) with 0%R in A. pose proof (quiet_heavy (e :: F) I ltac:(discriminate)). lra.
Qed.
Lemma quiet_row : forall P row w, no_events g P -> right_row g P row w -> row = repeat 0%Z (nobs g) /\ w = 0%R.
Proof.
  intros P row w N (evs & F & E & -> & C & NB & W). assert (F = []) by (eapply quiet_empty; [exact N|exact E|exact (proj1 (proj2 C))|exact NB]). subst F. split.
  - generalize 0 at 1. induction (nobs g) as [|n IH]; intros a; [reflexivity|]. cbn [seq map repeat]. f_equal. apply IH.
  - destruct W as [W _]. specialize (W M quiet_abs). cbn in W. rewrite Rmult_0_l in W. change (total_weight []) with 0%R in W. rewrite Rminus_0_r in W. apply Rabs_le_inv in W. lra.
Qed.
Lemma quiet_edges : forall P out, no_events g P -> right_edges g P out -> out = [].
Proof.
  intros P out N (evs & F & E & (L & PL & S) & C & NB). assert (F = []) by (eapply quiet_empty; [exact N|exact E|exact (proj1 (proj2 C))|exact NB]). subst F. apply Permutation_sym, Permutation_nil in PL. subst L. inversion S. reflexivity.
Qed.
Lemma quiet_pairs : forall P out, no_events g P -> right_pairs g P out -> out = [].
Proof.
  intros P out N (_ & H & _). destruct out as [|p out]; [reflexivity|exfalso]. destruct (proj1 (H (fst p))) as [A B]; [|exact (N _ B A)]. cbn [flat_map]. apply in_or_app. left. unfold ends_of. destruct (snd p); now left.
Qed.
Lemma none_solvable : forall P, (exists evs, forall v : nat, In v evs <-> P v) -> no_events g P -> solvable g P.
Proof.
  intros P (evs & E) N. exists evs, []. split; [exact E|]. split; [constructor|]. split; [intros e []|]. intros v Hv. cbn. split; [discriminate|]. intros H. destruct (N v Hv). now apply E.
Qed.
End Quiet.
Lemma zero_bytes : forall l n, bytes_ok l -> packs l (repeat 0%Z n) -> l = repeat 0%Z (length l).
Proof.
  intros l n B H. apply Forall_eq_repeat, Forall_forall. intros b Hb. destruct (B b Hb) as [L U]. apply In_nth with (d := 0%Z) in Hb as (k & Hk & E). symmetry. apply Z.bits_inj_0. intros j.
  destruct (Z_lt_ge_dec j 0) as [J|J]; [now apply Z.testbit_neg_r|]. destruct (Z_lt_ge_dec j 8) as [J8|J8].
  - specialize (H (k * 8 + Z.to_nat j)). unfold packed_bit in H. rewrite Nat.div_add_l in H by lia. rewrite (Nat.div_small (Z.to_nat j) 8) in H by lia. rewrite Nat.add_0_r, E in H.
    replace (Nat.modulo (k * 8 + Z.to_nat j) 8) with (Z.to_nat j) in H by (rewrite Nat.add_comm, Nat.mod_add by lia; symmetry; apply Nat.mod_small; lia). rewrite Z2Nat.id in H by lia.
    rewrite H. rewrite nth_repeat. reflexivity.
  - destruct (Z.eq_dec b 0) as [->|NZ]; [apply Z.bits_0|]. apply Z.bits_above_log2; [exact L|]. apply Z.lt_le_trans with 8%Z; [|lia]. apply Z.log2_lt_pow2; [lia|exact U].
Qed.
Lemma quiet_right : forall g c r, distinctly_positive g -> right g c r -> quiet_reply g c r.
Proof.
  intros g c r (M & HM) R. destruct c as [x|z|ps pp z|z|z|z]; [exact Logic.I| | | | |].
  - intros AC N. destruct R as (A & _). destruct (events_in_ok g z AC) as (evs & _ & _ & E). destruct (A AC (none_solvable g _ (ex_intro _ evs E) N)) as (row & w & -> & RR). exists row, w. split; [reflexivity|]. exact (quiet_row g M HM _ _ _ N RR).
  - destruct z as [l|nc shots|]; [exact Logic.I| |exact Logic.I]. intros l k shot x -> Q1 Q2 N. destruct (nth_two _ _ _ (batch_row _ _ _ _ _ _ R) k _ _ Q1 Q2) as (row & RR & X). destruct (quiet_row g M HM _ _ _ N RR) as [-> W]. split; [|exact W].
    destruct pp; [|exact X]. destruct X as (L & BO & PK). rewrite <- L. exact (zero_bytes _ _ BO PK).
  - intros AC N. destruct R as (A & _). destruct (events_in_ok g z AC) as (evs & _ & _ & E). destruct (A AC (none_solvable g _ (ex_intro _ evs E) N)) as (out & -> & RR). f_equal. exact (quiet_edges g M HM _ _ N RR).
  - intros AC N. destruct R as (A & _). destruct (events_in_ok g z AC) as (evs & _ & _ & E). destruct (A AC (none_solvable g _ (ex_intro _ evs E) N)) as (out & -> & RR). f_equal. exact (quiet_pairs g _ _ N RR).
  - intros AC N. destruct R as (A & _). destruct (events_in_ok g z AC) as (evs & _ & _ & E). destruct (A AC (none_solvable g _ (ex_intro _ evs E) N)) as (t & -> & out & RR & D). exists t. split; [reflexivity|].
    rewrite (quiet_pairs g _ _ N RR) in D. intros v. destruct (dict_get t v) as [x|] eqn:X; [|reflexivity]. apply D in X as [[]|(u & _ & [])].
Qed.
Lemma session_quiet : forall n k cs qs, let g := graph_after (new_graph RN n k) cs in all_fair (new_graph RN n k) (cs ++ qs) -> Forall asks qs -> distinctly_positive g ->
  exists K m rs rs', (forall fuel, K <= fuel -> mrun fuel cyclic_ints (new_matching (new_graph RN n k)) (cs ++ qs) = Ok (m, rs ++ rs')) /\ length rs = length cs /\ Forall2 (quiet_reply g) qs rs'.
Proof.
  intros n k cs qs g HF HA DP. destruct (session_asks n k cs qs HF HA) as (K & m & r1 & r2 & A & L & L2 & Y). exists K, m, r1, r2. split; [exact A|]. split; [exact L|].
  assert (X : forall qs' rs', length rs' = length qs' -> (forall i c r, nth_error qs' i = Some c -> nth_error rs' i = Some r -> right g c r) -> Forall2 (quiet_reply g) qs' rs').
  { clear -DP. induction qs' as [|c qs' IH]; intros [|r rs'] H Y; try discriminate; constructor; [apply quiet_right; [exact DP|exact (Y 0 c r eq_refl eq_refl)]|apply IH; [now injection H|intros i; exact (Y (S i))]]. }
  apply X; [exact L2|]. intros i c r A1 A2. exact (proj2 (Y i c r A1 A2)).
Qed.

(** ** A loop of negative weight *)
Lemma fits_range : forall w : R, (-16777215 <= w <= 16777215)%R -> w_exceeds RN w = false.
Proof. intros w H. cbn [w_exceeds RN]. unfold Rltb, max_user_weight. destruct (Rlt_dec _ _) as [L|]; [|reflexivity]. pose proof (Rabs_le w 16777215 (conj (proj1 H) (proj2 H))). lra. Qed.
Definition loop_e : uedge RN := @mkE RN 0 (Some 0) [0] (-3)%R (-1)%R.
Definition loop_calls : list mcall := [Modify (@OpAdd RN 0 (Some 0) [0] (-3)%R (-1)%R DISALLOW)].
Definition loop_syn : syndrome := Syn1 [0%Z].
Lemma loop_graph : let g := graph_after (new_graph RN 0 0) loop_calls in edges g = [loop_e] /\ bnodes g = [] /\ num_nodes g = 1 /\ nobs g = 1.
Proof. cbv zeta. unfold graph_after, loop_calls. cbn [fold_left after apply_op]. unfold py_add. rewrite fits_range by lra. repeat split; reflexivity. Qed.
Lemma loop_refuted : exists cs z, let g := graph_after (new_graph RN 0 0) cs in
  all_fair (new_graph RN 0 0) (cs ++ [AskDecode z]) /\ accepted g z /\ no_events g (event_at z) /\
  exists K m rs, forall fuel, K <= fuel -> mrun fuel cyclic_ints (new_matching (new_graph RN 0 0)) (cs ++ [AskDecode z]) = Ok (m, rs ++ [Row [1%Z] (-3)%R]).
Proof.
  exists loop_calls, loop_syn. cbv zeta. pose proof loop_graph as (E & B & M & O). set (g := graph_after (new_graph RN 0 0) loop_calls) in *.
  assert (Z : forall v, nth v [0]%Z 0%Z = 0%Z) by (intros [|[|v]]; reflexivity). assert (AC : accepted g loop_syn) by (cbn [accepted loop_syn]; unfold num_detectors; rewrite B, M; cbn; lia).
  assert (NE : no_events g (event_at loop_syn)) by (intros v _; cbn [event_at loop_syn]; rewrite Z; tauto).
  assert (C0 : forall F, incl F [loop_e] -> NoDup F -> corrects g F []).
  { intros F I N. split; [exact N|]. split; [rewrite E; exact I|]. intros v _. split; [|intros []]. intros H. exfalso. destruct F as [|a [|b F]]; [discriminate| |].
    - destruct (I a (or_introl eq_refl)) as [<-|[]]. destruct v; discriminate.
    - destruct (I a (or_introl eq_refl)) as [<-|[]]. destruct (I b (or_intror (or_introl eq_refl))) as [<-|[]]. inversion N as [|? ? NI _]; subst. apply NI. now left. }
  assert (HF : all_fair (new_graph RN 0 0) (loop_calls ++ [AskDecode loop_syn])).
  { split; [exact Logic.I|]. split; [|exact Logic.I]. intros _. change (after (new_graph RN 0 0) _) with g. split.
    - split; [|split].
      + intros e o. rewrite E, O. intros [<-|[]] [<-|[]]. lia.
      + right. exists loop_e. split; [rewrite E; now left|]. cbn [loop_e weight]. rewrite Rabs_left by lra. replace (- -3)%R with 3%R by lra. apply Rle_trans with 1%R; [|lra]. rewrite <- Rinv_1. apply Rinv_le_contravar; [lra|apply IZR_le; discriminate].
      + split; [intros e _ H; rewrite B in H; destruct H|]. intros e f u. rewrite E. intros [<-|[]] [<-|[]] N. now elim N.
    - left. exists [], []. split; [intros v; cbn [event_at loop_syn]; rewrite Z; cbn [In]; tauto|]. split; [apply C0; [intros e []|constructor]|].
      left. exists [loop_e]. split; [|left; cbn; lia]. intros e He _. rewrite E in He. exact He. }
  split; [exact HF|]. split; [exact AC|]. split; [exact NE|]. destruct (session_asks 0 0 loop_calls [AskDecode loop_syn] HF ltac:(repeat constructor)) as (K & m & rs & rs' & A & _ & L & Y).
  destruct rs' as [|r [|? ?]]; try discriminate. destruct (Y 0 _ r eq_refl eq_refl) as [_ (R & _)]. fold g in R. exists K, m, rs. intros fuel Hf. rewrite (A fuel Hf). do 4 f_equal.
  assert (S : solvable g (event_at loop_syn)) by (exists [], []; split; [intros v; cbn [event_at loop_syn]; rewrite Z; cbn [In]; tauto|apply C0; [intros e []|constructor]]).
  destruct (R AC S) as (row & w & -> & evs & F & HE & -> & C & NB & _ & W). assert (X : evs = []) by (destruct evs as [|v evs]; [reflexivity|exfalso; pose proof (proj1 (HE v) (or_introl eq_refl)) as H; cbn [event_at loop_syn] in H; rewrite Z in H; now elim H]). subst evs.
  assert (INT : forall e, In e (edges g) -> exists z, weight e = IZR z) by (rewrite E; intros e [<-|[]]; now exists (-3)%Z). destruct C as (ND & I & _). rewrite E in I.
  destruct (NB [loop_e]) as [_ T]; [apply C0; [apply incl_refl|repeat constructor; intros []]|]. specialize (T INT). assert (T1 : total_weight [loop_e] = (-3)%R) by (unfold total_weight; cbn; lra). rewrite T1 in T.
  assert (FE : F = [loop_e]).
  { destruct F as [|a [|b F]]; [exfalso; change (total_weight []) with 0%R in T; lra|destruct (I a (or_introl eq_refl)) as [<-|[]]; reflexivity|exfalso].
    destruct (I a (or_introl eq_refl)) as [<-|[]]. destruct (I b (or_intror (or_introl eq_refl))) as [<-|[]]. inversion ND as [|? ? NI _]; subst. apply NI. now left. }
  subst F. rewrite O. f_equal. rewrite (W INT); [exact T1|]. rewrite T1, Rabs_left by lra. replace (- -3)%R with 3%R by lra. apply IZR_le. discriminate.
Qed.
