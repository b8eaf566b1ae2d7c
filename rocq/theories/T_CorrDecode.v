(** C57: correlated decoding with a detector error model.

    A Matching object is made from a detector error model with correlations enabled, and asked to decode, with correlations or without, one shot, many
    shots, or to edges, in any order.  Every reply with correlations comes of two decisions: a cheapest set of pairs of detectors that accounts for the
    events, then a cheapest set when each pair is as likely as the first set says it is.  Events that no set of pairs accounts for make the call raise, and the
    object goes on.  The weights changed for one shot are restored: every later reply is as right as the first.  Merging and logarithms are in exact real numbers, the discretisation and the reported weight in binary64; the decoder runs on radix heaps
    and 32-bit times. *)
From Coq Require Import Reals ZArith List Bool Arith Lia Lra.
From Verif Require Import P_DemDecode S_Spread P_Spread M_Base M_CoreHeap M_Bits S_Bits M_Merge S_Merge M_Dem S_Dem P_Dem T_DemDecode M_UserGraph S_Pipeline M_Matching S_Matching M_CorrDecode S_CorrDecode P_CorrModel P_CorrRefuse.
Import ListNotations.
Local Open Scope R_scope.

Theorem C57_session : forall nd no M dem cs, sound_correlated_model nd no M dem -> Forall (fair_question nd dem) cs ->
  exists G, load_model true nd no dem = Ok G /\
  exists K m' rs, (forall fuel, (K <= fuel)%nat -> corr_run fuel cyclic_ints (new_cmatching G) cs = Ok (m', rs)) /\ Forall2 (right_answer nd no M dem) cs rs.
Proof.
  exact (fun nd no M dem cs SM FQ => match model_loads nd no dem M SM with ex_intro _ G HG => ex_intro _ G (conj HG (model_session nd no dem M SM G HG cs FQ)) end).
Qed.
Print Assumptions C57_session.

(** An object loaded without correlations raises whenever it is asked for a correlated decoding (of at least one shot), whatever it was asked before,
    whatever the times and however long it runs. *)
Definition refused (c : ccall) (r : mreply) : Prop :=
  match c with DecodeOne true _ | DecodeEdges true _ => r = Raised | DecodeBatch true _ _ _ => r = Raised \/ r = Rows [] | _ => True end.
Theorem C57_loaded_without_correlations : forall fuel A nd no dem G cs m rs, load_model false nd no dem = Ok G ->
  corr_run fuel A (new_cmatching G) cs = Ok (m, rs) -> Forall2 refused cs rs.
Proof. exact plain_session. Qed.
Print Assumptions C57_loaded_without_correlations.

(** The condition that the two detectors of a component differ is needed: if they are the same, and the error has another component, the model is
    accepted but no decoder can be made from it. *)
Theorem C57_repeated_detector_refuted : exists dem G, dem = ([(1/4, [Det 0; Det 0; Sep; Det 1])] : list (R * list target)) /\
  load_model true 2 0 dem = Ok G /\ forall ensure_search_graph, build_correlated G ensure_search_graph = Throw.
Proof. exact (match loop_refused with ex_intro _ G H => ex_intro _ loop_model (ex_intro _ G (conj eq_refl H)) end). Qed.
Print Assumptions C57_repeated_detector_refuted.

(** ** A case that meets the hypotheses *)
(** An error on detectors 0, 1 and 2 decomposed into two components, and two errors that are not decomposed; all kinds of calls. *)
Definition ex_correlated : list (instruction RD) :=
  [(1/10, [Det 1; Det 0; Obs 0; Sep; Det 2]); (1/5, [Det 2; Det 0]); (1/4, [Det 1])] : list (R * list target).
Definition ex_pairs : list (R * (nat * option nat * list nat)) := [(1/10, (1, Some 0, [0])%nat); (1/10, (2, None, [])%nat); (1/5, (2, Some 0, [])%nat); (1/4, (1, None, [])%nat)].
Example C57_example_mechanisms : mechanisms RD ex_correlated = ex_pairs.
Proof.
  unfold mechanisms, ex_correlated. cbn [flat_map p_pos RD]. assert (E1 : Rltb 0 (1/10) = true) by (apply Rltb_true; lra). assert (E2 : Rltb 0 (1/5) = true) by (apply Rltb_true; lra).
  assert (E3 : Rltb 0 (1/4) = true) by (apply Rltb_true; lra). rewrite E1, E2, E3. reflexivity.
Qed.
Definition ex_calls : list ccall :=
  [DecodeOne true (Syn1 [1; 1; 1]%Z); DecodeBatch true true true (Syn2 1 [[7]; [0]]%Z); DecodeEdges true (Syn1 [1; 1; 1]%Z); DecodeOne false (Syn1 [1; 1; 1]%Z); DecodeOne true (Syn1 [1; 1]%Z)].
Example C57_example : sound_correlated_model 3 1 10 ex_correlated /\ Forall (fair_question 3 ex_correlated) ex_calls /\
  alone ex_correlated (0, Some 1)%nat = 1/10 /\ learned ex_correlated [(2, None)%nat] (0, Some 1)%nat = 1/2.
Proof.
  assert (E1 : Rltb 0 (1/10) = true) by (apply Rltb_true; lra). assert (E2 : Rltb 0 (1/5) = true) by (apply Rltb_true; lra). assert (E3 : Rltb 0 (1/4) = true) by (apply Rltb_true; lra).
  assert (AC : forall P : nat -> Prop, (forall v, P v <-> (v < 3)%nat) -> accountable ex_correlated P).
  { intros P HP. exists [(0, Some 1); (2, None)]%nat. split; [|left; cbn; lia]. split; [|split].
    - constructor; [intros [H|[]]; discriminate H|]. constructor; [intros []|constructor].
    - intros k Hk. unfold pair_of_model. rewrite C57_example_mechanisms. destruct Hk as [<-|[<-|[]]]; [exists (1/10, (1, Some 0, [0])%nat)|exists (1/10, (2, None, [])%nat)]; (split; [cbn; tauto|reflexivity]).
    - intros v. rewrite HP. destruct v as [|[|[|v]]]; cbn; split; intros H; try reflexivity; try discriminate; try lia. }
  assert (A0 : forall P : nat -> Prop, (forall v, ~ P v) -> accountable ex_correlated P).
  { intros P HP. exists []. split; [|left; cbn; lia]. split; [constructor|]. split; [intros k []|]. intros v. split; [discriminate|]. intros H. elim (HP v H). }
  split; [|split; [|split]].
  - unfold sound_correlated_model. rewrite C57_example_mechanisms. split; [|split; [|split; [|split]]].
    + intros p ts H. cbn in H. repeat (destruct H as [H|H]; [injection H as <- <-; split; [lra|split; [cbn; repeat constructor; cbn; intuition discriminate|intros _; left; intros c Hc; cbn in Hc; repeat (destruct Hc as [<-|Hc]; [discriminate|]); destruct Hc]]|]). destruct H.
    + intros m H. cbn in H. unfold log_likelihood_ratio. repeat (destruct H as [<-|H]; [cbn; refine (Rle_trans _ _ _ (Rle_abs _) (ln_small _ _)); lra|]). destruct H.
    + unfold max_user_weight. lra.
    + intros p a b os H. cbn in H. repeat (destruct H as [H|H]; [injection H as <- <- <- <-; split; [lia|split; [intros c Hc; first [discriminate | injection Hc as <-; lia]|intros k Hk; cbn in Hk; lia]]|]). destruct H.
    + right. exists (0, Some 1)%nat. split; [exists (1/10, (1, Some 0, [0])%nat); rewrite C57_example_mechanisms; split; [cbn; tauto|reflexivity]|]. unfold alone, errors_with, ex_correlated. cbn [filter fst p_pos RD]. rewrite E1, E2, E3. cbn. unfold exactly_one. apply llr_far. lra.
  - assert (EV : accountable ex_correlated (event_at (Syn1 [1; 1; 1]%Z))) by (apply AC; intros [|[|[|v]]]; cbn; split; intros H; try lia; try discriminate; exfalso; apply H; destruct v; reflexivity).
    unfold ex_calls. apply Forall_cons; [intros _; left; exact EV|]. apply Forall_cons.
    { intros _. apply Forall_cons; [|apply Forall_cons; [|apply Forall_nil]].
      - left. apply AC. intros v. change (shot_event true [7%Z] v) with (packed_bit [7%Z] v = true). unfold packed_bit. destruct (Nat.lt_ge_cases v 8) as [L|L].
        + do 8 (destruct v as [|v]; [cbn; split; intros H; try reflexivity; try discriminate; lia|]). lia.
        + split; [|lia]. assert (v / 8 <> 0)%nat by (intros E; apply Nat.div_small_iff in E; lia). destruct (v / 8)%nat as [|[|k]]; [congruence| |]; cbn; rewrite Z.bits_0; discriminate.
      - left. apply A0. intros v. change (shot_event true [0%Z] v) with (packed_bit [0%Z] v = true). unfold packed_bit. destruct (v / 8)%nat as [|[|k]]; cbn; rewrite Z.bits_0; discriminate. }
    apply Forall_cons; [intros _; left; exact EV|]. apply Forall_cons; [intros _; left; exact EV|]. apply Forall_cons; [intros S; cbn in S; lia|]. apply Forall_nil.
  - unfold alone, errors_with, ex_correlated. cbn [filter fst p_pos RD]. rewrite E1, E2, E3. cbn. unfold exactly_one. lra.
  - unfold learned, given, alone, errors_with, ex_correlated. cbn [filter fst p_pos RD]. rewrite E1, E2, E3. cbn. unfold exactly_one.
    replace (1 / 10 * (1 - 0) + (1 - 1 / 10) * 0) with (1/10) by lra. replace (1 / 10 / (1 / 10)) with 1 by field. rewrite Rmin_left by lra. apply Rmax_left. lra.
Qed.
(** A hundred pairs, all of them needed; see C55_many_example. *)
Example C57_many_example : sound_correlated_model 100 1 10 many_model /\ accounts_for many_model (fun v => (v < 100)%nat) (map (fun i => (i, None)) (seq 0 100)) /\ accountable many_model (fun v => (v < 100)%nat).
Proof.
  assert (AF : accounts_for many_model (fun v => (v < 100)%nat) (map (fun i => (i, None)) (seq 0 100))).
  { split; [|split].
    - apply FinFun.Injective_map_NoDup; [intros a b H; now injection H|apply seq_NoDup].
    - intros k Hk. apply in_map_iff in Hk as (i & <- & Hi). exists (1/10, (i, None, [0%nat])). rewrite C55_many_mechanisms. split; [apply in_map_iff; exists i; auto|reflexivity].
    - assert (X : forall n s v, parity (touches v) (map (fun i => (i, None)) (seq s n)) = (s <=? v)%nat && (v <? s + n)%nat).
      { induction n as [|n IH]; intros s v; [cbn [seq map]; destruct (Nat.leb_spec s v), (Nat.ltb_spec v (s + 0)); try reflexivity; lia|].
        cbn [seq map]. unfold parity in *. cbn [map fold_right]. rewrite IH. unfold touches. cbn [fst snd]. rewrite orb_false_r.
        destruct (Nat.eqb_spec s v), (Nat.leb_spec s v), (Nat.leb_spec (S s) v), (Nat.ltb_spec v (S s + n)), (Nat.ltb_spec v (s + S n)); try reflexivity; lia. }
      intros v. rewrite X, andb_true_iff, Nat.leb_le, Nat.ltb_lt. lia. }
  split; [|split; [exact AF|]].
  - unfold sound_correlated_model. rewrite C55_many_mechanisms. split; [|split; [|split; [|split]]].
    + intros p ts H. apply in_map_iff in H as (i & H & _). injection H as <- <-. split; [lra|]. split; [cbn; repeat constructor; intros []|]. intros _. left. intros c Hc. cbn in Hc. repeat (destruct Hc as [<-|Hc]; [discriminate|]). destruct Hc.
    + intros m H. apply in_map_iff in H as (i & <- & _). cbn [fst]. unfold log_likelihood_ratio. refine (Rle_trans _ _ _ (Rle_abs _) (ln_small _ _)). lra.
    + unfold max_user_weight. lra.
    + intros p a b os H. apply in_map_iff in H as (i & H & Hi). injection H as <- <- <- <-. apply in_seq in Hi. split; [lia|]. split; [discriminate|]. intros k [<-|[]]. lia.
    + right. exists (0, None)%nat. split; [exists (1/10, (0, None, [0])%nat); rewrite C55_many_mechanisms; split; [now left|reflexivity]|].
      assert (E1 : Rltb 0 (1/10) = true) by (apply Rltb_true; lra). replace (alone many_model (0, None)%nat) with (1/10); [apply llr_far; lra|].
      assert (X : forall n s, errors_with (0, None)%nat (0, None)%nat (map (fun i => (1/10, [Det i; Obs 0]) : R * list target) (seq (S s) n)) = []).
      { induction n as [|n IH]; intros s; [reflexivity|]. specialize (IH (S s)). unfold errors_with in *. cbn [seq map filter fst p_pos RD]. rewrite E1. cbn [flat_map]. destruct (in_dec _ _ _) as [[H|[]]|_]; [discriminate H|exact IH]. }
      assert (Y : forall n, alone (map (fun i => (1/10, [Det i; Obs 0]) : R * list target) (seq 0 (S n))) (0, None)%nat = 1/10).
      { intros n. specialize (X n 0%nat). unfold alone, errors_with in *. cbn [seq map filter fst p_pos RD]. rewrite E1. cbn [flat_map]. destruct (in_dec _ _ _) as [_|H]; [|elim H; now left].
        refine (eq_trans (f_equal (fun l => odd_probability (1/10 :: l)) X) _). cbn [odd_probability]. unfold exactly_one. lra. }
      symmetry. exact (Y 99%nat).
  - eexists. split; [exact AF|]. right. apply single_steps. intros p (m & Hm & <-). rewrite C55_many_mechanisms in Hm. apply in_map_iff in Hm as (i & <- & _). reflexivity.
Qed.
(** A ring without a boundary: nothing accounts for an event at one detector; a later syndrome has two. *)
Definition ring_correlated : list (instruction RD) := [(1/10, [Det 0; Det 1; Sep; Det 2; Det 1]); (1/5, [Det 2; Det 0; Obs 0])] : list (R * list target).
Definition ring_pairs : list (R * (nat * option nat * list nat)) := [(1/10, (0, Some 1, [])%nat); (1/10, (2, Some 1, [])%nat); (1/5, (2, Some 0, [0])%nat)].
Example C57_ring_mechanisms : mechanisms RD ring_correlated = ring_pairs.
Proof.
  unfold mechanisms, ring_correlated. cbn [flat_map p_pos RD]. assert (E1 : Rltb 0 (1/10) = true) by (apply Rltb_true; lra). assert (E2 : Rltb 0 (1/5) = true) by (apply Rltb_true; lra).
  rewrite E1, E2. reflexivity.
Qed.
Definition ring_calls : list ccall := [DecodeOne true (Syn1 [1; 0; 0]%Z); DecodeBatch true false false (Syn2 3 [[1; 0; 1]; [1; 1; 1]]%Z); DecodeEdges true (Syn1 [1; 0; 1]%Z)].
Example C57_unaccounted_example : sound_correlated_model 3 1 10 ring_correlated /\ Forall (fair_question 3 ring_correlated) ring_calls /\
  ~ accounted ring_correlated (event_at (Syn1 [1; 0; 0]%Z)) /\ accounted ring_correlated (event_at (Syn1 [1; 0; 1]%Z)) /\ ~ accounted ring_correlated (shot_event false [1; 1; 1]%Z).
Proof.
  assert (E1 : Rltb 0 (1/10) = true) by (apply Rltb_true; lra). assert (E2 : Rltb 0 (1/5) = true) by (apply Rltb_true; lra).
  assert (PF : forall F, (forall k, In k F -> pair_of_model ring_correlated k) -> xorb (parity (touches 0) F) (xorb (parity (touches 1) F) (parity (touches 2) F)) = false).
  { induction F as [|k F IH]; intros H; [reflexivity|]. specialize (IH (fun k' Hk => H k' (or_intror Hk))). destruct (H k (or_introl eq_refl)) as (m & Hm & E). rewrite C57_ring_mechanisms in Hm. unfold parity in *. cbn [map fold_right].
    destruct (fold_right xorb false (map (touches 0) F)), (fold_right xorb false (map (touches 1) F)), (fold_right xorb false (map (touches 2) F)); try discriminate IH;
      (destruct Hm as [<-|[<-|[<-|[]]]]; cbn in E; subst k; reflexivity). }
  assert (NO : forall P : nat -> Prop, (P 0%nat /\ ~ P 1%nat /\ ~ P 2%nat) \/ (P 0%nat /\ P 1%nat /\ P 2%nat) -> ~ accounted ring_correlated P).
  { intros P HP (F & N & HF & HA). specialize (PF F HF). pose proof (HA 0%nat) as H0. pose proof (HA 1%nat) as H1. pose proof (HA 2%nat) as H2.
    destruct (parity (touches 0) F), (parity (touches 1) F), (parity (touches 2) F); try discriminate PF; intuition discriminate. }
  assert (IR : forall z : list Z, length z = 3%nat -> forall v, nth v z 0%Z <> 0%Z -> (v < 3)%nat).
  { intros z L v H. destruct (Nat.lt_ge_cases v 3) as [G|G]; [exact G|]. elim H. apply nth_overflow. lia. }
  split; [|split; [|split; [|split]]].
  - unfold sound_correlated_model. rewrite C57_ring_mechanisms. split; [|split; [|split; [|split]]].
    + intros p ts H. cbn in H. repeat (destruct H as [H|H]; [injection H as <- <-; split; [lra|split; [cbn; repeat constructor; cbn; intuition discriminate|intros _; left; intros c Hc; cbn in Hc; repeat (destruct Hc as [<-|Hc]; [discriminate|]); destruct Hc]]|]). destruct H.
    + intros m H. cbn in H. unfold log_likelihood_ratio. repeat (destruct H as [<-|H]; [cbn; refine (Rle_trans _ _ _ (Rle_abs _) (ln_small _ _)); lra|]). destruct H.
    + unfold max_user_weight. lra.
    + intros p a b os H. cbn in H. repeat (destruct H as [H|H]; [injection H as <- <- <- <-; split; [lia|split; [intros c Hc; first [discriminate | injection Hc as <-; lia]|intros k Hk; cbn in Hk; lia]]|]). destruct H.
    + right. exists (0, Some 1)%nat. split; [exists (1/10, (0, Some 1, [])%nat); rewrite C57_ring_mechanisms; split; [cbn; tauto|reflexivity]|]. unfold alone, errors_with, ring_correlated. cbn [filter fst p_pos RD]. rewrite E1, E2. cbn. unfold exactly_one. apply llr_far. lra.
  - assert (NW : narrow 3 ring_correlated) by (left; lia). unfold ring_calls. apply Forall_cons; [|apply Forall_cons; [|apply Forall_cons; [|apply Forall_nil]]]; intros _.
    + right. split; [exact NW|]. exact (IR [1; 0; 0]%Z eq_refl).
    + apply Forall_cons; [|apply Forall_cons; [|apply Forall_nil]]; (right; split; [exact NW|]); [exact (IR [1; 0; 1]%Z eq_refl)|exact (IR [1; 1; 1]%Z eq_refl)].
    + right. split; [exact NW|]. exact (IR [1; 0; 1]%Z eq_refl).
  - apply NO. left. cbn. intuition discriminate.
  - exists [(0, Some 2)]%nat. split; [|split].
    + constructor; [intros []|constructor].
    + intros k [<-|[]]. exists (1/5, (2, Some 0, [0])%nat). rewrite C57_ring_mechanisms. split; [cbn; tauto|reflexivity].
    + intros [|[|[|v]]]; cbn; split; intros H; try reflexivity; try discriminate; try lia; exfalso; apply H; try reflexivity. destruct v; reflexivity.
  - apply NO. right. cbn. intuition discriminate.
Qed.
