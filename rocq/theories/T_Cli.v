(** C39: the command line predictor. *)
From Coq Require Import ZArith List Bool.
From Verif Require Import M_Base M_Cli S_Cli P_Cli.
Import ListNotations.
Open Scope Z_scope.

(** C39: provided decoding from an idle decoder gives a result depending only on the detection events
    and leaves the decoder idle (C06), predict writes exactly one record per shot, in order, holding
    exactly the decoded observables of that shot. *)
Theorem C39_predict_writes_one_prediction_per_shot :
  forall (S W : Type) dec (idle : S -> Prop) (result : list nat -> list Z) num_obs,
  (forall s ev, idle s -> exists s' (w : W), dec s ev (repeat 0 num_obs) = Ok (s', result ev, w) /\ idle s') ->
  (forall ev, length (result ev) = num_obs) ->
  forall records s, idle s ->
  exists s', main_predict S dec num_obs num_obs s records =
    Ok (s', map (fun r => map (fun b => negb (b =? 0)) (result (hits r))) records) /\ idle s'.
Proof. exact predict_ok. Qed.
Print Assumptions C39_predict_writes_one_prediction_per_shot.

(** C39: count_mistakes reports the number of shots whose decoded mask differs from the recorded one and
    the number of shots, when there are enough recorded observables and they fit 64 bits. *)
Theorem C39_count_mistakes_counts_mismatches :
  forall (S W : Type) dec64 (idle : S -> Prop) (mask : list nat -> Z),
  (forall s ev, idle s -> exists s' (w : W), dec64 s ev = Ok (s', (mask ev, w)) /\ idle s') ->
  forall records s obs, idle s ->
  (length records <= length (recorded_masks obs records))%nat ->
  (forall m, In m (recorded_masks obs records) -> 0 <= m < 2 ^ 64) ->
  exists s', main_count_mistakes S dec64 s obs records =
    Ok (s', (mismatches (recorded_masks obs records) (map (fun r => mask (hits r)) records),
             Z.of_nat (length records))) /\ idle s'.
Proof. exact count_ok. Qed.
Print Assumptions C39_count_mistakes_counts_mismatches.

(** C39: when the recorded observables run out, count_mistakes throws instead of reporting. *)
Theorem C39_count_mistakes_missing_observables :
  forall (S W : Type) dec64 (idle : S -> Prop) (mask : list nat -> Z),
  (forall s ev, idle s -> exists s' (w : W), dec64 s ev = Ok (s', (mask ev, w)) /\ idle s') ->
  forall records s ms nm ns, idle s -> (length ms < length records)%nat ->
  count_loop S dec64 s (Some ms) nm ns records = Throw.
Proof. exact count_throws. Qed.
Print Assumptions C39_count_mistakes_missing_observables.

(** A stateful decoder meeting the hypotheses, and the three programs run on it. *)
Definition toy (s : nat) (ev : list nat) (buf : list Z) : outcome (nat * list Z * Z) :=
  Ok (Datatypes.S s, map (fun b => Z.lxor b (Z.of_nat (length ev) mod 2)) buf, 0).
Definition toy64 (s : nat) (ev : list nat) : outcome (nat * (Z * Z)) := Ok (Datatypes.S s, (Z.of_nat (length ev) mod 2, 0)).
Definition toy_records := [{| hits := [1; 2]%nat; shot_obs_mask := 0 |}; {| hits := [3]%nat; shot_obs_mask := 0 |};
                           {| hits := []; shot_obs_mask := 0 |}].

Example C39_ex :
  main_predict nat toy 2 2 0%nat toy_records = Ok (3%nat, [[false; false]; [true; true]; [false; false]]) /\
  main_count_mistakes nat toy64 0%nat None toy_records = Ok (3%nat, (1, 3)) /\
  main_count_mistakes nat toy64 0%nat (Some [1; 1; 1]) toy_records = Ok (3%nat, (2, 3)) /\
  main_count_mistakes nat toy64 0%nat (Some [1; 1]) toy_records = Throw.
Proof. vm_compute. auto. Qed.

Example C39_hyp_ex : forall s ev, True -> exists s' w,
  toy s ev (repeat 0 2) = Ok (s', [Z.of_nat (length ev) mod 2; Z.of_nat (length ev) mod 2], w) /\ True.
Proof. intros. exists (Datatypes.S s), 0. split; [reflexivity|exact I]. Qed.
