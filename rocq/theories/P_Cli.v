(** Proofs about the command line entry points. *)
From Coq Require Import ZArith List Bool Lia.
From Verif Require Import M_Base M_Cli S_Cli.
Import ListNotations.
Open Scope Z_scope.

Lemma write_bits_all : forall l, write_bits l (length l) = Ok (map (fun b => negb (b =? 0)) l).
Proof. induction l as [|b l IH]; simpl; [reflexivity|]. rewrite IH. reflexivity. Qed.

Lemma reset_obs_repeat : forall l, reset_obs l = repeat 0 (length l).
Proof. induction l as [|b l IH]; simpl; [reflexivity|]. f_equal. exact IH. Qed.

Lemma predict_ok : forall (S W : Type) dec (idle : S -> Prop) (result : list nat -> list Z) num_obs,
  (forall s ev, idle s -> exists s' (w : W), dec s ev (repeat 0 num_obs) = Ok (s', result ev, w) /\ idle s') ->
  (forall ev, length (result ev) = num_obs) ->
  forall records s, idle s ->
  exists s', main_predict S dec num_obs num_obs s records =
    Ok (s', map (fun r => map (fun b => negb (b =? 0)) (result (hits r))) records) /\ idle s'.
Proof.
  intros S W dec idle result num_obs Hd Hl. unfold main_predict.
  induction records as [|r records IH]; intros s Hs.
  - exists s. split; [reflexivity|exact Hs].
  - cbn [predict_loop]. destruct (Hd s (hits r) Hs) as (s1 & w & E & I1). rewrite E. cbn [bindO].
    pose proof (write_bits_all (result (hits r))) as Hw. rewrite (Hl (hits r)) in Hw. rewrite Hw. cbn [bindO].
    rewrite reset_obs_repeat, (Hl (hits r)).
    destruct (IH s1 I1) as (s2 & E2 & I2). rewrite E2. exists s2. split; [reflexivity|exact I2].
Qed.

Lemma count_ok_gen : forall (S W : Type) dec64 (idle : S -> Prop) (mask : list nat -> Z),
  (forall s ev, idle s -> exists s' (w : W), dec64 s ev = Ok (s', (mask ev, w)) /\ idle s') ->
  forall records s obs nm ns, idle s ->
  (length records <= length (recorded_masks obs records))%nat ->
  (forall m, In m (recorded_masks obs records) -> 0 <= m < 2 ^ 64) ->
  exists s', count_loop S dec64 s obs nm ns records =
    Ok (s', (nm + mismatches (recorded_masks obs records) (map (fun r => mask (hits r)) records),
             ns + Z.of_nat (length records))) /\ idle s'.
Proof.
  intros S W dec64 idle mask Hd. induction records as [|r records IH]; intros s obs nm ns Hs Hl Hm.
  - exists s. split; [|exact Hs]. simpl. repeat f_equal; destruct (recorded_masks obs []); simpl; lia.
  - cbn [count_loop].
    assert (exists m obs', match obs with None => Ok (shot_obs_mask r, None) | Some [] => Throw
             | Some (m :: ms) => Ok (m, Some ms) end = Ok (m, obs') /\
             recorded_masks obs (r :: records) = m :: recorded_masks obs' records) as (m & obs' & E & Er).
    { destruct obs as [[|m ms]|]; simpl in Hl.
      - lia.
      - exists m, (Some ms). split; reflexivity.
      - exists (shot_obs_mask r), None. split; reflexivity. }
    rewrite E. cbn [bindO]. rewrite Er in *.
    destruct (Hd s (hits r) Hs) as (s1 & w & Ed & I1). rewrite Ed. cbn [bindO].
    rewrite (Z.mod_small m) by (apply Hm; left; reflexivity).
    destruct (IH s1 obs' (if m =? mask (hits r) then nm else nm + 1) (ns + 1) I1) as (s2 & E2 & I2).
    + simpl in Hl. lia.
    + intros; apply Hm; right; assumption.
    + exists s2. split; [|exact I2]. rewrite E2. f_equal. f_equal.
      cbn [map mismatches length]. f_equal; [destruct (m =? mask (hits r)); lia | lia].
Qed.

Lemma count_ok : forall (S W : Type) dec64 (idle : S -> Prop) (mask : list nat -> Z),
  (forall s ev, idle s -> exists s' (w : W), dec64 s ev = Ok (s', (mask ev, w)) /\ idle s') ->
  forall records s obs, idle s ->
  (length records <= length (recorded_masks obs records))%nat ->
  (forall m, In m (recorded_masks obs records) -> 0 <= m < 2 ^ 64) ->
  exists s', main_count_mistakes S dec64 s obs records =
    Ok (s', (mismatches (recorded_masks obs records) (map (fun r => mask (hits r)) records),
             Z.of_nat (length records))) /\ idle s'.
Proof.
  intros S W dec64 idle mask Hd records s obs Hs Hl Hm.
  destruct (count_ok_gen S W dec64 idle mask Hd records s obs 0 0 Hs Hl Hm) as (s' & E & I).
  exists s'. split; [exact E|exact I].
Qed.

Lemma count_throws : forall (S W : Type) dec64 (idle : S -> Prop) (mask : list nat -> Z),
  (forall s ev, idle s -> exists s' (w : W), dec64 s ev = Ok (s', (mask ev, w)) /\ idle s') ->
  forall records s ms nm ns, idle s -> (length ms < length records)%nat ->
  count_loop S dec64 s (Some ms) nm ns records = Throw.
Proof.
  intros S W dec64 idle mask Hd. induction records as [|r records IH]; intros s ms nm ns Hs Hl; [simpl in Hl; lia|].
  cbn [count_loop]. destruct ms as [|m ms]; [reflexivity|]. cbn [bindO].
  destruct (Hd s (hits r) Hs) as (s1 & w & Ed & I1). rewrite Ed. cbn [bindO].
  apply IH; [exact I1|simpl in Hl; lia].
Qed.
