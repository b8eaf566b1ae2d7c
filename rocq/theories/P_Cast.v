(** Arrays of integers are read modulo 256. *)
From Coq Require Import Reals ZArith List Bool Arith Lia Lra.
From Verif Require P_Distance2.
From Verif Require Import M_Base M_Bits S_Bits M_Core M_CoreHeap M_Merge M_Matching S_Matching P_Matching M_Cast S_Cast P_Pipeline P_Pipeline3 T_Pipeline T_Matching M_UserGraph S_UserGraph P_UserGraph S_Pipeline.
Import ListNotations.
Local Open Scope nat_scope.

Lemma u8_congruent : forall x y, congruent x y -> (0 <= y < 256)%Z -> u8 x = y.
Proof. intros x y [q H] HY. unfold u8. replace x with (y + q * 256)%Z by lia. rewrite Z.mod_add by lia. apply Z.mod_small. exact HY. Qed.
Lemma u8_zero : forall x, u8 x <> 0%Z <-> ~ (256 | x)%Z.
Proof. intros x. unfold u8. rewrite Z.mod_divide by lia. reflexivity. Qed.
Lemma u8_nth : forall l v, nth v (map u8 l) 0%Z = u8 (nth v l 0%Z).
Proof. intros l v. change 0%Z with (u8 0) at 1. apply map_nth. Qed.
Lemma row_cast : forall l l', Forall2 congruent l l' -> (forall x, In x l' -> (0 <= x < 256)%Z) -> map u8 l = l'.
Proof. intros l l' H. induction H as [|x y l l' H1 H2 IH]; intros B; [reflexivity|]. cbn [map]. f_equal; [apply u8_congruent; [exact H1|apply B; now left]|apply IH; intros; apply B; now right]. Qed.
Lemma array_cast : forall z z', same_modulo z z' -> byte_array z' -> as_uint8 z = z'.
Proof.
  intros [l|n rows|] [l'|n' rows'|] H B; try (exfalso; exact H); [cbn; f_equal; exact (row_cast l l' H B)| |reflexivity]. destruct H as [-> H0]. cbn. f_equal. revert B. induction H0 as [|x y l l' H1 H2 IH]; intros B; [reflexivity|]. cbn [map]. f_equal.
  - apply row_cast; [exact H1|]. intros a Ha. apply B. cbn. apply in_app_iff. now left.
  - apply IH. intros a Ha. apply B. cbn. apply in_app_iff. now right.
Qed.
Lemma call_cast : forall c c', same_call_modulo c c' -> byte_array (array_of c') -> cast_call c = c'.
Proof.
  intros [x|z|ps pp z|z|z|z] [x'|z'|ps' pp' z'|z'|z'|z'] H B; try (exfalso; exact H); cbn [same_call_modulo array_of cast_call] in *.
  1: now rewrite H.
  2: { destruct H as (-> & -> & H). f_equal. now apply array_cast. }
  all: f_equal; now apply array_cast.
Qed.
Lemma int_session : forall n k cs cs', Forall2 same_call_modulo cs cs' -> (forall c, In c cs' -> byte_array (array_of c)) -> all_fair (new_graph RN n k) cs' ->
  exists K m' rs, (forall fuel, K <= fuel -> int_run fuel cyclic_ints (new_matching (new_graph RN n k)) cs = Ok (m', rs)) /\ all_right (new_graph RN n k) cs' rs.
Proof.
  intros n k cs cs' H B AF. assert (E : map cast_call cs = cs').
  { clear AF. revert B. induction H as [|c c' cs cs' H1 H2 IH]; intros B; [reflexivity|]. cbn [map]. f_equal; [apply call_cast; [exact H1|apply B; now left]|apply IH; intros; apply B; now right]. }
  unfold int_run. rewrite E. exact (session_ok n k cs' AF).
Qed.
Lemma cast_event : forall z v, event_at (as_uint8 z) v <-> counted_at z v.
Proof.
  intros [l|ncols rows|] v; cbn [as_uint8 event_at counted_at]; [rewrite u8_nth; apply u8_zero| |reflexivity]. rewrite map_length.
  assert (X : forall t c, nth t (nth c (map (map u8) rows) []) 0%Z = u8 (nth t (nth c rows []) 0%Z)) by (intros t c; change (@nil Z) with (map u8 []) at 1; rewrite map_nth; apply u8_nth).
  split; intros (t & c & H1 & H2); exists t, c; (split; [exact H1|]); [rewrite X in H2|rewrite X]; now apply u8_zero.
Qed.
Lemma cast_shot : forall packed shot v, shot_event packed (map u8 shot) v <-> counted_in_shot packed shot v.
Proof.
  intros [|] shot v; cbn [shot_event counted_in_shot]; [|rewrite u8_nth; apply u8_zero]. unfold packed_bit. rewrite u8_nth. unfold u8. change 256%Z with (2 ^ 8)%Z. rewrite Z.mod_pow2_bits_low; [reflexivity|].
  pose proof (Nat.mod_upper_bound v 8). lia.
Qed.
Lemma cast_accepted : forall g z, (accepted g (as_uint8 z) <-> accepted g z) /\ forall packed, accepted_batch g packed (as_uint8 z) <-> accepted_batch g packed z.
Proof. intros g [l|ncols rows|]; cbn [as_uint8 accepted accepted_batch]; rewrite ?map_length; split; intros; reflexivity. Qed.

(** ** An event that gets lost *)
Definition lone_e : uedge RN := @mkE RN 0 None [0] 1%R (-1)%R.
Definition lone_calls : list mcall := [Modify (@OpAdd RN 0 None [0] 1%R (-1)%R DISALLOW)].
Lemma lone_graph : let g := fold_left after lone_calls (new_graph RN 0 0) in edges g = [lone_e] /\ bnodes g = [] /\ num_nodes g = 1 /\ nobs g = 1.
Proof. unfold lone_calls. cbn [fold_left after apply_op]. unfold py_add. rewrite T_Pipeline.fits by lra. repeat split; reflexivity. Qed.
Lemma lone_fair : forall z, (forall v, event_at z v -> v = 0) -> (event_at z 0 \/ ~ event_at z 0) -> all_fair (new_graph RN 0 0) (lone_calls ++ [AskDecode z]).
Proof.
  intros z HZ HD. pose proof lone_graph as P. unfold lone_calls in *. cbn [app all_fair fair fold_left] in *. set (g := after _ _) in *. clearbody g. destruct P as (P1 & P2 & P3 & P4). split; [exact I|]. split; [|exact I]. intros _.
  assert (POS : forall e, In e (edges g) -> (0 <= weight e)%R). { rewrite P1. intros e [<-|[]]. cbn. lra. }
  split.
  - split; [|split; [apply (scalable_some g lone_e); [rewrite P1; cbn; tauto|]; cbn; rewrite Rabs_right; lra|exact (harmless_nonneg g POS)]]. intros e o. rewrite P1, P4. intros [<-|[]]; cbn; lia.
  - left. destruct HD as [HD|HD].
    + exists [0], [lone_e]. split; [intros v; split; [intros [<-|[]]; exact HD|intros H; left; symmetry; exact (HZ v H)]|]. split.
      * split; [repeat constructor; intros []|]. split; [rewrite P1; apply incl_refl|]. intros v _. destruct v as [|v]; cbn; split; intros H; auto; try discriminate; lia.
      * left. exists []. split; [|left; cbn; lia]. intros e He Hw. pose proof (POS e He). lra.
    + exists [], []. split; [intros v; split; [intros []|intros H; apply HD; rewrite <- (HZ v H); exact H]|]. split.
      * split; [constructor|]. split; [intros ? []|]. intros v _. cbn. split; [discriminate|intros []].
      * left. exists []. split; [|left; cbn; lia]. intros e He Hw. pose proof (POS e He). lra.
Qed.
Lemma lone_row : forall (g : ugraph RN) (P : nat -> Prop) row w, edges g = [lone_e] -> bnodes g = [] -> nobs g = 1 -> right_row g P row w -> (P 0 -> row = [1]%Z) /\ (~ P 0 -> row = [0]%Z).
Proof.
  intros g P row w P1 P2 P4 (evs & F & H1 & -> & (N1 & N2 & N3) & _). rewrite P1 in N2. rewrite P2 in N3. rewrite P4. specialize (N3 0 (fun x => x)). rewrite H1 in N3.
  assert (FC : F = [] \/ F = [lone_e]).
  { destruct F as [|a F]; [now left|]. right. pose proof (NoDup_incl_length N1 N2) as L. destruct F; [|cbn in L; lia]. destruct (N2 a (or_introl eq_refl)) as [<-|[]]. reflexivity. }
  destruct FC as [-> | ->]; cbn in N3 |- *; split; intros H; try reflexivity; exfalso.
  - apply N3 in H. discriminate.
  - apply H, N3. reflexivity.
Qed.
Lemma event_lost : exists n k cs z m' rs w K, let g := fold_left after cs (new_graph RN n k) in
  all_fair (new_graph RN n k) (cs ++ [AskDecode z]) /\ accepted g z /\ solvable g (event_at z) /\
  (forall fuel, K <= fuel -> int_run fuel cyclic_ints (new_matching (new_graph RN n k)) (cs ++ [AskDecode z]) = Ok (m', rs ++ [Row [0%Z] w])) /\ ~ right g (AskDecode z) (Row [0%Z] w).
Proof.
  assert (E0 : forall x v, event_at (Syn1 [x]) v -> v = 0) by (intros x [|[|v]]; cbn; intros H; congruence).
  assert (AF : all_fair (new_graph RN 0 0) (lone_calls ++ [AskDecode (Syn1 [0%Z])])) by (apply lone_fair; [apply E0|right; cbn; congruence]).
  assert (AF2 : all_fair (new_graph RN 0 0) (lone_calls ++ [AskDecode (Syn1 [256%Z])])) by (apply lone_fair; [apply E0|left; cbn; congruence]).
  pose proof lone_graph as P. cbv zeta in P. destruct (session_ok 0 0 _ AF) as (K & m' & rs & R1 & AR). destruct (P_Distance2.all_right_last lone_calls _ _ rs AR) as (rs0 & r & -> & R). set (g := fold_left after lone_calls (new_graph RN 0 0)) in *.
  destruct P as (P1 & P2 & P3 & P4). assert (AC : forall x, accepted g (Syn1 [x])) by (intros x; cbn [accepted length]; unfold num_detectors; rewrite P2, P3; cbn; lia).
  destruct R as [R _]. destruct (R (AC 0%Z)) as (row & w & -> & RR).
  { exists [], []. split; [intros [|[|v]]; cbn; split; intros H; try tauto|]. split; [constructor|]. split; [intros ? []|]. intros v _. cbn. split; [discriminate|intros []]. }
  pose proof (proj2 (lone_row g _ row w P1 P2 P4 RR) (fun H => H eq_refl)) as ->.
  assert (SO : solvable g (event_at (Syn1 [256%Z]))).
  { exists [0], [lone_e]. split; [intros [|[|v]]; cbn; split; intros H; try lia; auto; try congruence; try (destruct H; congruence || tauto)|]. split; [repeat constructor; intros []|]. split; [rewrite P1; apply incl_refl|]. intros v _. destruct v as [|v]; cbn; split; intros H; auto; try discriminate; lia. }
  exists 0, 0, lone_calls, (Syn1 [256%Z]), m', rs0, w, K. cbv zeta. split; [exact AF2|]. split; [exact (AC 256%Z)|]. split; [exact SO|]. split; [exact R1|].
  intros [H _]. destruct (H (AC 256%Z) SO) as (row & w' & E & RR2). injection E as <- <-. assert (X : [0%Z] = [1%Z]) by (apply (proj1 (lone_row g _ _ w P1 P2 P4 RR2)); cbn; discriminate). discriminate X.
Qed.
