(** Loading a check matrix from Python, and decoding: the meaning does not depend on how the ones are listed. *)
From Coq Require Import Reals ZArith List Bool Arith Lia Lra.
From Verif Require Import M_Base M_Bits M_Core M_CoreHeap M_Merge P_Dem M_Pipeline M_CheckMatrix M_MatrixArgs S_CheckMatrix S_MatrixDecode S_MatrixArgs P_MatrixArgs P_MatrixArgs2.
From Verif Require Import M_Matching S_Matching P_Matching P_MatrixDecode M_UserGraph S_UserGraph P_UserGraph S_Pipeline.
Import ListNotations.
Local Open Scope nat_scope.

Section Swap.
Variables (rows cols nf : nat) (B F : nat -> nat -> bool) (L L' A A' : list (list nat)).
Hypotheses (HL : like rows cols B L) (HL' : like rows cols B L') (HA : like nf cols F A) (HA' : like nf cols F A').
Lemma swap_happening : forall reps h, happening rows reps L h = happening rows reps L' h.
Proof using HL HL'. intros reps h. unfold happening. rewrite (proj1 HL), (proj1 HL'). reflexivity. Qed.
Lemma swap_changes : forall t r x, changes L t r x = changes L' t r x.
Proof using HL HL'. intros t r [t' i|t' r']; [|reflexivity]. cbn [changes]. rewrite (like_odd rows cols B L L' i r HL HL'). reflexivity. Qed.
Lemma swap_explains : forall reps P h, explains rows reps L P h <-> explains rows reps L' P h.
Proof using HL HL'.
  intros reps P h. assert (E : forall t r, detection rows reps L t r h = detection rows reps L' t r h) by (intros t r; unfold detection; rewrite swap_happening; f_equal; f_equal; apply filter_ext; intros x; apply swap_changes).
  unfold explains. split; intros H t r Ht Hr; [rewrite <- E|rewrite E]; now apply H.
Qed.
Lemma swap_fault : forall reps k h, fault rows reps L A k h = fault rows reps L' A' k h.
Proof using HL HL' HA HA'. intros reps k h. unfold fault. rewrite swap_happening. f_equal. f_equal. apply filter_ext. intros [t i|t r]; [|reflexivity]. cbn [has_fault]. apply (like_odd nf cols F A A' i k HA HA'). Qed.
Lemma swap_cheapest : forall reps ws tws M P row w, cheapest rows reps L A ws tws nf M P row w -> cheapest rows reps L' A' ws tws nf M P row w.
Proof using HL HL' HA HA'.
  intros reps ws tws M P row w (h & E1 & E2 & E3 & E4 & E5). exists h. unfold cost in *. rewrite swap_happening in E4. split; [now apply swap_explains|]. split; [rewrite E2; apply map_ext; intros k; f_equal; apply swap_fault|].
  split; [intros h' Hh'; rewrite <- !swap_happening; apply E3; now apply swap_explains|]. split; [exact E4|]. rewrite swap_happening in E5. rewrite <- (proj1 HL'), (proj1 HL') in *. rewrite (proj1 HL) in E5. intros HI. destruct (E5 HI) as [E6 E7]. split; [|exact E7].
  intros h' Hh'. rewrite <- (swap_happening reps h'). apply E6. now apply swap_explains.
Qed.
Lemma swap_in : forall X Y n m C, like n m C X -> like n m C Y -> forall c r, In c X -> In r c -> exists d, In d Y /\ In r d.
Proof using. intros X Y n m C [E1 H1] [E2 H2] c r Hc Hr. apply In_nth with (d := []) in Hc as (i & Hi & <-). exists (nth i Y []). split; [apply nth_In; lia|]. apply (H2 i); [lia|]. apply (H1 i); [lia|exact Hr]. Qed.
Lemma swap_empty : forall X Y n m C, like n m C X -> like n m C Y -> forall i, nth_error X i = Some [] -> nth_error Y i = Some [].
Proof using.
  intros X Y n m C [E1 H1] [E2 H2] i HI. assert (Hi : i < length X) by (apply nth_error_Some; congruence). rewrite (nth_error_nth' Y []) by lia. f_equal. assert (E : nth i X [] = []) by (exact (nth_error_nth _ _ _ HI)).
  destruct (nth i Y []) as [|r l] eqn:EY; [reflexivity|]. assert (K : In r (nth i X [])); [|rewrite E in K; destruct K]. apply (H1 i); [lia|]. apply (H2 i); [lia|]. rewrite EY. now left.
Qed.
Lemma swap_sound : forall reps ws tws s M, sound_matrix rows reps L' A' ws tws s nf M -> sound_matrix rows reps L A ws tws s nf M.
Proof using HL HL' HA HA'.
  intros reps ws tws s M (S1 & S2 & S3 & S4 & S5 & S6 & S7). unfold sound_matrix. rewrite (proj1 HL) in *. rewrite (proj1 HL') in *. split; [|split; [|split; [exact S3|split; [exact S4|split; [|split; [|exact S7]]]]]].
  - intros c r Hc Hr. destruct (swap_in L L' _ _ _ HL HL' c r Hc Hr) as (d & Hd & K). exact (S1 d r Hd K).
  - intros c r Hc Hr. destruct (swap_in A A' _ _ _ HA HA' c r Hc Hr) as (d & Hd & K). exact (S2 d r Hd K).
  - intros i Hi. apply S5. exact (swap_empty L L' _ _ _ HL HL' i Hi).
  - destruct S6 as [S6|S6]; [left|now right]. intros i j c d Hi Hj NE SS. assert (Li : i < length L) by (apply nth_error_Some; congruence). assert (Lj : j < length L) by (apply nth_error_Some; congruence).
    rewrite (proj1 HL) in Li, Lj. apply (S6 i j (nth i L' []) (nth j L' [])); try (apply nth_error_nth'; rewrite (proj1 HL'); assumption).
    + intros E. apply NE. pose proof (swap_empty L' L _ _ _ HL' HL i) as K. rewrite (nth_error_nth' L' []) in K by (rewrite (proj1 HL'); exact Li). rewrite E in K. specialize (K eq_refl). congruence.
    + assert (K : forall i r, i < cols -> (In r (nth i L' []) <-> In r (nth i L []))) by (intros i' r Hi'; rewrite (proj2 (proj2 HL' i' Hi')), (proj2 (proj2 HL i' Hi')); reflexivity).
      intros r. rewrite (K i r Li), (K j r Lj), (nth_error_nth _ _ [] Hi), (nth_error_nth _ _ [] Hj). apply SS.
Qed.
Lemma swap_product : forall x r, product L x r = product L' x r.
Proof using HL HL'. intros x r. unfold product. f_equal. f_equal. apply filter_ext. intros i. apply (like_odd rows cols B L L' i r HL HL'). Qed.
Lemma swap_solves : forall P x, solves rows L P x <-> solves rows L' P x.
Proof using HL HL'. intros P x. unfold solves. rewrite (proj1 HL), (proj1 HL'). split; intros [H1 H2]; (split; [exact H1|]); intros r Hr; (rewrite swap_product || rewrite <- swap_product); now apply H2. Qed.
End Swap.

Lemma odd_xor : forall (f : nat -> bool) l, Nat.odd (length (filter f l)) = fold_right xorb false (map f l).
Proof. intros f. induction l as [|a l IH]; [reflexivity|]. cbn [filter map fold_right]. destruct (f a); cbn [length]; rewrite <- IH; [rewrite Nat.odd_succ, <- Nat.negb_odd|]; now destruct (Nat.odd _). Qed.
Lemma filter_twice : forall {X} (f g : X -> bool) l, filter f (filter g l) = filter (fun x => f x && g x) l.
Proof. intros X f g. induction l as [|a l IH]; [reflexivity|]. cbn [filter]. destruct (g a); cbn [filter]; destruct (f a); cbn [andb]; now rewrite IH. Qed.
Lemma ones_odd : forall rows cols B L r c, like rows cols B L -> r < rows -> c < cols -> odd_count r (nth c L []) = B r c.
Proof.
  intros rows cols B L r c [E H] Hr Hc. destruct (H c Hc) as [N1 H1]. unfold odd_count. rewrite count_NoDup by exact N1. destruct (in_dec Nat.eq_dec r (nth c L [])) as [K|K]; [apply H1 in K as [_ K]; now rewrite K|].
  destruct (B r c) eqn:E2; [|reflexivity]. elim K. apply H1. auto.
Qed.
Lemma solves_system : forall rows cols B L P x, like rows cols B L -> (solves rows L P x <-> system rows cols B P x).
Proof.
  intros rows cols B L P x HL. unfold solves, system. rewrite (proj1 HL).
  assert (E : length x = cols -> forall r, r < rows -> product L x r = fold_right xorb false (map (fun c => B r c && nth c x false) (seq 0 cols))).
  { intros EX r Hr. unfold product, ones. rewrite filter_twice, EX, odd_xor. f_equal. apply map_ext_in. intros c Hc. apply in_seq in Hc. rewrite (ones_odd rows cols B L r c HL Hr) by lia. reflexivity. }
  split; intros [H1 H2]; (split; [exact H1|]); intros r Hr; [rewrite <- E|rewrite E]; auto.
Qed.
Lemma identity_lists : forall n F L, (forall i j, F i j = (i =? j)) -> like n n F L -> L = map (fun i => [i]) (seq 0 n).
Proof.
  intros n F L HF [E H]. apply nth_ext with (d := []) (d' := []); [now rewrite map_length, seq_length|]. intros c Hc. rewrite nth_map_seq by lia. destruct (H c ltac:(lia)) as [N1 H1].
  assert (K : In c (nth c L [])) by (apply H1; rewrite HF, Nat.eqb_refl; split; [lia|reflexivity]). assert (A : forall r, In r (nth c L []) -> r = c) by (intros r Hr; apply H1 in Hr as [_ Hr]; rewrite HF in Hr; now apply Nat.eqb_eq).
  destruct (nth c L []) as [|a [|b l]]; [destruct K|rewrite (A a); [reflexivity|now left]|]. apply NoDup_cons_iff in N1 as [N1 _]. elim N1. rewrite (A a), (A b); [now left|right; now left|now left].
Qed.

Notation times tws := (match tws with Some t => t | None => [] end).
Local Open Scope R_scope.
Section Decode.
Variables (a : matrix_args (N := RN)) (rows cols : nat) (B : nat -> nat -> bool) (ws ps : list R) (reps : nat) (tws mes : option (list R)) (s : strategy) (nf : nat) (F : nat -> nat -> bool) (g : ugraph RN) (M : R).
Hypothesis CM : call_means (N := RN) 1 a rows cols B ws ps reps tws mes s nf F.
Hypothesis LD : py_load_check_matrix (N := RN) 1 a = Ok g.
Let Hc := ones_of rows cols B.
Let Hf := ones_of nf cols F.
Hypothesis SM : sound_matrix rows reps Hc Hf ws (times tws) s nf M.

Lemma args_lists : exists L A, load_check_matrix (N := RN) rows L A nf ws ps s (a_virtual a) reps tws mes = Ok g /\ like rows cols B L /\ like nf cols F A /\ sound_matrix rows reps L A ws (times tws) s nf M.
Proof using CM LD SM.
  destruct (call_is (N := RN) _ _ _ _ _ _ _ _ _ _ _ _ _ CM) as (L & A & E & HL & HA). exists L, A. split; [exact (eq_trans (eq_sym E) LD)|]. split; [exact HL|]. split; [exact HA|]. exact (swap_sound rows cols nf B F L Hc A Hf HL (ones_like _ _ _) HA (ones_like _ _ _) reps ws _ s M SM).
Qed.
Lemma args_cheapest : forall z h, accepted g z -> explains rows reps Hc (event_at z) h ->
  (length (happening rows reps Hc h) + length (filter (fun x => Rltb (site_weight ws (times tws) x) 0) (sites rows reps cols)) <= 64)%nat \/ compact g ->
  exists K m' row w, (forall fuel, (K <= fuel)%nat -> mstep fuel cyclic_ints (new_matching g) (AskDecode z) = Ok (m', Row row w)) /\ cheapest rows reps Hc Hf ws (times tws) nf M (event_at z) row w.
Proof using CM LD SM.
  intros z h AC EX HN. destruct args_lists as (L & A & E & HL & HA & SM'). pose proof (ones_like rows cols B) as HC. pose proof (ones_like nf cols F) as HF.
  destruct (decode_cheapest rows reps nf L A ws ps s (a_virtual a) tws mes g M E SM' z h AC) as (K & m' & row & w & S1 & S2).
  - exact (proj1 (swap_explains rows cols B Hc L HC HL reps (event_at z) h) EX).
  - rewrite (swap_happening rows cols B L Hc HL HC), (proj1 HL). exact HN.
  - exists K, m', row, w. split; [exact S1|]. exact (swap_cheapest rows cols nf B F L Hc A Hf HL HC HA HF reps ws _ M _ row w S2).
Qed.
Lemma args_any : forall z, accepted g z -> (rows * reps < 64)%nat \/ compact g ->
  exists K m' r, (forall fuel, (K <= fuel)%nat -> mstep fuel cyclic_ints (new_matching g) (AskDecode z) = Ok (m', r)) /\ fits m' g /\
    ((exists h, explains rows reps Hc (event_at z) h) -> exists row w, r = Row row w /\ cheapest rows reps Hc Hf ws (times tws) nf M (event_at z) row w) /\
    ((forall h, ~ explains rows reps Hc (event_at z) h) -> r = Raised).
Proof using CM LD SM.
  intros z AC HN. destruct args_lists as (L & A & E & HL & HA & SM'). pose proof (ones_like rows cols B) as HC. pose proof (ones_like nf cols F) as HF.
  assert (C : compact g) by (destruct HN as [H|H]; [exact (matrix_few rows reps nf L A ws ps s (a_virtual a) tws mes g M E SM' H)|exact H]).
  destruct (decode_any rows reps nf L A ws ps s (a_virtual a) tws mes g M E SM' z C AC) as (K & m' & r & S1 & S2 & S3 & S4). exists K, m', r. split; [exact S1|]. split; [exact S2|]. split.
  - intros (h & Hh). destruct S3 as (row & w & E1 & E2); [exists h; exact (proj1 (swap_explains rows cols B Hc L HC HL reps (event_at z) h) Hh)|]. exists row, w. split; [exact E1|]. exact (swap_cheapest rows cols nf B F L Hc A Hf HL HC HA HF reps ws _ M _ row w E2).
  - intros NX. apply S4. intros h Hh. apply (NX h). exact (proj1 (swap_explains rows cols B L Hc HL HC reps (event_at z) h) Hh).
Qed.
End Decode.

(** The faults are the columns, and there is one round. *)
Section Vector.
Variables (a : matrix_args (N := RN)) (rows cols : nat) (B : nat -> nat -> bool) (ws ps : list R) (s : strategy) (F : nat -> nat -> bool) (g : ugraph RN) (M : R).
Hypothesis CM : call_means (N := RN) 1 a rows cols B ws ps 1 None None s cols F.
Hypothesis NF : a_faults a = None.
Hypothesis LD : py_load_check_matrix (N := RN) 1 a = Ok g.
Hypothesis SM : sound_matrix rows 1 (ones_of rows cols B) (ones_of cols cols F) ws [] s cols M.
Lemma vector_lists : exists L, load_check_matrix (N := RN) rows L (map (fun i => [i]) (seq 0 (length L))) (length L) ws ps s (a_virtual a) 1 None None = Ok g /\ like rows cols B L /\
  sound_matrix rows 1 L (map (fun i => [i]) (seq 0 (length L))) ws [] s (length L) M.
Proof using CM NF LD SM.
  destruct (args_lists a rows cols B ws ps 1 None None s cols F g M CM LD SM) as (L & A & E & HL & HA & SM'). assert (HF : forall i j, F i j = (i =? j)%nat).
  { destruct CM as (_ & _ & _ & _ & _ & _ & MF). unfold faults_are in MF. rewrite NF in MF. apply MF. }
  rewrite (identity_lists cols F A HF HA) in E, SM'. exists L. rewrite (proj1 HL). split; [exact E|]. split; [exact HL|exact SM'].
Qed.
Lemma args_vector : forall z x0, accepted g z -> system rows cols B (event_at z) x0 -> (length (ones x0) + length (filter (fun i => Rltb (nth i ws 0%R) 0) (seq 0 cols)) <= 64)%nat \/ compact g ->
  exists K m' x w, (forall fuel, (K <= fuel)%nat -> mstep fuel cyclic_ints (new_matching g) (AskDecode z) = Ok (m', Row (map Z.b2z x) w)) /\
    system rows cols B (event_at z) x /\ (forall y, system rows cols B (event_at z) y -> vector_cost ws x <= vector_cost ws y + INR (length (ones x) + length (ones y)) * half_step M) /\
    Rabs (w - vector_cost ws x) <= INR (length (ones x)) * half_step M /\
    ((forall i, (i < cols)%nat -> exists k, nth i ws 0 = IZR k) -> (forall y, system rows cols B (event_at z) y -> vector_cost ws x <= vector_cost ws y) /\ (Rabs (vector_cost ws x) <= IZR (2 ^ 52) -> w = vector_cost ws x)).
Proof using CM NF LD SM.
  intros z x0 AC EX HN. destruct vector_lists as (L & E & HL & SM').
  destruct (decode_vector rows L ws ps s (a_virtual a) None None g M z x0 E SM' AC) as (K & m' & x & w & S1 & S2 & S3 & S4 & S5); [now apply (solves_system rows cols B)|rewrite (proj1 HL); exact HN|].
  exists K, m', x, w. split; [exact S1|]. split; [now apply (solves_system rows cols B L)|]. split; [intros y Hy; apply S3; now apply (solves_system rows cols B)|]. split; [exact S4|]. rewrite (proj1 HL) in S5. intros HI. destruct (S5 HI) as [S6 S7]. split; [|exact S7].
  intros y Hy. apply S6. now apply (solves_system rows cols B).
Qed.
Lemma args_unsolvable : forall z, accepted g z -> (rows < 64)%nat \/ compact g -> (forall x, ~ system rows cols B (event_at z) x) ->
  exists K m', (forall fuel, (K <= fuel)%nat -> mstep fuel cyclic_ints (new_matching g) (AskDecode z) = Ok (m', Raised)) /\ fits m' g.
Proof using CM NF LD SM.
  intros z AC HN NX. destruct vector_lists as (L & E & HL & SM'). apply (vector_any rows L ws ps s (a_virtual a) None None g M z E SM' AC HN). intros x Hx. apply (NX x). now apply (solves_system rows cols B L).
Qed.
End Vector.

(** What an accepted call is like. *)
Lemma args_conditions : forall (N : numops) (one : num N) a g H, py_load_check_matrix one a = Ok g -> check_matrix a H -> well_formed H -> (forall F, a_faults a = Some F -> well_formed F) ->
  (0 <= rounds a)%Z /\ a_strategy a <> None /\
  (exists ws, means (csc_cols H) one (a_weights a) (a_spacelike a) ws /\ length ws = csc_cols H) /\
  (exists ps, means (csc_cols H) (p_none N) (a_errors a) NotGiven ps /\ length ps = csc_cols H) /\
  ((1 < rounds a)%Z -> exists t m, means (csc_rows H) one (a_timelike a) NotGiven t /\ means (csc_rows H) (p_none N) (a_measurement a) (a_measurement_old a) m /\ length t = csc_rows H /\ length m = csc_rows H) /\
  (forall r c k, holds H r c k -> k = 0%Z \/ (k mod 256 = 1)%Z) /\
  ((0 < rounds a)%Z -> forall c r1 r2 r3 k1 k2 k3, holds H r1 c k1 -> holds H r2 c k2 -> holds H r3 c k3 -> k1 <> 0%Z -> k2 <> 0%Z -> k3 <> 0%Z -> r1 = r2 \/ r1 = r3 \/ r2 = r3) /\
  (forall F, a_faults a = Some F -> csc_cols F = csc_cols H /\ forall k, In k (data F) -> (k mod 256 = 1)%Z).
Proof.
  intros N one a g H LD HC WH WF. destruct (load_conditions one a g H LD HC WF) as (K1 & K2 & K3 & K4 & K5 & K6 & K7 & K8). repeat (split; [assumption|]). split; [|exact K8].
  intros HR c r1 r2 r3 k1 k2 k3 H1 H2 H3 Z1 Z2 Z3. destruct (holds_rows H r1 c k1 WH H1) as [_ Hc]. specialize (K7 HR c Hc).
  assert (I : forall r k, holds H r c k -> k <> 0%Z -> In r (rows_at (eliminate_zeros H) c)).
  { intros r k Hr Zk. unfold rows_at. rewrite elim_stored by exact Hc. apply in_map_iff. exists (r, k). split; [reflexivity|]. apply filter_In. split; [now apply stored_holds|]. unfold nonzero. cbn [snd]. destruct (Z.eqb_spec k 0); [congruence|reflexivity]. }
  destruct (Nat.eq_dec r1 r2) as [|D1]; [auto|]. destruct (Nat.eq_dec r1 r3) as [|D2]; [auto|]. destruct (Nat.eq_dec r2 r3) as [|D3]; [auto|].
  assert (ND : NoDup [r1; r2; r3]) by (repeat constructor; cbn; intuition congruence). pose proof (NoDup_incl_length ND (l' := rows_at (eliminate_zeros H) c)) as LL. cbn [length] in LL.
  assert (3 <= length (rows_at (eliminate_zeros H) c))%nat; [|lia]. apply LL. intros r [<-|[<-|[<-|[]]]]; eauto.
Qed.
Lemma args_missing : forall (N : numops) (one : num N) a, a_matrix a = None -> a_H a = None -> py_load_check_matrix one a = Throw.
Proof. intros N one a E1 E2. unfold py_load_check_matrix. rewrite E1, E2. reflexivity. Qed.
