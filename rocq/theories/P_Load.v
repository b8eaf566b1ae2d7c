(** Loading graphs into a Matching object that is in use. *)
From Coq Require Import Reals ZArith List Bool Arith Lia Lra Classical_Prop.
From Verif Require Import M_Base M_Bits M_Dem P_Dem S_Dem M_Merge P_Merge M_CheckMatrix P_CheckMatrix P_CheckMatrix2 M_CoreHeap M_MatrixArgs S_MatrixArgs P_MatrixArgs P_MatrixArgs2 M_GraphIO M_Matching S_Matching P_Matching P_DemDecode S_GraphIO P_GraphIO P_GraphWrite
  M_UserGraph S_UserGraph P_UserGraph S_Pipeline P_Pipeline M_Load S_Load.
Import ListNotations.
Local Open Scope outcome_scope.
Local Open Scope nat_scope.

Definition settled {X} (o : outcome X) : Prop := match o with Ok _ | Throw => True | _ => False end.
Lemma settled_bind : forall {X Y} (o : outcome X) (f : X -> outcome Y), settled o -> (forall x, settled (f x)) -> settled (bindO o f).
Proof. intros X Y [x| | |] f H1 H2; try contradiction; [apply H2|exact I]. Qed.
Lemma settled_fold : forall {X Y} (f : outcome X -> Y -> outcome X) l o, (forall o y, settled o -> settled (f o y)) -> settled o -> settled (fold_left f l o).
Proof. intros X Y f. induction l as [|y l IH]; intros o H1 H2; [exact H2|]. cbn. apply IH; auto. Qed.
Lemma settled_add : forall (o : outcome (ugraph RN)) u v ob w p s, settled o -> settled (addO o u v ob w p s).
Proof. intros o u v ob w p s H. apply settled_bind; [exact H|]. intros g. destruct (add_or_merge g u v ob w p s) as [g' [|]]; exact I. Qed.
Lemma settled_column : forall rows reps rep virtual s (o : outcome (ugraph RN)) c, settled o -> settled (load_column rows reps rep virtual s o c).
Proof.
  intros rows reps rep virtual s o [[[rs fs] w] p] H. unfold load_column. destruct rs as [|r1 [|r2 [|r3 rs]]]; [exact H| |now apply settled_add|].
  - destruct virtual; now apply settled_add.
  - apply settled_bind; [exact H|]. intros _. exact I.
Qed.
Lemma settled_matrix : forall rows cols faults fr ws ps s virtual reps tws mes, settled (load_check_matrix (N := RN) rows cols faults fr ws ps s virtual reps tws mes).
Proof.
  intros rows cols faults fr ws ps s virtual reps tws mes. unfold load_check_matrix. destruct (negb _); [exact I|]. destruct (negb _); [exact I|]. destruct (negb _); [exact I|]. cbv zeta.
  match goal with |- context [fold_left ?f (seq 0 reps) ?o] => assert (G1 : settled (fold_left f (seq 0 reps) o)); [|set (g1 := fold_left f (seq 0 reps) o) in *; clearbody g1] end.
  { apply settled_fold; [|exact I]. intros o rep H. apply settled_fold; [|exact H]. intros o' c H'. now apply settled_column. }
  apply settled_bind; [|intros g; exact I]. destruct (1 <? reps); [|exact G1]. apply settled_bind; [exact G1|]. intros _. destruct tws as [t|], mes as [m|]; try exact I. destruct (negb _); [exact I|]. destruct (negb _); [exact I|].
  apply settled_fold; [|exact G1]. intros o rep H. apply settled_fold; [|exact H]. intros o' [row [w p]] H'. now apply settled_add.
Qed.
Lemma sparse_cases : forall H F (ws ps : list R) s virtual reps tws mes, solid H -> solid (match F with Some F => F | None => identity_matrix (csc_cols H) end) ->
  load_sparse (N := RN) H ws ps s virtual reps tws mes F = Throw \/
  exists rows cols faults fr s', load_sparse (N := RN) H ws ps s virtual reps tws mes F = load_check_matrix (N := RN) rows cols faults fr ws ps s' virtual reps tws mes.
Proof.
  intros H F ws ps [s|] virtual reps tws mes SH SF.
  - rewrite (load_sparse_is (N := RN) H F ws ps s virtual reps tws mes SH SF). cbv zeta. destruct (_ && _); [right; do 5 eexists; reflexivity|now left].
  - left. unfold load_sparse. repeat match goal with |- context [if ?b then _ else _] => destruct b; try reflexivity end.
Qed.
Lemma matrix_cases : forall a, (forall F, a_faults a = Some F -> well_formed F) ->
  py_load_check_matrix (N := RN) 1%R a = Throw \/
  exists rows cols faults fr ws ps s virtual reps tws mes, py_load_check_matrix (N := RN) 1%R a = load_check_matrix (N := RN) rows cols faults fr ws ps s virtual reps tws mes.
Proof.
  intros a WF. unfold py_load_check_matrix. destruct (match a_matrix a, a_H a with Some H, _ | None, Some H => Ok H | None, None => Throw end) as [H| | |] eqn:EH; cbn [bindO];
    try (destruct (a_matrix a), (a_H a); discriminate); [|now left].
  destruct (either (a_weights a) (a_spacelike a)) as [w| | |] eqn:W; cbn [bindO]; try (destruct (a_weights a), (a_spacelike a); discriminate); [|now left].
  destruct (broadcast (N := RN) (csc_cols H) 1%R w) as [ws| | |] eqn:BW; cbn [bindO]; try (destruct w; discriminate); [|now left].
  destruct (broadcast (N := RN) (csc_cols H) (p_none RN) (a_errors a)) as [ps| | |] eqn:BP; cbn [bindO]; try (destruct (a_errors a); discriminate); [|now left].
  assert (SF : solid (match a_faults a with Some F => F | None => identity_matrix (csc_cols (eliminate_zeros H)) end)) by (destruct (a_faults a) as [F|]; [apply formed_solid; now apply WF|apply of_columns_solid]).
  assert (K : forall reps tws mes, load_sparse (N := RN) (eliminate_zeros H) ws ps (a_strategy a) (a_virtual a) reps tws mes (a_faults a) = Throw \/
    exists rows cols faults fr ws' ps' s virtual reps' tws' mes', load_sparse (N := RN) (eliminate_zeros H) ws ps (a_strategy a) (a_virtual a) reps tws mes (a_faults a) = load_check_matrix (N := RN) rows cols faults fr ws' ps' s virtual reps' tws' mes').
  { intros reps tws mes. destruct (sparse_cases (eliminate_zeros H) (a_faults a) ws ps (a_strategy a) (a_virtual a) reps tws mes (elim_solid H) SF) as [->|(rows & cols & faults & fr & s & ->)]; [now left|]. right. do 11 eexists. reflexivity. }
  destruct (1 <? _)%Z.
  - destruct (broadcast (N := RN) (csc_rows (eliminate_zeros H)) 1%R (a_timelike a)) as [t| | |] eqn:BT; cbn [bindO]; try (destruct (a_timelike a); discriminate); [|now left].
    destruct (either (a_measurement a) (a_measurement_old a)) as [m| | |] eqn:M; cbn [bindO]; try (destruct (a_measurement a), (a_measurement_old a); discriminate); [|now left].
    destruct (broadcast (N := RN) (csc_rows (eliminate_zeros H)) (p_none RN) m) as [me| | |] eqn:BM; cbn [bindO]; try (destruct m; discriminate); [|now left]. apply K.
  - destruct (_ <? 0)%Z; [now left|]. apply K.
Qed.

Lemma moderate_iff : forall g, moderate g <-> forall e, In e (edges g) -> w_exceeds RN (weight e) = false.
Proof. intros g. unfold moderate. split; intros H e He; specialize (H e He); cbn [w_exceeds RN] in *; now apply Rltb_false. Qed.
Lemma run_weights : forall ops (g : ugraph RN), Inv g -> moderate g -> moderate (run g ops).
Proof.
  induction ops as [|x ops IH]; intros g HI H; [exact H|]. change (run g (x :: ops)) with (run (apply_op g x) ops). apply IH; [now apply apply_op_inv|]. apply moderate_iff. apply (step_weights RN_merge_in_range g x HI). now apply moderate_iff.
Qed.
(** What is made, is fit for use. *)
Lemma make_ok : forall g x, lfair g (Load x) -> make_graph x = Throw \/ exists g', make_graph x = Ok g' /\ fits (new_matching g') g'.
Proof.
  intros g [a|G k|nd no dem] HF; cbn [lfair] in HF.
  - destruct HF as (_ & WF & MD). cbn [make_graph] in *. destruct (matrix_cases a WF) as [E|(rows & cols & faults & fr & ws & ps & s & virtual & reps & tws & mes & E)]; [now left|].
    pose proof (settled_matrix rows cols faults fr ws ps s virtual reps tws mes) as S. rewrite <- E in S. destruct (py_load_check_matrix (N := RN) 1%R a) as [g'| | |] eqn:L; try contradiction; [|now left]. right. exists g'. split; [reflexivity|].
    destruct (made_ok g' (made_matrix _ _ _ _ _ _ _ _ _ _ _ _ (eq_sym E))) as [I F]. apply new_fits; auto. apply moderate_iff. now apply MD.
  - cbn [make_graph]. destruct (classic (readable G)) as [H|H]; [|left; now apply read_graph_refused]. right. destruct (read_graph_ok G k H) as (ops & F & E). eexists. split; [exact E|]. destruct (read_made G k _ E) as [I' F'].
    apply new_fits; auto. apply moderate_iff. apply run_weights; [apply started_inv|]. intros e [].
  - right. cbn [make_graph]. eexists. split; [reflexivity|]. destruct (made_ok _ (made_dem nd no dem)) as [I F]. apply new_fits; auto. now apply moderate_iff.
Qed.
Lemma lstep_ok : forall m g c, fits m g -> lfair g c ->
  exists K m' r, (forall fuel, K <= fuel -> lstep fuel cyclic_ints m c = Ok (m', r)) /\ lright g c r /\ fits m' (lafter g c).
Proof.
  intros m g [x|c] FT HF; [|exact (step_ok m g c FT HF)]. cbn [lstep lright lafter]. destruct (make_ok g x HF) as [->|(g' & -> & FT')]; exists 0.
  - exists m, Raised. split; [reflexivity|]. split; [right; auto|exact FT].
  - exists (new_matching g'), Done. split; [reflexivity|]. split; [left; eauto|exact FT'].
Qed.
Lemma lrun_ok : forall cs m g, fits m g -> all_lfair g cs -> exists K m' rs, (forall fuel, K <= fuel -> lrun fuel cyclic_ints m cs = Ok (m', rs)) /\ all_lright g cs rs.
Proof.
  induction cs as [|c cs IH]; intros m g FT HF; [exists 0, m, []; split; [reflexivity|exact I]|]. destruct HF as [H1 H2].
  destruct (lstep_ok m g c FT H1) as (K1 & m1 & r & A1 & A2 & A3). destruct (IH m1 (lafter g c) A3 H2) as (K2 & m2 & rs & B1 & B2).
  exists (Nat.max K1 K2), m2, (r :: rs). split; [|split; assumption]. intros f Hf. cbn [lrun]. rewrite A1 by lia. cbn [bindO fst snd]. rewrite B1 by lia. reflexivity.
Qed.
Lemma loads_ok : forall cs, all_lfair (new_graph RN 0 0) cs ->
  exists K m' rs, (forall fuel, K <= fuel -> lrun fuel cyclic_ints (new_matching (new_graph RN 0 0)) cs = Ok (m', rs)) /\ all_lright (new_graph RN 0 0) cs rs.
Proof. intros cs. apply lrun_ok. apply new_fits; [apply new_inv|apply flags_new|intros e []]. Qed.
