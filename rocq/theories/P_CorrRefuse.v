(** Correlated decoding: what is refused. *)
From Coq Require Import Reals ZArith List Bool Arith Lia Lra Permutation.
From Verif Require Import M_Base M_Core M_CoreHeap M_Bits M_Build M_ToEdges M_Reweight M_Correlated M_Merge P_Merge S_Merge M_Dem S_Dem P_Dem P_Dem2 P_Dem3 M_Double M_Discretise P_Discretise M_Pipeline P_Pipeline M_PipelineHeap M_Matching S_GraphMap P_GraphMap P_DemDecode M_UserGraph S_UserGraph P_UserGraph M_CorrDecode.
Import ListNotations.
Local Open Scope R_scope.

(** ** A model that was loaded without correlations *)
Lemma two_pass_plain : forall fuel A X D x evs (second : decoder -> running -> outcome (running * X)) y, cd_plain D = true -> two_pass_h fuel A D x evs second <> Ok y.
Proof.
  intros fuel A X D x evs second y HD H. unfold two_pass_h in H. destruct (py_decode_to_edges_h _ _ _ _ _) as [[r1 es]| | |]; cbn [bindO] in H; try discriminate.
  unfold reweight_graph, reweight_checked in H. rewrite HD in H. cbn in H. discriminate.
Qed.
Lemma make_plain : forall G ens m D x, c_plain G = true -> cmake G ens = Ok (m, D, x) -> cd_plain D = true.
Proof.
  intros G ens m D x HP H. unfold cmake in H. destruct (build_correlated G ens) as [D0| | |] eqn:E; cbn [bindO] in H; try discriminate. injection H as _ <- _.
  unfold build_correlated in E. destruct (negb _); [discriminate|]. destruct (correlated_constant G); cbn [bindO] in E; try discriminate. destruct (build _ _ _); cbn [bindO] in E; try discriminate. destruct (convert_implied_weights _ _); cbn [bindO] in E; try discriminate.
  destruct (_ || _); [|injection E as <-; exact HP]. destruct (sbuild _ _); cbn [bindO] in E; try discriminate. destruct (convert_implied_weights _ _); cbn [bindO] in E; try discriminate. injection E as <-. exact HP.
Qed.
Definition all_plain (m : cmatching) : Prop := c_plain (cm_graph m) = true /\ forall D x, cm_mwpm m = Some (D, x) -> cd_plain D = true.
Lemma cmake_plain : forall G ens m D x, c_plain G = true -> cmake G ens = Ok (m, D, x) -> all_plain m /\ cd_plain D = true.
Proof.
  intros G ens m D x HP H. pose proof (make_plain _ _ _ _ _ HP H) as HD. split; [|exact HD]. unfold cmake in H. destruct (build_correlated G ens); cbn [bindO] in H; try discriminate. injection H as <- E <-. split; [exact HP|].
  cbn. intros D' x' E'. injection E' as E' _. congruence.
Qed.
Lemma cget_plain : forall cor m m' D x, all_plain m -> cget_for cor m = Ok (m', D, x) -> all_plain m' /\ cd_plain D = true.
Proof.
  intros cor m m' D x HP H. pose proof HP as [P1 P2]. unfold cget_for, cget_with_search, cget in H.
  destruct cor, (cm_needs m), (cm_mwpm m) as [[D0 x0]|]; try (apply cmake_plain in H; auto; fail).
  - destruct (_ =? _)%nat; [|now apply cmake_plain in H]. injection H as <- <- <-. split; [exact HP|]. now apply (P2 D0 x0).
  - injection H as <- <- <-. split; [exact HP|]. now apply (P2 D0 x0).
Qed.
Lemma keep_plain : forall m D x, all_plain m -> cd_plain D = true -> all_plain (ckeep m D x).
Proof. intros m D x [P1 P2] HD. split; [exact P1|]. cbn. intros D' x' E. injection E as <- _. exact HD. Qed.
Definition declined (c : ccall) (r : mreply) : Prop :=
  match c with DecodeOne true _ | DecodeEdges true _ => r = Raised | DecodeBatch true _ _ _ => r = Raised \/ r = Rows [] | _ => True end.
Lemma plain_step : forall fuel A m c m' r, all_plain m -> corr_step fuel A m c = Ok (m', r) -> all_plain m' /\ declined c r.
Proof.
  intros fuel A m c m' r HP H. unfold corr_step in H. destruct c as [cor z|cor ps pp z|cor z].
  - destruct (events_in _ z) as [evs| | |]; try (injection H as <- <-; split; [exact HP|now destruct cor]).
    destruct (cget_for cor m) as [[[m1 D] x]| | |] eqn:E; cbn [unless_thrown] in H; try discriminate; [|injection H as <- <-; split; [exact HP|now destruct cor]].
    apply cget_plain in E as [E1 E2]; [|exact HP]. destruct (correlated_into _ _ _ _ _ _ _) as [[[x' row] w]| | |] eqn:E3; cbn [unless_thrown] in H; try discriminate.
    + injection H as <- <-. split; [now apply keep_plain|]. destruct cor; [|exact I]. exfalso. unfold correlated_into, correlated_decode_h in E3. destruct (two_pass_h _ _ _ _ _ _) as [y| | |] eqn:E4; cbn [bindO] in E3; try discriminate. exact (two_pass_plain _ _ _ _ _ _ _ _ E2 E4).
    + destruct (decode_left _ _ _ _ _ _) as [x'| | |]; cbn [bindO] in H; try discriminate. injection H as <- <-. split; [now apply keep_plain|now destruct cor].
  - destruct z as [l|nc shots|]; try (injection H as <- <-; split; [exact HP|destruct cor; [now left|exact I]]).
    destruct (batch_shape_ok _ _ _); [|injection H as <- <-; split; [exact HP|destruct cor; [now left|exact I]]].
    destruct (cget_for cor m) as [[[m1 D] x]| | |] eqn:E; cbn [unless_thrown] in H; try discriminate; [|injection H as <- <-; split; [exact HP|destruct cor; [now left|exact I]]].
    apply cget_plain in E as [E1 E2]; [|exact HP]. destruct (decode_batch _ _ _ _ _ _ _) as [[x' l]| | |] eqn:E3; cbn [unless_thrown fst snd] in H; try discriminate.
    + injection H as <- <-. split; [now apply keep_plain|]. destruct cor; [|exact I]. right. destruct shots as [|shot shots]; [injection E3 as _ <-; reflexivity|]. exfalso.
      cbn [decode_batch] in E3. unfold decode_one, correlated_into, correlated_decode_h in E3. destruct pp; (destruct (two_pass_h _ _ _ _ _ _) as [y| | |] eqn:E4; cbn [bindO] in E3; try discriminate; exact (two_pass_plain _ _ _ _ _ _ _ _ E2 E4)).
    + destruct (correlated_batch_left _ _ _ _ _ _ _ _ _) as [x'| | |]; cbn [bindO] in H; try discriminate. injection H as <- <-. split; [now apply keep_plain|destruct cor; [now left|exact I]].
  - destruct (events_in _ z) as [evs| | |]; try (injection H as <- <-; split; [exact HP|now destruct cor]).
    destruct (cget_with_search m) as [[[m1 D] x]| | |] eqn:E; cbn [unless_thrown] in H; try discriminate; [|injection H as <- <-; split; [exact HP|now destruct cor]].
    apply (cget_plain true) in E as [E1 E2]; [|exact HP]. destruct (correlated_to_edges_h _ _ _ _ _ _) as [[x' l]| | |] eqn:E3; cbn [unless_thrown fst snd] in H; try discriminate.
    + injection H as <- <-. split; [now apply keep_plain|]. destruct cor; [|exact I]. exfalso. unfold correlated_to_edges_h in E3. exact (two_pass_plain _ _ _ _ _ _ _ _ E2 E3).
    + destruct (edges_left _ _ _ _ _ _) as [x'| | |]; cbn [bindO] in H; try discriminate. injection H as <- <-. split; [now apply keep_plain|now destruct cor].
Qed.
Lemma plain_run : forall fuel A cs m m' rs, all_plain m -> corr_run fuel A m cs = Ok (m', rs) -> Forall2 declined cs rs.
Proof.
  intros fuel A. induction cs as [|c cs IH]; intros m m' rs HP H; cbn [corr_run] in H; [injection H as _ <-; constructor|].
  destruct (corr_step fuel A m c) as [[m1 r]| | |] eqn:E; cbn [bindO fst snd] in H; try discriminate. destruct (corr_run fuel A m1 cs) as [[m2 rs']| | |] eqn:E2; cbn [bindO fst snd] in H; try discriminate. injection H as _ <-.
  apply plain_step in E as [E1 E3]; [|exact HP]. constructor; [exact E3|]. now apply IH in E2.
Qed.
Lemma plain_session : forall fuel A nd no dem G cs m' rs, load_model false nd no dem = Ok G -> corr_run fuel A (new_cmatching G) cs = Ok (m', rs) -> Forall2 declined cs rs.
Proof. intros fuel A nd no dem G cs m' rs HG. apply plain_run. injection HG as <-. split; [reflexivity|discriminate]. Qed.

(** ** A component with the same detector twice *)
Lemma loop_throws : forall G ens (e0 e1 : uedge RN) rs0 rs1, edges (c_graph G) = [e0; e1] -> node1 e0 = 0%nat -> node2 e0 = Some 0%nat -> obs e0 = [] -> node1 e1 = 1%nat -> node2 e1 = None -> obs e1 = [] ->
  num_nodes (c_graph G) = 2%nat -> (forall v, is_boundary_node (c_graph G) (Some v) = false) -> c_rules G = [rs0; rs1] -> rs1 <> [] -> (forall b w, In (b, w) rs1 -> b = (0%nat, Some 0%nat)) -> / IZR (2 ^ 999) <= Rabs (weight e0) ->
  build_correlated G ens = Throw.
Proof.
  intros G ens e0 e1 rs0 rs1 EE A1 A2 A3 B1 B2 B3 NN NB ER NE HR WS. unfold build_correlated. rewrite EE, NN. unfold ids_below. cbn [forallb]. rewrite A3, B3. cbn [forallb andb negb].
  assert (C : correlated_constant G = Throw \/ exists c, correlated_constant G = Ok c).
  { unfold correlated_constant. destruct (forallb _ _); [|auto]. rewrite EE. match goal with |- context [normalising_constant ?l] => assert (NU : normalising_constant l <> UB) end.
    { apply normalising_defined. right. exists (weight e0). split; [now left|exact WS]. }
    unfold normalising_constant in *. destruct (Rlt_dec _ _); [auto|]. destruct (forallb _ _); [eauto|]. destruct (Rle_dec _ _); [congruence|eauto]. }
  destruct C as [->|(c & ->)]; [reflexivity|]. cbn [bindO]. unfold ruled_edges. rewrite EE, ER. cbn [combine map fst snd]. unfold discretised_edge. rewrite A1, A2, A3, B1, B2, B3.
  generalize (discretise c (weight e0)) (discretise c (weight e1)). intros z0 z1.
  destruct rs1 as [|[b w] rs1]; [congruence|]. rewrite (HR b w (or_introl eq_refl)). cbn [map half_rule fst snd]. generalize (round (fl (w * (2 * c / 2)))). intros hw. generalize (map (half_rule c) rs0) (map (half_rule c) rs1). intros r0 r1.
  match goal with |- context [convert_all_ruled 2 ?B ?l] => assert (X : convert_all_ruled 2 B l = l) end.
  { unfold convert_all_ruled. cbn [convert_ruled convert_edge is_bnd_node]. rewrite !NB. reflexivity. }
  rewrite X. cbn [map fst]. unfold build. cbn [fold_left bindO add_any]. unfold M_Build.add_edge, note_negative. cbn. destruct (z0 <? 0)%Z; cbn; unfold add_boundary_edge, note_negative; cbn; destruct (z1 <? 0)%Z; cbn; reflexivity.
Qed.
Definition loop_model : list (instruction RD) := [(1/4, [Det 0; Det 0; Sep; Det 1])] : list (R * list target).
Lemma loop_refused : exists G, load_model true 2 0 loop_model = Ok G /\ forall ens, build_correlated G ens = Throw.
Proof.
  assert (E0 : Rltb 0 (1/4) = true) by (apply Rltb_true; lra).
  assert (H0 : forall x, In x loop_model -> 0 <= fst x) by (intros x [<-|[]]; cbn; lra).
  assert (MS : mechanisms RD loop_model = [(1/4, (0, Some 0, [])%nat); (1/4, (1, None, [])%nat)]) by (unfold mechanisms, loop_model; cbn [flat_map p_pos RD]; rewrite E0; reflexivity).
  destruct (load_correlated_total 2 0 loop_model H0) as [HT [HE|[[[g j] r] HE]]].
  - exfalso. apply HT in HE as (x & [<-|[]] & [HE|[_ HE]]); [cbn in HE; lra|]. apply HE. left. intros c Hc. cbn in Hc. repeat (destruct Hc as [<-|Hc]; [discriminate|]). destruct Hc.
  - exists (mkCG g r false). split; [unfold load_model; rewrite HE; reflexivity|]. intros ens.
    assert (EG : g = do_calls (new_graph RN 2 0) (flat_map instr_calls loop_model)).
    { pose proof HE as H. unfold load_dem_correlated in H. destruct (correlated_instructions RD _ loop_model) as [[g0 j0]| | |] eqn:E; cbn [bindO] in H; try discriminate.
      apply correlated_instructions_ok in E; [|exact H0]. destruct E as (_ & E1 & _). destruct (mapO _ _) as [r'| | |]; cbn [bindO] in H; try discriminate. injection H as H _ _. exact (eq_trans (eq_sym H) E1). }
    assert (EC : flat_map instr_calls loop_model = [P_Dem.mcall RD (1/4, (0, Some 0, [])%nat); P_Dem.mcall RD (1/4, (1, None, [])%nat)]).
    { unfold loop_model. cbn [flat_map]. unfold instr_calls, use. cbn [fst p_pos RD]. rewrite E0. reflexivity. }
    rewrite EC in EG. clear EC.
    assert (EE : exists e0 e1 : uedge RN, edges g = [e0; e1] /\ node1 e0 = 0%nat /\ node2 e0 = Some 0%nat /\ obs e0 = [] /\ node1 e1 = 1%nat /\ node2 e1 = None /\ obs e1 = [] /\ weight e0 = log_likelihood_ratio (1/4)).
    { rewrite EG. eexists. eexists. split; [reflexivity|]. repeat split. }
    destruct EE as (e0 & e1 & EE & A1 & A2 & A3 & B1 & B2 & B3 & W0).
    assert (NN : num_nodes g = 2%nat) by (rewrite EG; reflexivity).
    assert (NB : forall v, is_boundary_node g (Some v) = false).
    { intros v. assert (F : flags_ok RN g) by (rewrite EG; apply calls_flags; apply flags_new). apply (bd_false g F). rewrite EG. cbn. auto. }
    destruct (rules_well_formed 2 0 loop_model g j r H0 HE) as [HL _]. rewrite EE in HL. destruct r as [|rs0 [|rs1 [|? ?]]]; try discriminate HL.
    assert (ND : forall x, In x loop_model -> NoDup (S_Dem.pairs_of (snd x))).
    { intros x [<-|[]]. cbn. repeat constructor; cbn; [intros [H|[]]; discriminate H|auto]. }
    pose proof (fun b w => rules_conditional' 2 0 loop_model g j _ H0 ND HE 1%nat e1 rs1 b w ltac:(rewrite EE; reflexivity) eq_refl) as RC. cbv zeta in RC.
    assert (KC : ordered (node1 e1, node2 e1, []) = (1%nat, None)) by (rewrite B1, B2; reflexivity).
    assert (RC' : forall b w, In (b, w) rs1 <-> b <> (1%nat, None) /\ errors_with (1%nat, None) b loop_model <> [] /\ w = log_likelihood_ratio (Rmin (1/2) (odd_probability (errors_with (1%nat, None) b loop_model) / odd_probability (errors_with (1%nat, None) (1%nat, None) loop_model)))) by (rewrite <- KC; exact RC). clear RC. rename RC' into RC.
    assert (EW : forall b, errors_with (1%nat, None) b loop_model <> [] -> b = (0, Some 0)%nat \/ b = (1, None)%nat).
    { intros b Hb. unfold errors_with, loop_model in Hb. cbn [filter fst p_pos RD] in Hb. rewrite E0 in Hb. cbn [flat_map] in Hb. destruct (in_dec _ _ _) in Hb; [|now elim Hb]. destruct (in_dec _ b _) as [Hi|] in Hb; [|now elim Hb]. cbn in Hi. destruct Hi as [<-|[<-|[]]]; auto. }
    apply (loop_throws (mkCG g [rs0; rs1] false) ens e0 e1 rs0 rs1); try assumption; try reflexivity.
    + intros N. assert (X : In ((0%nat, Some 0%nat), log_likelihood_ratio (Rmin (1/2) (odd_probability (errors_with (1%nat, None) (0%nat, Some 0%nat) loop_model) / odd_probability (errors_with (1%nat, None) (1%nat, None) loop_model)))) rs1).
      { apply RC. split; [discriminate|]. split; [|reflexivity]. unfold errors_with, loop_model. cbn [filter fst p_pos RD]. rewrite E0. cbn. discriminate. }
      rewrite N in X. destruct X.
    + intros b w Hb. apply RC in Hb as (N1 & N2 & _). destruct (EW b N2) as [->| ->]; [reflexivity|]. now elim N1.
    + rewrite W0. eapply Rle_trans; [apply llr_far|apply Rle_abs]. lra.
Qed.
