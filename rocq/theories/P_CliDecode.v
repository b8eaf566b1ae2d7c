(** The command line programs, from the detector error model to the report. *)
From Coq Require Import Reals ZArith NArith List Bool Arith Lia Lra.
From Verif Require Import M_Base M_Core M_CoreHeap S_Session S_Decode M_Build S_Build P_Build P_Convert P_Convert2 P_Halt2 P_Machine P_CoreSim P_CoreHeap P_CoreHeap2 M_ToEdges M_Reweight M_Correlated
  M_Pipeline M_PipelineHeap S_PipelineHeap P_Pipeline2 P_PipelineHeap M_Merge S_Merge P_Merge M_Dem S_Dem P_Dem M_Discretise P_Discretise M_Matching S_Matching P_Matching P_Pipeline S_GraphMap P_GraphMap M_UserGraph S_UserGraph P_UserGraph S_Pipeline P_Pipeline3 P_UserCorr
  S_DemDecode P_DemDecode M_CorrDecode P_CorrDecode P_CorrBuild P_CorrGraph P_CorrSession S_CorrDecode P_CorrModel M_Cli P_Cli M_CliDecode S_CliDecode P_CliMask P_CliPass.
Import ListNotations.
Local Open Scope nat_scope.

(** ** The loops *)
Lemma write_row : forall row, write_bits (map Z.b2z row) (length row) = Ok row.
Proof. intros row. rewrite <- (map_length Z.b2z row), write_bits_all, map_map. f_equal. rewrite <- (map_id row) at 2. apply map_ext. now intros []. Qed.
Lemma firstn_mask : forall n l, (as_mask l mod 2 ^ Z.of_nat n = as_mask (firstn n l))%Z.
Proof.
  induction n as [|n IH]; intros l; [cbn; now rewrite Z.mod_1_r|]. destruct l as [|b l]; [cbn [firstn as_mask fold_right]; apply Z.mod_0_l; lia|]. cbn [firstn as_mask fold_right]. fold (as_mask l). fold (as_mask (firstn n l)). rewrite <- IH.
  rewrite Nat2Z.inj_succ, Z.pow_succ_r by lia. assert (P : (0 < 2 ^ Z.of_nat n)%Z) by lia. pose proof (Z.div_mod (as_mask l) (2 ^ Z.of_nat n) ltac:(lia)) as DM. pose proof (Z.mod_pos_bound (as_mask l) _ P) as MB.
  symmetry. apply (Z.mod_unique_pos _ _ (as_mask l / 2 ^ Z.of_nat n)%Z); [destruct b; cbn [Z.b2z]; lia|]. rewrite DM at 1. ring.
Qed.
Lemma mask_zero : forall l, (as_mask l =? 0)%Z = negb (existsb (fun b => b) l).
Proof.
  induction l as [|b l IH]; [reflexivity|]. cbn [as_mask fold_right existsb]. fold (as_mask l). pose proof (as_mask_pos l). destruct b; cbn [Z.b2z orb negb].
  - apply Z.eqb_neq. lia.
  - rewrite <- IH. destruct (Z.eqb_spec (as_mask l) 0) as [->|N]; [reflexivity|]. apply Z.eqb_neq. lia.
Qed.

Section Loop.
Variables (no : nat) (cor : bool) (D : cdecoder) (shot_ok : list nat -> Prop) (right : list nat -> list bool -> Prop).
Hypothesis STEP : forall x evs, resting D x -> shot_ok evs ->
  exists K x' row w, (forall f, K <= f -> correlated_decode_h f cyclic_ints cor D x evs = Ok (x', (row, w))) /\ resting D x' /\ length row = no /\ right evs row.
Hypothesis TELL : forall x evs, resting D x -> shot_ok evs -> exists K x' m z, tells no cor D x evs K x' m z.

Lemma step_predict : forall x r, resting D x -> shot_ok (hits r) ->
  exists K x' row, (forall f rest, K <= f -> predict_loop crunning (correlated_into f cyclic_ints cor D) no x (repeat 0%Z no) (r :: rest) =
      bindO (predict_loop crunning (correlated_into f cyclic_ints cor D) no x' (repeat 0%Z no) rest) (fun '(s, ws) => Ok (s, row :: ws))) /\ resting D x' /\ length row = no /\ right (hits r) row /\
    (no <= 64 -> exists z, forall f, K <= f -> decode64_h f cyclic_ints cor D x (hits r) = Ok (x', (as_mask row, z))).
Proof.
  intros x r RS OK. destruct (STEP x (hits r) RS OK) as (K & x' & row & w & H1 & H2 & H3 & H4). destruct (TELL x (hits r) RS OK) as (K2 & x2 & m & z & T1 & T2 & T3 & T4).
  exists (Nat.max K K2), x', row. split; [|split; [exact H2|split; [exact H3|split; [exact H4|]]]].
  - intros f rest Hf. cbn [predict_loop]. unfold correlated_into at 1. rewrite H1 by lia. cbn [bindO fst snd]. rewrite xor_zero by lia. rewrite H3, Nat.sub_diag. cbn [repeat]. rewrite app_nil_r. cbn [bindO].
    rewrite <- H3 at 1. rewrite write_row. cbn [bindO]. rewrite reset_obs_repeat, map_length, H3. reflexivity.
  - intros L. destruct (T4 L) as (row2 & w2 & E & T5). exists z. intros f Hf. rewrite T1 by lia. specialize (T5 (Nat.max K K2) ltac:(lia)). rewrite H1 in T5 by lia. injection T5 as <- <- _. now rewrite E.
Qed.
Lemma predict_c : forall records x, resting D x -> Forall (fun r => shot_ok (hits r)) records ->
  exists K lines, (forall f, K <= f -> exists x', predict_loop crunning (correlated_into f cyclic_ints cor D) no x (repeat 0%Z no) records = Ok (x', lines)) /\
    Forall2 (fun r l => right (hits r) l) records lines /\
    (no <= 64 -> forall obs source nm ns, Forall (fun o => length o = no) obs -> recorded obs source records -> forall f, K <= f ->
       exists x', count_loop crunning (decode64_h f cyclic_ints cor D) x source nm ns records = Ok (x', (nm + differences lines obs, ns + Z.of_nat (length records))%Z)).
Proof.
  induction records as [|r records IH]; intros x RS OK.
  - exists 0, []. split; [intros; eexists; reflexivity|]. split; [constructor|]. intros _ obs source nm ns _ _ f _. exists x. cbn. rewrite !Z.add_0_r. reflexivity.
  - destruct (step_predict x r RS (Forall_inv OK)) as (K1 & x1 & row & S1 & S2 & S3 & S4 & S5). destruct (IH x1 S2 (Forall_inv_tail OK)) as (K2 & lines & P1 & P2 & P3).
    exists (Nat.max K1 K2), (row :: lines). split; [|split; [constructor; assumption|]].
    + intros f Hf. destruct (P1 f ltac:(lia)) as [x' E]. exists x'. rewrite S1, E by lia. reflexivity.
    + intros L obs source nm ns LO RC f Hf. destruct (S5 L) as (z & S6).
      assert (SRC : exists o obs' source', obs = o :: obs' /\ recorded obs' source' records /\
                match source with None => Ok (shot_obs_mask r, None) | Some [] => Throw | Some (m :: ms) => Ok (m, Some ms) end = Ok (as_mask o, source')).
      { destruct source as [ms|]; cbn [recorded] in RC.
        - destruct RC as (more & -> & LE). destruct obs as [|o obs]; [discriminate|]. exists o, obs, (Some (map as_mask obs ++ more)). split; [reflexivity|]. split; [exists more; split; [reflexivity|now injection LE]|reflexivity].
        - destruct obs as [|o obs]; [discriminate|]. cbn [map] in RC. injection RC as E1 E2. exists o, obs, None. split; [reflexivity|]. split; [exact E2|]. now rewrite E1. }
      destruct SRC as (o & obs' & source' & -> & RC' & SE). cbn [count_loop]. rewrite SE. cbn [bindO]. rewrite S6 by lia. cbn [bindO].
      pose proof (Forall_inv LO) as Lo. cbn beta in Lo. destruct (P3 L obs' source' (if (as_mask o mod 2 ^ 64 =? as_mask row)%Z then nm else (nm + 1)%Z) (ns + 1)%Z (Forall_inv_tail LO) RC' f ltac:(lia)) as [x' E]. exists x'. rewrite E. do 2 f_equal.
      cbn [differences length]. assert (M : (as_mask o mod 2 ^ 64 =? as_mask row)%Z = if list_eq_dec bool_dec row o then true else false).
      { change 64%Z with (Z.of_nat 64). rewrite firstn_mask, firstn_all2 by lia. destruct (list_eq_dec bool_dec row o) as [->|N]; [apply Z.eqb_refl|]. apply Z.eqb_neq. intros H. apply N. symmetry. apply as_mask_inj; [lia|exact H]. }
      rewrite M. destruct (list_eq_dec bool_dec row o); f_equal; lia.
Qed.
Lemma many_c : 64 < no -> forall records x, resting D x -> Forall (fun r => shot_ok (hits r)) records ->
  exists K, forall obs source nm ns, recorded obs source records -> forall f, K <= f ->
    exists x', count_loop crunning (decode64_h f cyclic_ints cor D) x source nm ns records = Ok (x', (nm + flagged obs, ns + Z.of_nat (length records))%Z).
Proof.
  intros L. induction records as [|r records IH]; intros x RS OK.
  - exists 0. intros obs source nm ns RC f _. exists x. cbn. assert (obs = []) as ->; [|cbn; now rewrite !Z.add_0_r].
    destruct source as [ms|]; cbn [recorded] in RC; [destruct RC as (_ & _ & LE); destruct obs; [reflexivity|discriminate]|destruct obs; [reflexivity|discriminate]].
  - destruct (TELL x (hits r) RS (Forall_inv OK)) as (K1 & x1 & m & z & T1 & T2 & T3 & _). rewrite (T3 L) in T1. destruct (IH x1 T2 (Forall_inv_tail OK)) as (K2 & P). exists (Nat.max K1 K2). intros obs source nm ns RC f Hf.
    assert (SRC : exists o obs' source', obs = o :: obs' /\ recorded obs' source' records /\
              match source with None => Ok (shot_obs_mask r, None) | Some [] => Throw | Some (m :: ms) => Ok (m, Some ms) end = Ok (as_mask o, source')).
    { destruct source as [ms|]; cbn [recorded] in RC.
      - destruct RC as (more & -> & LE). destruct obs as [|o obs]; [discriminate|]. exists o, obs, (Some (map as_mask obs ++ more)). split; [reflexivity|]. split; [exists more; split; [reflexivity|now injection LE]|reflexivity].
      - destruct obs as [|o obs]; [discriminate|]. cbn [map] in RC. injection RC as E1 E2. exists o, obs, None. split; [reflexivity|]. split; [exact E2|]. now rewrite E1. }
    destruct SRC as (o & obs' & source' & -> & RC' & SE). cbn [count_loop]. rewrite SE. cbn [bindO]. rewrite T1 by lia. cbn [bindO].
    destruct (P obs' source' (if (as_mask o mod 2 ^ 64 =? 0)%Z then nm else (nm + 1)%Z) (ns + 1)%Z RC' f ltac:(lia)) as [x' E]. exists x'. rewrite E. do 2 f_equal.
    change 64%Z with (Z.of_nat 64). rewrite firstn_mask, mask_zero. unfold flagged. cbn [filter length]. destruct (existsb (fun b => b) (firstn 64 o)); cbn [negb length]; f_equal; lia.
Qed.
Lemma missing_c : forall records x, resting D x -> Forall (fun r => shot_ok (hits r)) records ->
  exists K, forall ms nm ns, length ms < length records -> forall f, K <= f -> count_loop crunning (decode64_h f cyclic_ints cor D) x (Some ms) nm ns records = Throw.
Proof.
  induction records as [|r records IH]; intros x RS OK; [exists 0; intros ms nm ns H; cbn in H; lia|].
  destruct (TELL x (hits r) RS (Forall_inv OK)) as (K1 & x1 & m & z & T1 & T2 & _). destruct (IH x1 T2 (Forall_inv_tail OK)) as (K2 & P). exists (Nat.max K1 K2). intros [|m0 ms] nm ns LE f Hf; [reflexivity|].
  cbn [count_loop bindO]. rewrite T1 by lia. cbn [bindO]. apply P; [cbn in LE; lia|lia].
Qed.
End Loop.

(** ** The decoder *)
Definition serving (cor : bool) (nd no : nat) (M : R) (dem : list (instruction RD)) (D : cdecoder) : Prop :=
  cli_decoder cor nd no dem = Ok D /\ d_nobs (cd_dec D) = no /\ resting D (fresh D) /\
  (forall x evs, resting D x -> readable cor dem evs ->
     exists K x' row w, (forall f, K <= f -> correlated_decode_h f cyclic_ints cor D x evs = Ok (x', (row, w))) /\ resting D x' /\ length row = no /\ right_line cor no M dem evs row) /\
  (forall x evs, resting D x -> readable cor dem evs -> exists K x' m z, tells no cor D x evs K x' m z).

Lemma correlated_serving : forall nd no M dem, sound_correlated_model nd no M dem -> exists D, serving true nd no M dem D.
Proof.
  intros nd no M dem SM. destruct (model_loads nd no dem M SM) as (G & HG). pose proof (loaded_sound nd no dem M SM G HG) as SG. pose proof (loaded_nobs nd no dem M SM G HG) as NO.
  destruct (ruled_constant G M SG) as (c & HC & HCC). destruct (rounded_order G M SG c) as (Q & PQ & EQ). destruct (Rs_loaded G M SG c Q PQ) as (L & HL).
  destruct (build_made G M SG c HCC Q EQ L HL true) as (D & BD & MD & SZ). specialize (SZ eq_refl). exists D. split; [unfold cli_decoder; rewrite HG; exact BD|].
  assert (DN : d_nobs (cd_dec D) = no) by (destruct (df_dec _ _ _ _ _ _ _ MD) as (so & -> & _); exact NO).
  split; [exact DN|]. split; [exact (fresh_resting G c Q L HL D MD)|]. split.
  - intros x evs RS [ND AB]. destruct (able_sums nd no dem M SM G HG Q PQ evs _ (fun v => iff_refl _) AB) as (Y & HY & FEW).
    destruct (graph_decode G M SG c HC Q PQ L HL D x evs Y MD RS ND HY FEW true (fun _ => SZ)) as (K & x' & row & w & H1 & H2 & H3).
    destruct (right_row nd no dem M SM G HG Q PQ evs _ (fun v => iff_refl _) true row w H3) as [H4 H5]. exists K, x', row, w. split; [exact H1|]. split; [exact H2|]. split; [exact H4|]. exists w. exact H5.
  - intros x evs RS [ND AB]. destruct (able_sums nd no dem M SM G HG Q PQ evs _ (fun v => iff_refl _) AB) as (Y & HY & FEW).
    rewrite <- NO. apply (double_mask (M_UserGraph.nobs (c_graph G)) (num_nodes (c_graph G)) (map (conv c) Q) [] (2 * c)%R L D MD (Rs_np G M SG c Q PQ) (Rs_even G M SG c HC Q PQ) (Rs_weights G M SG c HC Q PQ) (bare_nil _)) with (Y := Y); auto.
    + intros u y w os k Hi Hk. rewrite (Rs_fst c Q) in Hi. apply in_map_iff in Hi as (q & E & Hq). injection E as <- <- <- <-. exact (sg_ids _ _ SG (fst q) k (proj1 (Q_in G M SG Q PQ q Hq)) Hk).
    + exact (events_valid G M SG c Q PQ L HL evs Y ND HY).
    + exact (events_solved c Q evs Y HY).
    + exact (few_light G M SG c HC Q PQ Y FEW).
    + exact (sized G c Q L D MD true (fun _ => SZ) eq_refl).
Qed.

Lemma plain_built : forall (g : ugraph RN) ens d, build_decoder g ens = Ok d ->
  exists D, build_correlated (mkCG g (map (fun _ => []) (M_UserGraph.edges g)) true) ens = Ok D /\ cd_dec D = d.
Proof.
  intros g ens d H. unfold build_decoder in H. unfold build_correlated. cbn [c_graph c_rules c_plain]. destruct (negb _); [discriminate|].
  assert (CC : correlated_constant (mkCG g (map (fun _ => []) (M_UserGraph.edges g)) true) = normalising_constant (map M_UserGraph.weight (M_UserGraph.edges g))).
  { unfold correlated_constant. cbn [c_graph c_rules]. assert (F : forall l : list (uedge RN), forallb (forallb (rule_ok g)) (map (fun _ => []) l) = true /\ concat (map (fun _ => []) l) = ([] : list (key * R))) by (induction l as [|e l [I1 I2]]; [split; reflexivity|cbn; rewrite I1, I2; split; reflexivity]).
    destruct (F (M_UserGraph.edges g)) as [F1 F2]. rewrite F1, F2. cbn [map]. now rewrite app_nil_r. }
  rewrite CC. destruct (normalising_constant _) as [c| | |]; cbn [bindO] in *; try discriminate.
  assert (RE : ruled_edges c (mkCG g (map (fun _ => []) (M_UserGraph.edges g)) true) = map bare_edge (map (discretised_edge c) (M_UserGraph.edges g))).
  { unfold ruled_edges. cbn [c_graph c_rules]. clear. induction (M_UserGraph.edges g) as [|e l IH]; [reflexivity|]. cbn. now rewrite IH. }
  rewrite RE, bare_all, fst_bare. unfold to_matching_graph, to_search_graph in H. set (C := convert_all _ _ _) in *. destruct (build _ _ C) as [mg| | |]; cbn [bindO] in *; try discriminate.
  destruct (bare_implied (adj mg) (num_nodes g) C) as [T ->]. cbn [bindO]. destruct (_ || ens).
  - destruct (sbuild _ C) as [sg| | |]; cbn [bindO] in *; try discriminate. destruct (bare_implied (sadj sg) (num_nodes g) C) as [TS ->]. cbn [bindO]. eexists. split; [reflexivity|]. cbn [cd_dec]. now injection H.
  - eexists. split; [reflexivity|]. cbn [cd_dec]. now injection H.
Qed.
Lemma conv_ids : forall (g : ugraph RN), Inv g -> fault_ids_in_range g -> forall c u x w os k,
  In (u, x, w, os) (convert_all (num_nodes g) (fun v => is_boundary_node g (Some v)) (map (discretised_edge c) (M_UserGraph.edges g))) -> In k os -> k < M_UserGraph.nobs g.
Proof.
  intros g INV IDS c u x w os k Hi Hk. apply (convert_all_In _ _ _ _ (proj1 (range_below _ _) (E_below g INV c))) in Hi as (t' & <- & H).
  assert (X : exists a y w', In (a, y, w', os) (map (discretised_edge c) (M_UserGraph.edges g))).
  { destruct H as [(u1 & v1 & w1 & o1 & Eq & H & _)|(u1 & w1 & o1 & Eq & _ & H)]; injection Eq as -> -> -> ->; [eauto|]. apply table_orig in H as (e & He & HE). pose proof (convert_edge_spec (fun v => is_boundary_node g (Some v)) e) as S. rewrite HE in S. destruct S as (_ & _ & _ & (a & y & ->) & _). eauto. }
  destruct X as (a & y & w' & H'). apply in_map_iff in H' as (e & E & He). injection E as _ _ _ <-. exact (IDS e k He Hk).
Qed.
Lemma plain_serving : forall nd no M dem, sound_model nd no M dem -> exists D, serving false nd no M dem D.
Proof.
  intros nd no M dem (S1 & S2 & S3 & S4 & S5). set (g := load_dem RD nd no dem : ugraph RN).
  pose proof (model_fits nd no dem M S1 S2 S3) as FT. pose proof (model_inv nd no dem) as INV. pose proof (model_flags nd no dem) as FL. pose proof (model_ids nd no dem S1 S4) as IDS. pose proof (model_nobs nd no dem S4) as NO. pose proof (model_harmless nd no dem) as HARM.
  destruct (decoder_built g INV (f_weights _ _ FT) IDS (model_scalable nd no dem S1 S5) false) as (d & c & sg & HD & DO & _). destruct (plain_built g false d HD) as (D & BD & ED). exists D.
  pose proof (graph_ready g d c sg DO) as RD0.
  split; [unfold cli_decoder, load_model; exact BD|]. split; [rewrite ED, (do_nobs _ _ _ _ DO); exact NO|]. split.
  { unfold resting, fresh. cbn [cr_graph cr_search cr_run]. split; [reflexivity|]. split; [reflexivity|]. rewrite ED. exact RD0. }
  assert (EXP : forall evs, readable false dem evs -> NoDup evs /\ exists F, corrects g F evs /\ manageable g F /\ forall v, In v evs -> v < num_nodes g).
  { intros evs (ND & X & EX & HN). split; [exact ND|]. destruct (model_explainable nd no dem S1 S4 _ X EX HN) as (evs0 & F & E0 & HF & HS). exists F. pose proof (corrects_iff g F evs0 evs E0 HF) as HF'. split; [exact HF'|]. split; [exact HS|]. exact (explained_range g F evs INV FL HF'). }
  split.
  - intros x evs RS RDB. destruct (EXP evs RDB) as (ND & F & HF & HS & IR). pose proof (current_same' D x RS) as SD. destruct RS as (R1 & R2 & R3). rewrite ED in *.
    destruct (graph_decode_h g INV FL d c sg DO HARM (cr_run x) evs R3 ND IR F HF HS) as (K & r' & o & w & D1 & D2 & X & X1 & X2 & X3 & X4).
    exists K, (with_run x r'), o, w. split; [|split; [|split]].
    + intros f Hf. unfold correlated_decode_h. rewrite (same_decode _ _ SD), D1 by exact Hf. reflexivity.
    + unfold resting, with_run. cbn [cr_graph cr_search cr_run]. rewrite ED. auto.
    + rewrite X1, map_length, seq_length. exact NO.
    + exists w. apply (row_most_likely nd no dem M S1 S2 S4). exists evs, X. split; [reflexivity|]. split; [rewrite X1, map_map; reflexivity|]. auto.
  - intros x evs RS RDB. destruct (EXP evs RDB) as (ND & F & HF & HS & IR). pose proof (pipeline_light g INV FL d c sg DO HARM evs F HF HS) as (LW & L2 & L3). pose proof (spy_able (adj (d_graph d)) LW (d_neg d) evs L2 L3) as AB. rewrite (neg_eta g d c sg DO) in AB.
    pose proof (d_eta g d c sg DO) as Ed. rewrite <- NO.
    apply (single_mask (nobs g) (num_nodes g) _ (d_graph d) (boundary_flags g) (d_search d) (2 * c)%R D (do_mg _ _ _ _ DO) (convert_all_fop _ _ _ (E_fop g INV c)) (fun e He => proj1 (C_even g INV d c sg DO e He)) (C_bare g INV FL c)); auto.
    + exact (conv_ids g INV IDS c).
    + now rewrite ED.
    + exact (C_valid g d c sg DO evs ND IR).
    + destruct (corr_solves g INV FL d c sg DO HARM evs F HF) as (Y & HY & _). exists Y. exact HY.
Qed.
Lemma model_serving : forall cor nd no M dem, sound_for cor nd no M dem -> exists D, serving cor nd no M dem D.
Proof. intros [] nd no M dem H; [exact (correlated_serving nd no M dem H)|exact (plain_serving nd no M dem H)]. Qed.

Lemma cli_right : forall cor nd no M dem records, sound_for cor nd no M dem -> Forall (fun r => readable cor dem (hits r)) records ->
  exists K lines, (forall fuel, K <= fuel -> cli_predict fuel cyclic_ints cor nd no dem records = Ok lines) /\
    Forall2 (fun r l => right_line cor no M dem (hits r) l) records lines /\
    (no <= 64 -> forall obs source, Forall (fun o => length o = no) obs -> recorded obs source records -> forall fuel, K <= fuel ->
       cli_count_mistakes fuel cyclic_ints cor nd no dem source records = Ok (differences lines obs, Z.of_nat (length records))).
Proof.
  intros cor nd no M dem records SM OK. destruct (model_serving cor nd no M dem SM) as (D & BD & DN & RS & STEP & TELL).
  destruct (predict_c no cor D (readable cor dem) (right_line cor no M dem) STEP TELL records (fresh D) RS OK) as (K & lines & P1 & P2 & P3). exists K, lines. split; [|split; [exact P2|]].
  - intros f Hf. unfold cli_predict. rewrite BD. cbn [bindO]. unfold main_predict. rewrite DN. destruct (P1 f Hf) as [x' ->]. reflexivity.
  - intros LE obs source LO RC f Hf. unfold cli_count_mistakes. rewrite BD. cbn [bindO]. unfold main_count_mistakes. destruct (P3 LE obs source 0%Z 0%Z LO RC f Hf) as [x' ->]. reflexivity.
Qed.
Lemma cli_missing : forall cor nd no M dem records ms, sound_for cor nd no M dem -> Forall (fun r => readable cor dem (hits r)) records -> length ms < length records ->
  exists K, forall fuel, K <= fuel -> cli_count_mistakes fuel cyclic_ints cor nd no dem (Some ms) records = Throw.
Proof.
  intros cor nd no M dem records ms SM OK LE. destruct (model_serving cor nd no M dem SM) as (D & BD & DN & RS & STEP & TELL).
  destruct (missing_c no cor D (readable cor dem) TELL records (fresh D) RS OK) as (K & P). exists K. intros f Hf. unfold cli_count_mistakes. rewrite BD. cbn [bindO]. unfold main_count_mistakes. now rewrite (P ms 0%Z 0%Z LE f Hf).
Qed.
Lemma cli_many : forall cor nd no M dem records, sound_for cor nd no M dem -> Forall (fun r => readable cor dem (hits r)) records -> 64 < no ->
  exists K, forall obs source, recorded obs source records -> forall fuel, K <= fuel ->
    cli_count_mistakes fuel cyclic_ints cor nd no dem source records = Ok (flagged obs, Z.of_nat (length records)).
Proof.
  intros cor nd no M dem records SM OK LE. destruct (model_serving cor nd no M dem SM) as (D & BD & DN & RS & STEP & TELL).
  destruct (many_c no cor D (readable cor dem) TELL LE records (fresh D) RS OK) as (K & P). exists K. intros obs source RC f Hf. unfold cli_count_mistakes. rewrite BD. cbn [bindO]. unfold main_count_mistakes. destruct (P obs source 0%Z 0%Z RC f Hf) as [x' ->]. reflexivity.
Qed.

(** ** A model with 65 observables *)
Definition wide_model : list (instruction RD) := [(1/4, [Det 0; Obs 0])%R] : list (R * list target).
Definition wide_shot : shot := {| hits := [0]; shot_obs_mask := 1%Z |}.
Definition wide_line : list bool := true :: repeat false 64.
Lemma wide_mechanisms : mechanisms RD wide_model = [((1/4)%R, (0, None, [0]))].
Proof. unfold mechanisms, wide_model. cbn [flat_map p_pos RD]. assert (E : Rltb 0 (1/4) = true) by (apply Rltb_true; lra). now rewrite E. Qed.
Lemma wide_sound : sound_for false 1 65 10 wide_model.
Proof.
  unfold sound_for, sound_model. rewrite wide_mechanisms. split; [|split; [|split; [|split]]].
  - intros p ts [H|[]]. injection H as <- <-. lra.
  - intros m [<-|[]]. unfold log_likelihood_ratio. cbn [fst]. assert (U : forall y, (0 < y -> ln y <= y - 1)%R). { intros y Hy. pose proof (exp_ineq1_le (ln y)) as E. rewrite exp_ln in E by exact Hy. lra. }
    apply Rabs_le. replace ((1 - 1 / 4) / (1 / 4))%R with 3%R by lra. pose proof (U 3%R ltac:(lra)). pose proof (ln_le 1 3 ltac:(lra) ltac:(lra)) as L. rewrite ln_1 in L. lra.
  - unfold max_user_weight. lra.
  - intros p a b os [H|[]]. injection H as <- <- <- <-. split; [lia|]. split; [discriminate|]. intros k [<-|[]]. lia.
  - right. eexists. split; [now left|]. unfold together. cbn. unfold exactly_one. eapply Rle_trans; [apply llr_far|apply Rle_abs]. lra.
Qed.
Lemma wide_readable : readable false wide_model [0].
Proof.
  split; [constructor; [intros []|constructor]|]. rewrite wide_mechanisms. exists [true]. split; [split; [reflexivity|]|].
  - intros [|v]; cbn; [tauto|]. split; [discriminate|]. intros [H|[]]. discriminate.
  - left. cbn [filter]. destruct (Rltb _ _); cbn; lia.
Qed.
Lemma wide_right : forall l, right_line false 65 10 wide_model [0] l -> l = wide_line.
Proof.
  intros l (w & X & EX & ROW & _). rewrite wide_mechanisms in *. destruct EX as [LX EX]. destruct X as [|x [|? ?]]; try discriminate LX.
  assert (x = true) as ->. { pose proof (proj2 (EX 0) (or_introl eq_refl)) as H. cbn in H. destruct x; [reflexivity|discriminate]. }
  assert (INJ : forall a b : list bool, map Z.b2z a = map Z.b2z b -> a = b). { induction a as [|p a IH]; intros [|q b] H; try discriminate; [reflexivity|]. injection H as H1 H2. f_equal; [destruct p, q; try reflexivity; discriminate|now apply IH]. }
  apply INJ. rewrite ROW. reflexivity.
Qed.
Lemma wide_wrong : exists K, forall fuel, K <= fuel ->
  cli_predict fuel cyclic_ints false 1 65 wide_model [wide_shot] = Ok [wide_line] /\ cli_count_mistakes fuel cyclic_ints false 1 65 wide_model None [wide_shot] = Ok (1, 1)%Z.
Proof.
  assert (OK : Forall (fun r => readable false wide_model (hits r)) [wide_shot]) by (constructor; [exact wide_readable|constructor]).
  destruct (cli_right false 1 65 10 wide_model [wide_shot] wide_sound OK) as (K & lines & P1 & P2 & _). destruct (cli_many false 1 65 10 wide_model [wide_shot] wide_sound OK ltac:(lia)) as (K2 & P3).
  exists (Nat.max K K2). intros f Hf. split.
  - rewrite P1 by lia. inversion P2 as [|? l ? ls H1 H2]; subst. inversion H2; subst. f_equal. f_equal. exact (wide_right l H1).
  - rewrite (P3 [wide_line] None) by first [reflexivity | lia]. reflexivity.
Qed.
