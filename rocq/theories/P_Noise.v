(** Sampled noise can be decoded. *)
From Coq Require Import Reals ZArith List Bool Arith Lia Lra Permutation.
From Verif Require P_Distance2 P_CheckMatrix M_CheckMatrix S_CheckMatrix.
From Verif Require Import M_Base M_Bits M_Core M_CoreHeap M_Merge S_Distance P_Distance M_Noise P_MatrixArgs2 M_Matching S_Matching P_Matching P_Pipeline P_Pipeline2 M_UserGraph S_UserGraph P_UserGraph S_Pipeline S_Noise.
Import ListNotations.
Local Open Scope nat_scope.

Lemma hits_flipped : forall (g : ugraph RN) draws, S_CheckMatrix.flipped g (hits g draws) = flipped_edges (edges g) draws.
Proof.
  intros g. unfold S_CheckMatrix.flipped, hits. induction (edges g) as [|e es IH]; intros [|r draws]; [reflexivity|reflexivity|reflexivity|].
  cbn [combine map filter flipped_edges fst snd]. unfold Rltb at 1. destruct (Rlt_dec r (prob e)); cbn [filter snd map fst]; [f_equal|]; apply IH.
Qed.
Lemma hits_length : forall (g : ugraph RN) draws, length draws = length (edges g) -> length (hits g draws) = length (edges g).
Proof. intros g draws H. unfold hits. rewrite map_length, combine_length. lia. Qed.
Lemma flipped_sub : forall es draws, NoDup es -> NoDup (flipped_edges es draws) /\ incl (flipped_edges es draws) es.
Proof.
  induction es as [|e es IH]; intros [|r draws] ND; cbn [flipped_edges]; try (split; [constructor|intros ? []]). apply NoDup_cons_iff in ND as [N1 N2]. destruct (IH draws N2) as [I1 I2].
  destruct (Rlt_dec r (prob e)); split; auto.
  - constructor; auto.
  - intros x [<-|H]; [now left|right; auto].
  - intros x H. right. auto.
Qed.
Lemma count_ends : forall v (F : list (uedge RN)), count_occ Nat.eq_dec (flat_map S_CheckMatrix.ends F) v = total_degree v F.
Proof.
  intros v F. induction F as [|e F IH]; [reflexivity|]. unfold total_degree in *. cbn [flat_map fold_right]. rewrite count_occ_app, IH. f_equal. unfold S_CheckMatrix.ends, edge_ends.
  destruct (node2 e) as [x|]; cbn [count_occ]; destruct (Nat.eq_dec (node1 e) v), (Nat.eqb_spec (node1 e) v); try congruence; try lia; destruct (Nat.eq_dec x v), (Nat.eqb_spec x v); try congruence; lia.
Qed.
Lemma count_ids : forall k (F : list (uedge RN)), Nat.odd (count_occ Nat.eq_dec (flat_map (@obs RN) F) k) = flips_observable k F.
Proof. intros k F. induction F as [|e F IH]; [reflexivity|]. unfold flips_observable in *. cbn [flat_map fold_right]. now rewrite count_occ_app, Nat.odd_add, IH. Qed.
Lemma ops_of : forall cs n k, exists ops, fold_left after cs (new_graph RN n k) = run (new_graph RN n k) ops.
Proof.
  assert (X : forall cs g, exists ops, fold_left after cs g = run g ops).
  { induction cs as [|c cs IH]; intros g; [now exists []|]. destruct (IH (after g c)) as (ops & E). destruct c as [x| | | | |]; cbn [after] in E; [exists (x :: ops)|exists ops..]; exact E. }
  intros. apply X.
Qed.
Lemma list_ext : forall A (d : A) l l', length l = length l' -> (forall i, i < length l -> nth i l d = nth i l' d) -> l = l'.
Proof. intros A d l l' H1 H2. apply (nth_ext l l' d d H1 H2). Qed.
Lemma noise_means : forall n k cs draws, let g := fold_left after cs (new_graph RN n k) in
  allp g = true -> fault_ids_in_range g -> length draws = length (edges g) -> let F := flipped_edges (edges g) draws in
  py_add_noise g draws = Ok (Some (observables_of g F, syndrome_of g F)).
Proof.
  intros n k cs draws g AP IDS LD F. destruct (ops_of cs n k) as (ops & E). fold g in E.
  destruct (P_CheckMatrix.noise_consistent n k ops (hits g draws)) as (errs & syn & N1 & N2 & N3 & N4 & N5); rewrite <- E in *; auto using hits_length.
  unfold py_add_noise. rewrite AP, N1. cbn [negb bindO fst snd]. rewrite (hits_flipped g draws) in N4, N5. fold F in N4, N5.
  assert (E1 : map Z.b2z errs = observables_of g F).
  { apply (list_ext _ 0%Z); [unfold observables_of; rewrite !map_length, seq_length; exact N2|]. intros i Hi. rewrite map_length, N2 in Hi. change 0%Z with (Z.b2z false) at 1. rewrite map_nth, (N4 i Hi). unfold S_CheckMatrix.odd_count.
    rewrite count_ids. unfold observables_of. symmetry. exact (P_MatrixArgs2.nth_map_seq (fun k => Z.b2z (flips_observable k F)) _ _ _ Hi). }
  assert (E2 : map Z.b2z syn = syndrome_of g F).
  { apply (list_ext _ 0%Z); [unfold syndrome_of; rewrite !map_length, seq_length; exact N3|]. intros v Hv. rewrite map_length, N3 in Hv. change 0%Z with (Z.b2z false) at 1. rewrite map_nth, (N5 v Hv). unfold S_CheckMatrix.odd_count.
    rewrite count_ends. unfold syndrome_of. rewrite (P_MatrixArgs2.nth_map_seq _ _ _ _ Hv). destruct (in_dec Nat.eq_dec v (bnodes g)) as [I|I]; destruct (existsb (Nat.eqb v) (bnodes g)) eqn:EB; try reflexivity; exfalso.
    - assert (existsb (Nat.eqb v) (bnodes g) = true) by (apply existsb_exists; exists v; split; [exact I|apply Nat.eqb_refl]). congruence.
    - apply existsb_exists in EB as (x & H1 & H2). apply Nat.eqb_eq in H2. subst. contradiction. }
  now rewrite E1, E2.
Qed.
(** The detection events of the sampled syndrome are those of the flipped edges. *)
Lemma noise_events : forall n k cs F, let g := fold_left after cs (new_graph RN n k) in NoDup F -> incl F (edges g) ->
  exists evs, (forall v, In v evs <-> event_at (Syn1 (syndrome_of g F)) v) /\ corrects g F evs.
Proof.
  intros n k cs F g ND IN. destruct (ops_of cs n k) as (ops & E). fold g in E. assert (HI : Inv g) by (rewrite E; apply run_inv; apply new_inv).
  assert (D0 : forall v, num_nodes g <= v -> total_degree v F = 0).
  { intros v Hv. assert (A : forall e, In e F -> edge_ends v e = 0).
    { intros e He. destruct HI as (_ & HN & _). destruct (HN e (IN e He)) as [A B]. clearbody g. unfold num_nodes in Hv. unfold edge_ends. destruct (Nat.eqb_spec (node1 e) v); [lia|]. destruct (node2 e) as [x|]; [|reflexivity]. specialize (B x eq_refl). destruct (Nat.eqb_spec x v); lia. }
    clear IN ND. induction F as [|e F IH]; [reflexivity|]. change (edge_ends v e + total_degree v F = 0). rewrite (A e (or_introl eq_refl)), IH by (intros; apply A; now right). reflexivity. }
  exists (filter (fun v => negb (nth v (syndrome_of g F) 0 =? 0)%Z) (seq 0 (num_nodes g))).
  assert (V : forall v, v < num_nodes g -> nth v (syndrome_of g F) 0%Z = if in_dec Nat.eq_dec v (bnodes g) then 0%Z else Z.b2z (Nat.odd (total_degree v F))) by (intros v Hv; exact (P_MatrixArgs2.nth_map_seq _ _ _ _ Hv)).
  assert (L : length (syndrome_of g F) = num_nodes g) by (unfold syndrome_of; now rewrite map_length, seq_length).
  assert (X : forall v, In v (filter (fun v => negb (nth v (syndrome_of g F) 0 =? 0)%Z) (seq 0 (num_nodes g))) <-> event_at (Syn1 (syndrome_of g F)) v).
  { intros v. rewrite filter_In, in_seq, negb_true_iff, Z.eqb_neq. cbn [event_at]. split; [tauto|]. intros H. split; [|exact H]. split; [lia|]. destruct (Nat.lt_ge_cases v (num_nodes g)) as [|G]; [assumption|]. exfalso. apply H. apply nth_overflow. now rewrite L. }
  split; [exact X|]. split; [exact ND|]. split; [exact IN|]. intros v Hv. rewrite X. cbn [event_at]. destruct (Nat.lt_ge_cases v (num_nodes g)) as [G|G].
  - rewrite (V v G). destruct (in_dec Nat.eq_dec v (bnodes g)); [contradiction|]. destruct (Nat.odd (total_degree v F)); cbn; split; (discriminate || congruence || reflexivity || tauto).
  - rewrite (D0 v G), nth_overflow by (rewrite L; exact G). cbn. split; [discriminate|congruence].
Qed.
Lemma noise_accepted : forall (g : ugraph RN) F, accepted g (Syn1 (syndrome_of g F)).
Proof. intros g F. cbn [accepted]. unfold syndrome_of, num_detectors. rewrite map_length, seq_length. lia. Qed.
Lemma fair_app : forall cs g c, all_fair g cs -> fair (fold_left after cs g) c -> all_fair g (cs ++ [c]).
Proof. induction cs as [|a cs IH]; intros g c H1 H2; [split; [exact H2|exact I]|]. destruct H1 as [A B]. split; [exact A|]. apply IH; assumption. Qed.
Lemma half_step_nonneg : forall M, (0 <= M)%R -> (0 <= half_step M)%R.
Proof. intros M H. unfold half_step. apply Rmult_le_pos; [apply Rmult_le_pos; [exact H|]|]; [left; apply Rinv_0_lt_compat; apply IZR_lt; reflexivity|]. assert (0 < / IZR (2 ^ 20))%R by (apply Rinv_0_lt_compat; apply IZR_lt; reflexivity). lra. Qed.
Lemma weight_abs : forall F, (Rabs (total_weight F) <= absolute_weight F)%R.
Proof. induction F as [|e F IH]; unfold total_weight, absolute_weight in *; cbn [fold_right]; [rewrite Rabs_R0; lra|]. eapply Rle_trans; [apply Rabs_triang|]. lra. Qed.
Lemma abs_perm : forall F F', Permutation F F' -> absolute_weight F = absolute_weight F'.
Proof. intros F F' P. unfold absolute_weight. induction P; cbn [fold_right]; lra. Qed.
Lemma abs_nonneg : forall F, (0 <= absolute_weight F)%R.
Proof. intros F. eapply Rle_trans; [apply Rabs_pos|apply weight_abs]. Qed.
Lemma abs_sub : forall F es, NoDup F -> incl F es -> (absolute_weight F <= absolute_weight es)%R.
Proof.
  induction F as [|e F IH]; intros es ND IN; [exact (abs_nonneg es)|]. apply NoDup_cons_iff in ND as [N1 N2]. destruct (in_split e es (IN e (or_introl eq_refl))) as (a & b & ->).
  rewrite <- (abs_perm (e :: a ++ b) (a ++ e :: b)) by apply Permutation_middle. unfold absolute_weight at 1 2. cbn [fold_right]. fold (absolute_weight F) (absolute_weight (a ++ b)). apply Rplus_le_compat_l. apply IH; [exact N2|].
  intros x Hx. specialize (IN x (or_intror Hx)). apply in_app_iff in IN as [H|[->|H]]; [apply in_app_iff; now left|contradiction|apply in_app_iff; now right].
Qed.
Lemma noise_row : forall g P row w F evs, right_row g P row w -> (forall v, In v evs <-> P v) -> corrects g F evs -> differ_by_cycle g row (observables_of g F) /\ no_heavier g w F.
Proof.
  intros g P row w F evs (evs' & G & HP & -> & CG & NB & WR) HE CF.
  assert (CF' : corrects g F evs') by (destruct CF as (A1 & A2 & A3); split; [exact A1|]; split; [exact A2|]; intros v Hv; rewrite (A3 v Hv), HE, HP; reflexivity). specialize (NB F CF').
  pose proof CG as (G1 & G2 & G3). pose proof CF' as (F1 & F2 & F3). split.
  - destruct (flip_all_ok F G G1) as (K1 & K2 & K3 & K4 & _). exists (flip_all F G). split; [|split; [|split]].
    + split; [exact K1|]. split; [intros x Hx; specialize (K2 x Hx); apply in_app_iff in K2 as [H|H]; auto|]. intros v Hv. rewrite K3. specialize (F3 v Hv). specialize (G3 v Hv).
      destruct (Nat.odd (total_degree v F)), (Nat.odd (total_degree v G)); cbn; split; try discriminate; try tauto; intros _; exfalso; [assert (X : false = true) by (apply G3, F3; reflexivity)|assert (X : false = true) by (apply F3, G3; reflexivity)]; discriminate.
    + now rewrite map_length, seq_length.
    + unfold observables_of. now rewrite map_length, seq_length.
    + intros i Hi. unfold observables_of. rewrite !(P_MatrixArgs2.nth_map_seq _ _ _ _ Hi), K4. now destruct (flips_observable i F), (flips_observable i G).
  - assert (L : length G <= length (edges g)) by (apply NoDup_incl_length; assumption). split.
    + intros M HM BM. pose proof (proj1 NB M BM) as N1. pose proof (proj1 WR M BM) as W1. pose proof (Rle_abs (w - total_weight G)) as W2. pose proof (half_step_nonneg M HM) as HS.
      assert (B : (INR (length G) + INR (length G + length F) <= INR (2 * length (edges g) + length F))%R) by (rewrite <- plus_INR; apply le_INR; lia). pose proof (Rmult_le_compat_r _ _ _ HS B) as B2. rewrite Rmult_plus_distr_r in B2. lra.
    + intros IW SM. rewrite (proj2 WR IW); [exact (proj2 NB IW)|]. eapply Rle_trans; [apply weight_abs|]. eapply Rle_trans; [apply abs_sub; eassumption|exact SM].
Qed.

Lemma noise_decodable : forall n k cs draws, let g := fold_left after cs (new_graph RN n k) in let F := flipped_edges (edges g) draws in
  all_fair (new_graph RN n k) cs -> allp g = true -> usable g -> length draws = length (edges g) -> manageable g F ->
  exists noise syn K m' rs row w, py_add_noise g draws = Ok (Some (noise, syn)) /\
    (forall fuel, K <= fuel -> mrun fuel cyclic_ints (new_matching (new_graph RN n k)) (cs ++ [AskDecode (Syn1 syn)]) = Ok (m', rs ++ [Row row w])) /\
    noise = observables_of g F /\ syn = syndrome_of g F /\ differ_by_cycle g row noise /\ no_heavier g w F.
Proof.
  intros n k cs draws g F AF AP US LD MA. destruct (ops_of cs n k) as (ops & E). fold g in E. assert (HI : Inv g) by (rewrite E; apply run_inv; apply new_inv).
  destruct (flipped_sub (edges g) draws (edges_NoDup g HI)) as [F1 F2]. fold F in F1, F2. destruct (noise_events n k cs F F1 F2) as (evs & V1 & V2). fold g in V1, V2.
  assert (AF2 : all_fair (new_graph RN n k) (cs ++ [AskDecode (Syn1 (syndrome_of g F))])).
  { apply fair_app; [exact AF|]. fold g. intros _. split; [exact US|]. left. exists evs, F. auto. }
  destruct (session_ok n k _ AF2) as (K & m' & rs & R1 & AR). destruct (P_Distance2.all_right_last cs _ _ rs AR) as (rs0 & r & -> & R). fold g in R. destruct R as [R _].
  destruct (R (noise_accepted g F)) as (row & w & -> & RR); [exists evs, F; split; [exact V1|exact V2]|]. destruct (noise_row g _ row w F evs RR V1 V2) as [Q1 Q2].
  exists (observables_of g F), (syndrome_of g F), K, m', rs0, row, w. split; [exact (noise_means n k cs draws AP (proj1 US) LD)|]. split; [exact R1|]. auto.
Qed.
Lemma noise_corrected : forall n k cs draws M D, let g := fold_left after cs (new_graph RN n k) in let F := flipped_edges (edges g) draws in
  all_fair (new_graph RN n k) cs -> allp g = true -> usable g -> length draws = length (edges g) -> manageable g F ->
  (forall e, In e (edges g) -> (0 <= weight e <= M)%R) -> (0 <= M)%R -> graph_distance g D -> under_half (integer_weights g) (length (edges g) + length F) M (total_weight F) D ->
  exists noise syn K m' rs w, py_add_noise g draws = Ok (Some (noise, syn)) /\
    (forall fuel, K <= fuel -> mrun fuel cyclic_ints (new_matching (new_graph RN n k)) (cs ++ [AskDecode (Syn1 syn)]) = Ok (m', rs ++ [Row noise w])).
Proof.
  intros n k cs draws M D g F AF AP US LD MA NN HM GD UH. destruct (ops_of cs n k) as (ops & E). fold g in E. assert (HI : Inv g) by (rewrite E; apply run_inv; apply new_inv).
  destruct (flipped_sub (edges g) draws (edges_NoDup g HI)) as [F1 F2]. fold F in F1, F2. destruct (noise_events n k cs F F1 F2) as (evs & V1 & V2). fold g in V1, V2.
  assert (AF2 : all_fair (new_graph RN n k) (cs ++ [AskDecode (Syn1 (syndrome_of g F))])).
  { apply fair_app; [exact AF|]. fold g. intros _. split; [exact US|]. left. exists evs, F. auto. }
  destruct (P_Distance2.session_corrects n k cs _ F evs M D AF2 (noise_accepted g F) V1 V2 NN HM GD UH) as (K & m' & rs & w & R).
  exists (observables_of g F), (syndrome_of g F), K, m', rs, w. split; [exact (noise_means n k cs draws AP (proj1 US) LD)|exact R].
Qed.
(** Edges that never or always are flipped. *)
Lemma hits_certain : forall (g : ugraph RN) draws i e b, length draws = length (edges g) -> (forall r, In r draws -> (0 <= r < 1)%R) -> nth_error (edges g) i = Some e -> nth_error (hits g draws) i = Some b ->
  (prob e = 0%R -> b = false) /\ (prob e = 1%R -> b = true).
Proof.
  intros g. unfold hits. induction (edges g) as [|a es IH]; intros [|r draws] i e b HL HR He Hb; try discriminate; [destruct i; discriminate|]. cbn in HL. injection HL as HL. pose proof (HR r (or_introl eq_refl)) as Hr. destruct i as [|i].
  - cbn in He, Hb. injection He as <-. injection Hb as <-. unfold Rltb. split; intros Hp; rewrite Hp; destruct (Rlt_dec _ _); (reflexivity || (exfalso; lra)).
  - exact (IH draws i e b HL (fun x Hx => HR x (or_intror Hx)) He Hb).
Qed.
Lemma noise_none : forall g draws, allp g = false -> py_add_noise g draws = Ok None.
Proof. intros g draws H. unfold py_add_noise. now rewrite H. Qed.
