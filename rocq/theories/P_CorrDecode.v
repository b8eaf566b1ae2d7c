(** Both passes of decoding with edge correlations on the two radix heaps. *)
From Coq Require Import Reals ZArith NArith List Bool Arith Lia Permutation.
From Verif Require Import M_Base M_Core M_CoreHeap M_Session S_Core S_Session S_CoreHeap S_Decode S_Reach M_Build S_Build P_Build P_Convert P_Convert2 M_Flip S_Flip P_Flip M_Search S_Search M_ToEdges S_ToEdges
  P_ToEdges P_ToEdges2 M_SearchHeap S_SearchHeap P_CoreGeo P_CoreDecode P_Signed P_Decode P_Halt P_Halt2 P_Machine P_CoreSim P_CoreHeap P_CoreHeap2 P_SearchHeap P_SearchHeap2
  M_Reweight S_Reweight P_Reweight M_Correlated S_Correlated P_Correlated P_Correlated2 M_Pipeline M_PipelineHeap S_PipelineHeap P_Pipeline2 P_PipelineHeap M_Matching M_CorrDecode.
Import ListNotations.
Local Open Scope nat_scope.

(** Two decoders that decoding cannot tell apart. *)
Definition same_search (a b : option sgraph) : Prop :=
  match a, b with Some a, Some b => sadj a = sadj b /\ sneg a = sneg b | None, None => True | _, _ => False end.
Record same_decoder (d e : decoder) : Prop := {
  sd_nobs : d_nobs d = d_nobs e; sd_adj : adj (d_graph d) = adj (d_graph e); sd_neg : d_neg d = d_neg e; sd_negobs : neg_obss (d_graph d) = neg_obss (d_graph e);
  sd_search : same_search (d_search d) (d_search e); sd_norm : d_norm d = d_norm e }.
Lemma same_decode : forall d e, same_decoder d e -> forall f A r evs, py_decode_h d f A r evs = py_decode_h e f A r evs.
Proof.
  intros d e [H1 H2 H3 H4 H5 H6] f A r evs. unfold py_decode_h, decode_events_h. rewrite H1, H2, H3, H4, H6. unfold same_search in H5.
  destruct (d_search d), (d_search e); try tauto. destruct H5 as [-> _]. reflexivity.
Qed.
Lemma same_edges : forall d e, same_decoder d e -> forall f A r evs, py_decode_to_edges_h d f A r evs = py_decode_to_edges_h e f A r evs.
Proof.
  intros d e [H1 H2 H3 H4 H5 H6] f A r evs. unfold py_decode_to_edges_h. rewrite H2, H3. unfold same_search in H5.
  destruct (d_search d), (d_search e); try tauto. destruct H5 as [-> ->]. reflexivity.
Qed.

(** One pass. *)
Section Pass.
Variables (nb n : nat) (C : list sedge) (mg : mgraph) (sg : sgraph) (bnd : list bool) (so : option sgraph) (nc : R).
Hypothesis HB : build nb n C = Ok mg.
Hypothesis HS : sbuild n C = Ok sg.
Hypothesis NP : ForallOrdPairs (fun e f => ~ parallel e f) C.
Hypothesis EV : forall e, In e C -> Z.even (s_weight e) = true.
Hypothesis POS : forall e, In e C -> (0 <= s_weight e <= max_weight)%Z.
Hypothesis BN : boundary_bare bnd C.
Hypothesis SO : so = Some sg \/ (nb <= 64 /\ so = None).
Let d := mkDec nb mg so bnd nc.
Variables (r : running) (evs : list nat) (Y : list bool).
Hypothesis RD : ready d r.
Hypothesis V : valid_events (adj mg) evs.
Hypothesis Sol : solves C (wanted bnd evs) Y.
Hypothesis LY : wide_enough C (s_total (select C Y)).

Lemma pass_able : able spy_ints (adj mg) (neg_info_of nb mg bnd) evs.
Proof.
  destruct (signed_light nb n C mg bnd HB NP EV BN) with (evs := evs) (Y := Y) as (H1 & H2 & H3); [|exact Sol| |].
  - intros e He. pose proof (POS e He). lia.
  - assert (Ng : negs C = []).
    { clear -POS. unfold negs. induction C as [|e E IH]; [reflexivity|]. cbn [filter]. pose proof (POS e (or_introl eq_refl)). destruct (Z.ltb_spec (s_weight e) 0); [lia|]. apply IH. intros f Hf. apply POS. now right. }
    rewrite Ng. cbn. rewrite Z.add_0_r. exact LY.
  - exact (spy_able (adj mg) H1 _ evs H2 H3).
Qed.
Lemma pass_decode : exists K r' w X, (forall fuel, K <= fuel -> py_decode_h d fuel cyclic_ints r evs = Ok (r', (map (fun i => s_flips i (select C X)) (seq 0 nb), reported nc w))) /\
  ready d r' /\ (forall u i, r_marks r' u i = r_marks r u i) /\ best C (wanted bnd evs) X /\ s_total (select C X) = w.
Proof.
  pose proof pass_able as AB.
  destruct (events_same nb n C mg sg bnd so nc HB HS NP EV SO r evs (AB := AB) RD V) as (K1 & orc & orc2 & h & hq & Q1 & Q2).
  destruct (run_events nb n C mg sg bnd so nc HB HS NP EV BN SO spy_ints orc orc2 (r_state r) (r_search r) evs (AB := AB) (rd_idle _ _ RD) (rd_search _ _ RD) V (ex_intro _ Y Sol)) as (K2 & s' & q' & w & X & P1 & P2 & P3 & P4 & P5 & P6).
  exists (Nat.max K1 K2), (mkRun s' h q' hq (r_marks r)), w, X. fold d in P1, Q2.
  assert (Z0 : forall fuel, Nat.max K1 K2 <= fuel -> py_decode_h d fuel cyclic_ints r evs = Ok (mkRun s' h q' hq (r_marks r), (map (fun i => s_flips i (select C X)) (seq 0 nb), reported nc w)) /\ drained s' h).
  { intros f Hf. specialize (P1 f ltac:(lia)). destruct (Q2 f ltac:(lia)) as [Q3 Q4]. unfold py_decode_h. rewrite P1 in Q3, Q4. destruct Q3 as [Q3|Q3]; [discriminate|]. rewrite Q3. split; [reflexivity|]. exact (Q4 _ _ _ eq_refl). }
  split; [intros f Hf; exact (proj1 (Z0 f Hf))|]. split; [|split; [reflexivity|split; [split; [exact P4|rewrite P5; exact P6]|exact P5]]].
  destruct RD. split; cbn [r_state r_heap r_search r_sheap r_marks]; auto. exact (proj2 (Z0 _ (le_n _))).
Qed.
Hypothesis SS : so = Some sg.
Lemma pass_edges : exists K r' out X, (forall fuel, K <= fuel -> py_decode_to_edges_h d fuel cyclic_ints r evs = Ok (r', out)) /\
  ready d r' /\ (forall u i, r_marks r' u i = r_marks r u i) /\ best C (wanted bnd evs) X /\ lists_edges out (select C X) /\ forall e, In e (select C X) -> loop e = false.
Proof.
  pose proof pass_able as AB. pose proof (rd_marks _ _ RD sg SS) as UM.
  destruct (edges_same nb n C mg sg bnd so nc HB HS NP EV SO r evs (AB := AB) RD V) as (K1 & orc & orc2 & h & hq & Q1 & Q2).
  destruct (edges_full nb n C mg sg bnd orc orc2 (r_state r) (r_search r) (r_marks r) evs (AB := AB) HB HS NP EV BN (fun e He => proj1 (POS e He)) (rd_idle _ _ RD) (rd_search _ _ RD) V UM (ex_intro _ Y Sol))
    as (K2 & s' & q' & M' & out & X & P1 & P2 & P3 & P4 & P5 & P6 & P7).
  exists (Nat.max K1 K2), (mkRun s' h q' hq M'), out, X. fold d in Q2.
  assert (Z0 : forall fuel, Nat.max K1 K2 <= fuel -> py_decode_to_edges_h d fuel cyclic_ints r evs = Ok (mkRun s' h q' hq M', out) /\ drained s' h).
  { intros f Hf. specialize (P1 f ltac:(lia)). destruct (Q2 f ltac:(lia)) as [Q3 Q4].
    assert (PE : py_decode_to_edges d f f orc orc2 spy_ints (r_state r) (r_search r) (r_marks r) evs = Ok (s', q', M', out)).
    { unfold py_decode_to_edges, d_neg. cbn [d d_search d_graph d_nobs d_flags]. rewrite SS. rewrite P1. reflexivity. }
    rewrite PE in Q3, Q4. destruct Q3 as [Q3|Q3]; [discriminate|]. rewrite Q3. split; [reflexivity|]. exact (Q4 _ _ _ _ eq_refl). }
  split; [intros f Hf; exact (proj1 (Z0 f Hf))|]. split; [|auto].
  destruct RD as [R1 R2 R3 R4 R5]. split; cbn [r_state r_heap r_search r_sheap r_marks]; auto; [exact (proj2 (Z0 _ (le_n _)))|].
  intros sg' Hs. specialize (R5 sg' Hs). unfold unmarked in *. intros. rewrite P4. apply R5; assumption.
Qed.
End Pass.

(** The decoder of loaded graphs. *)
Record decoder_for (nb n : nat) (Rs : list redge) (bnd : list bool) (nc : R) (L : loaded) (D : cdecoder) : Prop := {
  df_load : load nb n Rs = Ok L;
  df_dec : exists so, cd_dec D = mkDec nb (lg L) so bnd nc /\ (so = Some (lsg L) /\ cd_search_rules D = lst L \/ nb <= 64 /\ so = None /\ cd_search_rules D = []);
  df_rules : cd_rules D = lt L;
  df_plain : cd_plain D = false }.
(** Between two calls. *)
Definition resting (D : cdecoder) (x : crunning) : Prop :=
  cr_graph x = (adj (d_graph (cd_dec D)), []) /\ cr_search x = (search_adj (cd_dec D), []) /\ ready (cd_dec D) (cr_run x).

Section Two.
Variables (nb n : nat) (Rs : list redge) (bnd : list bool) (nc : R) (L : loaded) (D : cdecoder).
Let E := map fst Rs.
Hypothesis DF : decoder_for nb n Rs bnd nc L D.
Hypothesis NP : ForallOrdPairs (fun e f => ~ parallel e f) E.
Hypothesis EV : forall e, In e E -> Z.even (s_weight e) = true.
Hypothesis POS : forall e, In e E -> (0 <= s_weight e <= max_weight)%Z.
Hypothesis BN : boundary_bare bnd E.
Variables (x : crunning) (evs : list nat) (Y : list bool).
Hypothesis RS : resting D x.
Hypothesis V : valid_events (adj (lg L)) evs.
Hypothesis Sol : solves E (wanted bnd evs) Y.
Hypothesis LY : wide_enough E (s_total (select E Y)).

Lemma current_same : same_decoder (current D x) (cd_dec D).
Proof.
  destruct RS as (R1 & R2 & _). destruct (df_dec _ _ _ _ _ _ _ DF) as (so & ED & _). unfold current. rewrite R1, R2, ED. cbn [fst d_nobs d_graph d_search d_flags d_norm search_adj].
  split; cbn; auto. destruct so; cbn; auto.
Qed.
Lemma single_decode : exists K r' w X, (forall fuel, K <= fuel -> correlated_decode_h fuel cyclic_ints false D x evs = Ok (with_run x r', (map (fun i => s_flips i (select E X)) (seq 0 nb), reported nc w))) /\
  resting D (with_run x r') /\ best E (wanted bnd evs) X /\ s_total (select E X) = w.
Proof.
  pose proof current_same as CS. destruct RS as (R1 & R2 & R3). destruct (df_dec _ _ _ _ _ _ _ DF) as (so & ED & SO). destruct (load_parts nb n Rs L bnd evs (df_load _ _ _ _ _ _ _ DF) V) as (HB & HT & HS & HTS).
  rewrite ED in R3. destruct (pass_decode nb n E (lg L) (lsg L) bnd so nc HB HS NP EV POS BN ltac:(tauto) (cr_run x) evs Y R3 V Sol LY) as (K & r' & w & X & P1 & P2 & _ & P3 & P4).
  exists K, r', w, X. split; [|split; [|auto]].
  - intros f Hf. unfold correlated_decode_h. rewrite (same_decode _ _ CS), ED, P1 by exact Hf. reflexivity.
  - rewrite <- ED in P2. unfold resting, with_run. cbn. auto.
Qed.
Lemma no_nodes : n = 0 -> Rs = [].
Proof using DF V.
  clear - DF V. intros N. destruct (load_parts _ _ _ L bnd evs (df_load _ _ _ _ _ _ _ DF) V) as (HB & _). destruct (build_built _ _ _ _ HB) as (_ & _ & _ & H & _).
  destruct Rs as [|[[[[u y] w] o] rs] Rs']; [reflexivity|]. exfalso. assert (u < n) by (apply (H (u, y, w, o) (or_introl eq_refl)); destruct y; now left). lia.
Qed.
Hypothesis SZ : length (adj (lg L)) = search_size (cd_dec D).
(** A decoder that has a search graph, or none because there are no nodes. *)
Lemma searching : cr_search x = (sadj (lsg L), []) /\ cd_search_rules D = lst L /\
  exists so, cd_dec D = mkDec nb (lg L) so bnd nc /\ (so = Some (lsg L) \/ n = 0 /\ Rs = [] /\ nb <= 64 /\ so = None /\ lsg L = mkSG [] [] []).
Proof using DF RS V SZ.
  destruct RS as (R1 & R2 & R3). destruct (df_dec _ _ _ _ _ _ _ DF) as (so & ED & SO). rewrite ED in *. unfold search_adj, search_size in *. cbn [d_search] in *. destruct SO as [[-> SR]|(SN & -> & SR)]; [eauto 6|].
  destruct (load_parts _ _ _ L bnd evs (df_load _ _ _ _ _ _ _ DF) V) as (HB & _). destruct (build_built _ _ _ _ HB) as (_ & LN & _).
  assert (N0 : n = 0) by (rewrite <- LN; exact SZ). pose proof (no_nodes N0) as R0. pose proof (df_load _ _ _ _ _ _ _ DF) as HL. rewrite N0, R0 in HL. cbn in HL. injection HL as <-. cbn. repeat (split; [auto|]). exists None. split; [reflexivity|]. auto 8.
Qed.
Lemma current_searching : same_decoder (with_search (current D x)) (mkDec nb (lg L) (Some (lsg L)) bnd nc).
Proof using DF RS V SZ.
  destruct searching as (S1 & _ & so & ED & SO). destruct RS as (R1 & R2 & _). unfold with_search, current. rewrite R1, S1, ED. cbn [fst d_nobs d_graph d_search d_flags d_norm].
  split; cbn; auto. destruct SO as [->|(_ & _ & _ & -> & ->)]; cbn; auto.
Qed.
Lemma ready_searching : ready (mkDec nb (lg L) (Some (lsg L)) bnd nc) (cr_run x).
Proof.
  destruct searching as (S1 & _ & so & ED & SO). destruct RS as (R1 & R2 & R3). rewrite ED in R3. destruct SO as [->|(_ & _ & _ & -> & SE)]; [exact R3|].
  destruct R3 as [Q1 Q2 Q3 Q4 Q5]. split; auto. cbn [d_search]. intros sg Hs. injection Hs as <-. rewrite SE. cbn [sadj]. intros u i H. elim H. unfold nbrs. destruct u, i; reflexivity.
Qed.
Lemma single_edges : exists K r' out X, (forall fuel, K <= fuel -> correlated_to_edges_h fuel cyclic_ints false D x evs = Ok (with_run x r', out)) /\
  resting D (with_run x r') /\ best E (wanted bnd evs) X /\ lists_edges out (select E X).
Proof.
  pose proof current_searching as CS. pose proof ready_searching as RD. destruct searching as (S1 & _ & so & ED & SO). destruct RS as (R1 & R2 & R3).
  destruct (load_parts nb n Rs L bnd evs (df_load _ _ _ _ _ _ _ DF) V) as (HB & HT & HS & HTS).
  destruct (pass_edges nb n E (lg L) (lsg L) bnd (Some (lsg L)) nc HB HS NP EV POS BN (or_introl eq_refl) (cr_run x) evs Y RD V Sol LY eq_refl) as (K & r' & out & X & P1 & P2 & P3 & P4 & P5 & P6).
  exists K, r', out, X. split; [|split; [|auto]].
  - intros f Hf. unfold correlated_to_edges_h. rewrite (same_edges _ _ CS), P1 by exact Hf. reflexivity.
  - unfold resting, with_run. cbn. repeat (split; [assumption|]). rewrite ED. destruct P2 as [Q1 Q2 Q3 Q4 Q5]. split; auto. cbn [d_search] in *. intros sg Hs. destruct SO as [->|(_ & _ & _ & -> & _)]; [auto|discriminate].
Qed.

(** The first pass, and what the second pass starts from. *)
Lemma first_pass_h : exists K X1 g' sg' so' p p' r1, best E (wanted bnd evs) X1 /\ build nb n (lowered Rs X1) = Ok g' /\ sbuild n (lowered Rs X1) = Ok sg' /\
  (so' = Some sg' \/ nb <= 64 /\ so' = None) /\
  (forall sg, d_search (cd_dec D) = Some sg -> so' = Some sg' /\ sg = lsg L) /\
  let d2 := mkDec nb g' so' bnd nc in
  same_decoder (current D (mkCR (adj g', p) (sadj sg', p') r1)) d2 /\
  same_decoder (with_search (current D (mkCR (adj g', p) (sadj sg', p') r1))) (mkDec nb g' (Some sg') bnd nc) /\
  ready d2 r1 /\ ready (mkDec nb g' (Some sg') bnd nc) r1 /\ valid_events (adj g') evs /\
  (forall r2, idle (adj g') (r_state r2) -> drained (r_state r2) (r_heap r2) -> search_idle (r_search r2) -> rested (r_sheap r2) -> (forall u i, r_marks r2 u i = r_marks r1 u i) -> resting D (with_run x r2)) /\
  forall (T : Type) (second : nat -> decoder -> running -> outcome (running * T)) fuel, K <= fuel ->
    two_pass_h fuel cyclic_ints D x evs (second fuel) =
    bindO (second fuel (current D (mkCR (adj g', p) (sadj sg', p') r1)) r1) (fun z => Ok (with_run x (fst z), snd z)).
Proof.
  pose proof current_searching as CS. pose proof ready_searching as RD. destruct searching as (S1 & S2 & so & ED & SO). destruct RS as (R1 & R2 & R3).
  destruct (load_parts nb n Rs L bnd evs (df_load _ _ _ _ _ _ _ DF) V) as (HB & HT & HS & HTS).
  destruct (pass_edges nb n E (lg L) (lsg L) bnd (Some (lsg L)) nc HB HS NP EV POS BN (or_introl eq_refl) (cr_run x) evs Y RD V Sol LY eq_refl) as (K & r1 & out & X1 & P1 & P2 & P3 & P4 & P5 & P6).
  destruct (second_graphs nb n Rs L bnd evs (df_load _ _ _ _ _ _ _ DF) NP EV (fun e He => proj1 (POS e He)) V X1 out P5 P6) as (g' & sg' & p & p' & A1 & A2 & A3 & A4 & A5 & A6 & A7 & A8 & A9 & A10 & A11).
  assert (NI' : neg_info_of nb (mkG (adj g') (neg_dets (lg L)) (neg_obss (lg L)) (neg_total (lg L))) bnd = neg_info_of nb g' bnd) by (rewrite A3; reflexivity).
  exists K, X1, g', sg', (match so with Some _ => Some sg' | None => None end), p, p', r1. split; [exact P4|]. split; [exact A1|]. split; [exact A2|].
  assert (RD2 : ready (mkDec nb g' (Some sg') bnd nc) r1).
  { destruct P2 as [Q1 Q2 Q3 Q4 Q5]. split; cbn [d_graph d_search] in *; auto; [exact (idle_len _ _ _ (eq_sym A6) Q1)|]. intros sg Hs. injection Hs as <-. apply A7, Q5. reflexivity. }
  split; [destruct SO as [->|(_ & _ & Hn & -> & _)]; auto|]. 
  split; [rewrite ED; cbn [d_search]; intros sg Hs; destruct SO as [->|(_ & _ & _ & -> & _)]; [split; congruence|discriminate]|].
  split; [|split; [|split; [|split; [exact RD2|split; [exact (valid_len _ _ _ (eq_sym A6) V)|split]]]]].
  - unfold current. rewrite ED. cbn [d_nobs d_graph d_search d_flags d_norm cr_graph cr_search fst]. split; cbn [d_nobs d_graph d_search d_flags d_norm adj neg_obss]; auto. destruct SO as [->|(_ & _ & _ & -> & _)]; cbn; auto.
  - unfold with_search, current. rewrite ED. cbn [d_nobs d_graph d_search d_flags d_norm cr_graph cr_search fst]. split; cbn [d_nobs d_graph d_search d_flags d_norm adj neg_obss]; auto.
    destruct SO as [->|(N0 & R0 & _ & -> & SE)]; cbn; [auto|]. split; [|rewrite A5, SE; reflexivity]. rewrite N0, R0 in A2. cbn in A2. injection A2 as <-. reflexivity.
  - destruct RD2 as [Q1 Q2 Q3 Q4 Q5]. split; auto. cbn [d_search]. intros sg Hs. destruct so; [auto|discriminate].
  - intros r2 H1 H2 H3 H4 H5. unfold resting, with_run. cbn [cr_graph cr_search cr_run]. split; [exact R1|]. split; [exact R2|]. rewrite ED. split; cbn [d_graph d_search]; auto; [exact (idle_len _ _ _ A6 H1)|].
    intros sg Hs. destruct SO as [->|(_ & _ & _ & -> & _)]; [|discriminate]. injection Hs as <-. intros u i Hu. rewrite H5. exact (rd_marks _ _ P2 (lsg L) eq_refl u i Hu).
  - intros T second f Hf. unfold two_pass_h. rewrite (same_edges _ _ CS), P1 by exact Hf. cbn [bindO]. rewrite (df_plain _ _ _ _ _ _ _ DF), (df_rules _ _ _ _ _ _ _ DF), S1, S2, R1, ED. cbn [d_graph]. rewrite A8. cbn [bindO]. rewrite A10. cbn [bindO].
    destruct (second f _ r1) as [z| | |]; cbn [bindO]; auto. rewrite A9, A11. unfold with_run. rewrite R1, S1, ED. reflexivity.
Qed.
Lemma double_decode : exists K r' w X1 X2, (forall fuel, K <= fuel -> correlated_decode_h fuel cyclic_ints true D x evs = Ok (with_run x r', (map (fun i => s_flips i (select E X2)) (seq 0 nb), reported nc w))) /\
  resting D (with_run x r') /\ best E (wanted bnd evs) X1 /\ best (lowered Rs X1) (wanted bnd evs) X2 /\ s_total (select (lowered Rs X1) X2) = w.
Proof.
  destruct first_pass_h as (K & X1 & g' & sg' & so' & p & p' & r1 & B1 & HB & HS & SO & _ & SD & _ & RD & _ & V' & Back & Run). pose proof (lighter_lowered Rs X1 (fun e He => proj1 (POS e He))) as LL.
  assert (POS' : forall e, In e (lowered Rs X1) -> (0 <= s_weight e <= max_weight)%Z).
  { intros f Hf. destruct (lighter_in _ _ LL f Hf) as (e & He & Hl). pose proof (POS e He). destruct e as [[[a b] c] o], f as [[[a' b'] c'] o']. destruct Hl as (_ & _ & _ & Hl & _). cbn [s_weight] in *. lia. }
  destruct (pass_decode nb n (lowered Rs X1) g' sg' bnd so' nc HB HS (lighter_np _ _ LL NP) (lighter_ev _ _ LL EV) POS' (lighter_bare _ _ LL bnd BN) SO r1 evs Y RD V') as (K2 & r2 & w & X2 & P1 & P2 & P3 & P4 & P5).
  { now apply (lighter_solves _ _ LL). }
  { exact (lighter_wide _ _ LL Y LY). }
  exists (Nat.max K K2), r2, w, X1, X2. split; [|split; [|auto]].
  - intros f Hf. unfold correlated_decode_h. rewrite (Run _ (fun f d r => py_decode_h d f cyclic_ints r evs) f) by lia. rewrite (same_decode _ _ SD), P1 by lia. cbn [bindO fst snd].
    do 3 f_equal. apply map_ext. intros i. apply lighter_flips. exact (lighter_select _ _ LL X2).
  - destruct P2. apply Back; auto.
Qed.
Lemma double_edges : exists K r' out X1 X2, (forall fuel, K <= fuel -> correlated_to_edges_h fuel cyclic_ints true D x evs = Ok (with_run x r', out)) /\
  resting D (with_run x r') /\ best E (wanted bnd evs) X1 /\ best (lowered Rs X1) (wanted bnd evs) X2 /\ lists_edges out (select E X2).
Proof.
  destruct first_pass_h as (K & X1 & g' & sg' & so' & p & p' & r1 & B1 & HB & HS & SO & _ & _ & SD & _ & RD & V' & Back & Run). pose proof (lighter_lowered Rs X1 (fun e He => proj1 (POS e He))) as LL.
  assert (POS' : forall e, In e (lowered Rs X1) -> (0 <= s_weight e <= max_weight)%Z).
  { intros f Hf. destruct (lighter_in _ _ LL f Hf) as (e & He & Hl). pose proof (POS e He). destruct e as [[[a b] c] o], f as [[[a' b'] c'] o']. destruct Hl as (_ & _ & _ & Hl & _). cbn [s_weight] in *. lia. }
  destruct (pass_edges nb n (lowered Rs X1) g' sg' bnd (Some sg') nc HB HS (lighter_np _ _ LL NP) (lighter_ev _ _ LL EV) POS' (lighter_bare _ _ LL bnd BN) (or_introl eq_refl) r1 evs Y RD V') as (K2 & r2 & out & X2 & P1 & P2 & P3 & P4 & P5 & P6).
  { now apply (lighter_solves _ _ LL). }
  { exact (lighter_wide _ _ LL Y LY). }
  { reflexivity. }
  exists (Nat.max K K2), r2, out, X1, X2. split; [|split; [|split; [exact B1|split; [exact P4|exact (lighter_pairs _ _ _ (lighter_select _ _ LL X2) P5)]]]].
  - intros f Hf. unfold correlated_to_edges_h. rewrite (Run _ (fun f d r => py_decode_to_edges_h (with_search d) f cyclic_ints r evs) f) by lia. rewrite (same_edges _ _ SD), P1 by lia. reflexivity.
  - destruct P2. apply Back; auto.
Qed.
End Two.
