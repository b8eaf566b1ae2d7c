(** Decoding with rules when there is no correction: an exception, and a decoder at rest. *)
From Coq Require Import Reals ZArith NArith List Bool Arith Lia Permutation.
From Verif Require Import M_Base M_Core M_CoreHeap M_Failing M_Session S_Core S_Session S_CoreHeap S_Decode S_Reach M_Build S_Build P_Build M_Flip S_Flip P_Flip M_Search S_Search M_ToEdges S_ToEdges
  P_ToEdges P_ToEdges2 M_SearchHeap S_SearchHeap P_CoreGeo P_CoreDecode P_Signed P_Decode P_Halt P_Halt2 P_Machine P_CoreSim P_CoreHeap P_CoreHeap2 P_SearchHeap P_SearchHeap2 P_Failing
  M_Reweight S_Reweight M_Correlated S_Correlated P_Correlated P_Correlated2 M_Pipeline M_PipelineHeap S_PipelineHeap P_Pipeline2 P_PipelineHeap M_Matching P_Matching M_CorrDecode P_CorrDecode.
Import ListNotations.
Local Open Scope nat_scope.

Lemma same_after : forall d e, same_decoder d e -> forall f A r evs, after_throw f A d r evs = after_throw f A e r evs.
Proof.
  intros d e [H1 H2 H3 H4 H5 H6] f A r evs. unfold after_throw, search_size. rewrite H2, H3. unfold same_search in H5.
  destruct (d_search d), (d_search e); try tauto. destruct H5 as [-> _]. reflexivity.
Qed.

Section Fail.
Variables (nb n : nat) (Rs : list redge) (bnd : list bool) (nc : R) (L : loaded) (D : cdecoder).
Let E := map fst Rs.
Hypothesis DF : decoder_for nb n Rs bnd nc L D.
Hypothesis NP : ForallOrdPairs (fun e f => ~ parallel e f) E.
Hypothesis EV : forall e, In e E -> Z.even (s_weight e) = true.
Hypothesis POS : forall e, In e E -> (0 <= s_weight e <= max_weight)%Z.
Hypothesis BN : boundary_bare bnd E.
Hypothesis SW : s_within E 2147483648.
Variables (x : crunning) (evs : list nat).
Hypothesis RS : resting D x.
Hypothesis V : valid_events (adj (lg L)) evs.
Hypothesis NS : forall Y, ~ solves E (wanted bnd evs) Y.

Lemma pass_fails : exists K r', resting D (with_run x r') /\ forall fuel, K <= fuel ->
  decode_h (adj (d_graph (cd_dec D))) fuel cyclic_ints (d_neg (cd_dec D)) (r_state (cr_run x)) (r_heap (cr_run x)) evs = Throw /\ after_throw fuel cyclic_ints (current D x) (cr_run x) evs = Ok r'.
Proof.
  pose proof (current_same nb n Rs bnd nc L D DF x RS) as CS. destruct RS as (R1 & R2 & R3). destruct (df_dec _ _ _ _ _ _ _ DF) as (so & ED & SO). destruct (load_parts nb n Rs L bnd evs (df_load _ _ _ _ _ _ _ DF) V) as (HB & HT & HS & HTS).
  assert (MW : forall e, In e E -> (Z.abs (s_weight e) <= max_weight)%Z) by (intros e He; specialize (POS e He); lia).
  pose proof (compact_light nb n E (lg L) bnd HB NP EV MW evs SW) as LI.
  destruct (heap_two _ _ (r_state (cr_run x)) (r_heap (cr_run x)) evs LI) as (AB & K & orc & s' & h' & I1 & D1 & [([[o w] l] & X1 & X2)|(X1 & X2 & X3)]).
  - rewrite ED in R3. exact (rd_idle _ _ R3).
  - rewrite ED in R3. exact (rd_drained _ _ R3).
  - exact V.
  - exact (neg_valid nb n E (lg L) bnd HB).
  - exfalso. rewrite ED in R3. destruct (signed_answer nb n E (lg L) bnd HB NP EV BN K orc (r_state (cr_run x)) evs (AB := AB) s' o w l (rd_idle _ _ R3) V X2) as (X & HX & _). exact (NS X HX).
  - exists K, (mkRun s' h' (fold_left sreset_node (seq 0 (search_size (cd_dec D))) (r_search (cr_run x))) (r_sheap (cr_run x)) (r_marks (cr_run x))). split.
    + unfold resting, with_run. cbn [cr_graph cr_search cr_run]. split; [exact R1|]. split; [exact R2|]. destruct R3 as [Q1 Q2 Q3 Q4 Q5]. split; cbn [r_state r_heap r_search r_sheap r_marks]; auto; [rewrite ED; exact I1|now apply resets_idle].
    + intros f Hf. rewrite (same_after _ _ CS). unfold after_throw. rewrite ED. unfold d_neg. cbn [d_graph d_nobs d_flags]. rewrite X1, X2 by exact Hf. auto.
Qed.
(** All kinds of decoding. *)
Lemma decoding_fails : exists K x', resting D x' /\ forall fuel, K <= fuel ->
  (correlated_decode_h fuel cyclic_ints false D x evs = Throw /\ decode_left fuel cyclic_ints false D x evs = Ok x') /\
  (length (adj (d_graph (cd_dec D))) = search_size (cd_dec D) ->
    (forall X (second : decoder -> running -> outcome (running * X)), two_pass_h fuel cyclic_ints D x evs second = Throw) /\ two_pass_left fuel cyclic_ints D x evs = Ok x' /\
    correlated_to_edges_h fuel cyclic_ints false D x evs = Throw /\ edges_left fuel cyclic_ints false D x evs = Ok x').
Proof.
  destruct pass_fails as (K & r' & H1 & H2). exists K, (with_run x r'). split; [exact H1|]. intros f Hf. destruct (H2 f Hf) as [H3 H4].
  pose proof (current_same nb n Rs bnd nc L D DF x RS) as CS. destruct (df_dec _ _ _ _ _ _ _ DF) as (so & ED & SO). split; [split|].
  - unfold correlated_decode_h. rewrite (same_decode _ _ CS). unfold py_decode_h, decode_events_h. destruct (Nat.ltb_spec 64 (d_nobs (cd_dec D))) as [LT|LT]; [|rewrite H3; reflexivity].
    rewrite ED in H3, LT |- *. cbn [d_nobs d_search d_graph] in *. destruct SO as [[-> _]|[N _]]; [|lia]. unfold decode_many_observables_h. rewrite H3. reflexivity.
  - unfold decode_left. rewrite H4. reflexivity.
  - intros SZ. assert (SZ' : length (adj (lg L)) = search_size (cd_dec D)) by (rewrite <- SZ, ED; reflexivity).
    pose proof (current_searching nb n Rs bnd nc L D DF x evs RS V SZ') as CS2.
    assert (F : py_decode_to_edges_h (with_search (current D x)) f cyclic_ints (cr_run x) evs = Throw).
    { rewrite (same_edges _ _ CS2). unfold py_decode_to_edges_h. cbn [d_search d_graph]. unfold decode_to_edges_h. rewrite ED in H3. cbn [d_graph] in H3. unfold d_neg in *. cbn [d_graph d_nobs d_flags] in *. rewrite H3.
      destruct (length (adj (lg L)) =? length (sadj (lsg L))); reflexivity. }
    assert (FL : first_left f cyclic_ints D x evs = Ok (with_run x r')) by (unfold first_left; rewrite SZ, Nat.eqb_refl, H4; reflexivity).
    split; [intros X second; unfold two_pass_h; rewrite F; reflexivity|]. split; [unfold two_pass_left; rewrite F; exact FL|]. split; [unfold correlated_to_edges_h; rewrite F; reflexivity|exact FL].
Qed.
End Fail.
