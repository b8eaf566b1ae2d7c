(** Decoding for up to 64 observables, with correlations and without. *)
From Coq Require Import Reals ZArith NArith List Bool Arith Lia.
From Verif Require Import M_Base M_Core M_CoreHeap M_Session S_Core S_Session S_CoreHeap S_Decode S_Reach M_Build S_Build P_Build P_Convert P_Convert2 M_Flip S_Flip P_Flip M_Search S_Search M_ToEdges S_ToEdges
  P_ToEdges P_ToEdges2 M_SearchHeap S_SearchHeap P_CoreGeo P_CoreDecode P_Signed P_Decode P_Halt P_Halt2 P_Machine P_CoreSim P_CoreHeap P_CoreHeap2
  M_Reweight S_Reweight P_Reweight M_Correlated S_Correlated P_Correlated P_Correlated2 M_Pipeline M_PipelineHeap S_PipelineHeap P_Pipeline2 P_PipelineHeap M_Matching M_CorrDecode P_CorrDecode P_CorrBuild M_Cli M_CliDecode S_CliDecode P_CliMask.
Import ListNotations.
Local Open Scope nat_scope.

(** What a call for up to 64 observables gives, beside a call for any number of them. *)
Definition tells (no : nat) (cor : bool) (D : cdecoder) (x : crunning) (evs : list nat) (K : nat) (x' : crunning) (m z : Z) : Prop :=
  (forall f, K <= f -> decode64_h f cyclic_ints cor D x evs = Ok (x', (m, z))) /\ resting D x' /\ (64 < no -> m = 0%Z) /\
  (no <= 64 -> exists row w, as_mask row = m /\ forall f, K <= f -> correlated_decode_h f cyclic_ints cor D x evs = Ok (x', (row, w))).

Section Two.
Variables (nb n : nat) (Rs : list redge) (bnd : list bool) (nc : R) (L : loaded) (D : cdecoder).
Let E := map fst Rs.
Hypothesis DF : decoder_for nb n Rs bnd nc L D.
Hypothesis NP : ForallOrdPairs (fun e f => ~ parallel e f) E.
Hypothesis EV : forall e, In e E -> Z.even (s_weight e) = true.
Hypothesis POS : forall e, In e E -> (0 <= s_weight e <= max_weight)%Z.
Hypothesis BN : boundary_bare bnd E.
Hypothesis IDS : forall u x w os k, In (u, x, w, os) E -> In k os -> k < nb.
Variables (x : crunning) (evs : list nat) (Y : list bool).
Hypothesis RS : resting D x.
Hypothesis V : valid_events (adj (lg L)) evs.
Hypothesis Sol : solves E (wanted bnd evs) Y.
Hypothesis LY : wide_enough E (s_total (select E Y)).
Hypothesis SZ : length (adj (lg L)) = search_size (cd_dec D).

Lemma double_mask : exists K x' m z, tells nb true D x evs K x' m z.
Proof.
  destruct (first_pass_h nb n Rs bnd nc L D DF NP EV POS BN x evs Y RS V Sol LY SZ) as (K & X1 & g' & sg' & so' & p & p' & r1 & B1 & HB & HS & SO & _ & SD & _ & RD & _ & V' & Back & Run).
  pose proof (lighter_lowered Rs X1 (fun e He => proj1 (POS e He))) as LL.
  assert (POS' : forall e, In e (lowered Rs X1) -> (0 <= s_weight e <= max_weight)%Z).
  { intros f Hf. destruct (lighter_in _ _ LL f Hf) as (e & He & Hl). pose proof (POS e He). destruct e as [[[a b] c] o], f as [[[a' b'] c'] o']. destruct Hl as (_ & _ & _ & Hl & _). cbn [s_weight] in *. lia. }
  assert (Sol' : solves (lowered Rs X1) (wanted bnd evs) Y) by now apply (lighter_solves _ _ LL).
  pose proof (pass_able nb n (lowered Rs X1) g' sg' bnd so' HB (lighter_np _ _ LL NP) (lighter_ev _ _ LL EV) POS' (lighter_bare _ _ LL bnd BN) SO evs Y Sol' (lighter_wide _ _ LL Y LY)) as AB.
  destruct (mask_pass nb n (lowered Rs X1) g' bnd so' nc HB (lighter_np _ _ LL NP) (lighter_ev _ _ LL EV) (lighter_bare _ _ LL bnd BN) r1 evs (AB := AB) RD V' (ex_intro _ Y Sol')) as (K2 & r2 & o & z & X2 & P1 & P2 & P3 & P4 & P5 & P6 & P7).
  exists (Nat.max K K2), (with_run x r2), (Z.of_N o), z. split; [|split; [|split]].
  - intros f Hf. unfold decode64_h. rewrite (Run _ (fun f => mask_pass_h f cyclic_ints evs) f) by lia. rewrite (same_mask _ _ SD), P1 by lia. reflexivity.
  - destruct P2. apply Back; auto.
  - intros L1. now rewrite (P7 L1).
  - intros L1. exists (bits nb o), (reported nc z). split.
    + symmetry. apply mask_of_bits. intros k Hk. rewrite (P6 L1). rewrite (lighter_flips k _ _ (lighter_select _ _ LL X2)). apply flips_high. intros u y w os Hi Hk'. pose proof (IDS u y w os k (select_In _ _ _ Hi) Hk'). lia.
    + intros f Hf. unfold correlated_decode_h. rewrite (Run _ (fun f d r => py_decode_h d f cyclic_ints r evs) f) by lia. rewrite (same_decode _ _ SD). rewrite (mask_row f cyclic_ints evs _ r1 r2 o z) by first [exact L1|apply P1; lia]. reflexivity.
Qed.
End Two.

(** Without correlations: any decoder. *)
Lemma current_same' : forall D x, resting D x -> same_decoder (current D x) (cd_dec D).
Proof.
  intros D x (R1 & R2 & _). unfold current. rewrite R1, R2. unfold search_adj. cbn [fst]. split; cbn [d_nobs d_graph d_search d_flags d_norm adj neg_obss]; auto. destruct (d_search (cd_dec D)); cbn; auto.
Qed.
Section One.
Variables (nb n : nat) (C : list sedge) (mg : mgraph) (bnd : list bool) (so : option sgraph) (nc : R) (D : cdecoder).
Hypothesis HB : build nb n C = Ok mg.
Hypothesis NP : ForallOrdPairs (fun e f => ~ parallel e f) C.
Hypothesis EV : forall e, In e C -> Z.even (s_weight e) = true.
Hypothesis BN : boundary_bare bnd C.
Hypothesis IDS : forall u x w os k, In (u, x, w, os) C -> In k os -> k < nb.
Hypothesis ED : cd_dec D = mkDec nb mg so bnd nc.
Variables (x : crunning) (evs : list nat).
Context {AB : able spy_ints (adj mg) (neg_info_of nb mg bnd) evs}.
Hypothesis RS : resting D x.
Hypothesis V : valid_events (adj mg) evs.
Lemma single_mask : (exists Y, solves C (wanted bnd evs) Y) -> exists K x' m z, tells nb false D x evs K x' m z.
Proof.
  intros HY. pose proof (current_same' D x RS) as SD. destruct RS as (R1 & R2 & R3). rewrite ED in R3, SD.
  destruct (mask_pass nb n C mg bnd so nc HB NP EV BN (cr_run x) evs (AB := AB) R3 V HY) as (K2 & r2 & o & z & X2 & P1 & P2 & P3 & P4 & P5 & P6 & P7).
  exists K2, (with_run x r2), (Z.of_N o), z. split; [|split; [|split]].
  - intros f Hf. unfold decode64_h. rewrite (same_mask _ _ SD), P1 by lia. reflexivity.
  - unfold resting, with_run. cbn [cr_graph cr_search cr_run]. rewrite ED in R1, R2 |- *. auto.
  - intros L1. now rewrite (P7 L1).
  - intros L1. exists (bits nb o), (reported nc z). split.
    + symmetry. apply mask_of_bits. intros k Hk. rewrite (P6 L1). apply flips_high. intros u y w os Hi Hk'. pose proof (IDS u y w os k (select_In _ _ _ Hi) Hk'). lia.
    + intros f Hf. unfold correlated_decode_h. rewrite (same_decode _ _ SD). rewrite (mask_row f cyclic_ints evs _ (cr_run x) r2 o z) by first [exact L1|apply P1; lia]. reflexivity.
Qed.
End One.

(** ** A decoder without rules *)
Definition bare_edge (e : sedge) : redge := (e, []).
Definition bare_entry (y : option (Z * list nat)) : option (Z * list nat * list urule) := match y with Some (w, o) => Some (w, o, []) | None => None end.
Lemma bare_convert : forall B es t t0, (forall u, t u = bare_entry (t0 u)) ->
  fst (convert_ruled B (map bare_edge es) t) = map bare_edge (fst (convert B es t0)) /\ forall u, snd (convert_ruled B (map bare_edge es) t) u = bare_entry (snd (convert B es t0) u).
Proof.
  intros B. induction es as [|e es IH]; intros t t0 H; [split; [reflexivity|exact H]|]. cbn [map convert_ruled bare_edge convert]. destruct (convert_edge B e) as [e'|u w o|].
  - destruct (IH t t0 H) as [I1 I2]. destruct (convert_ruled B (map bare_edge es) t), (convert B es t0). cbn [fst snd] in *. split; [cbn; now rewrite I1|exact I2].
  - apply IH. intros v. unfold keep_best_rules, keep_best. rewrite H. destruct (t0 u) as [[w0 o0]|]; cbn [bare_entry]; [destruct (w <? w0)%Z|]; unfold upd; try apply H; destruct (v =? u); auto.
  - now apply IH.
Qed.
Lemma bare_boundary : forall n t t0, (forall u, t u = bare_entry (t0 u)) -> boundary_ruled n t = map bare_edge (boundary_list n t0).
Proof.
  intros n t t0 H. unfold boundary_ruled, boundary_list. induction (seq 0 n) as [|u l IH]; [reflexivity|]. cbn [flat_map]. rewrite IH, H, map_app. destruct (t0 u) as [[w o]|]; reflexivity.
Qed.
Lemma bare_all : forall n B es, convert_all_ruled n B (map bare_edge es) = map bare_edge (convert_all n B es).
Proof.
  intros n B es. unfold convert_all_ruled, convert_all. destruct (bare_convert B es (fun _ => None) (fun _ => None) (fun _ => eq_refl)) as [I1 I2]. destruct (convert_ruled B (map bare_edge es) _), (convert B es _). cbn [fst snd] in *.
  rewrite I1, (bare_boundary n _ _ I2), map_app. reflexivity.
Qed.
Lemma fst_bare : forall es, map fst (map bare_edge es) = es.
Proof. induction es as [|e es IH]; [reflexivity|]. cbn. now rewrite IH. Qed.
Definition no_rules (U : list (list (list urule))) : Prop := forall l rs, In l U -> In rs l -> rs = [].
Lemma upd_no_rules : forall U u f, no_rules U -> (forall l, (forall rs, In rs l -> rs = []) -> forall rs, In rs (f l) -> rs = []) -> no_rules (upd_at U u f).
Proof.
  intros U u f HU Hf l rs Hl Hr. unfold upd_at in Hl. rewrite <- (firstn_skipn u U) in HU. apply in_app_or in Hl as [Hl|Hl]; [apply (HU l); [apply in_or_app; now left|exact Hr]|].
  destruct (skipn u U) as [|a r] eqn:E; [destruct Hl|]. destruct Hl as [<-|Hl].
  - apply (Hf a); [|exact Hr]. intros rs' H'. apply (HU a); [apply in_or_app; right; now left|exact H'].
  - apply (HU l); [apply in_or_app; right; now right|exact Hr].
Qed.
Lemma bare_table : forall n es, no_rules (rules_table n (map bare_edge es)).
Proof.
  intros n es. unfold rules_table. assert (H0 : no_rules (repeat [] n)) by (intros l rs Hl; apply repeat_spec in Hl as ->; intros []). revert H0. generalize (repeat (@nil (list urule)) n).
  induction es as [|[[[u y] w] o] es IH]; intros U HU; [exact HU|]. cbn [map fold_left]. apply IH. cbn [bare_edge add_rules].
  assert (HA : forall l : list (list urule), (forall rs, In rs l -> rs = []) -> forall rs, In rs (l ++ [[]]) -> rs = []) by (intros l Hl rs Hr; apply in_app_or in Hr as [Hr|[<-|[]]]; auto).
  destruct y as [v|].
  - destruct (u =? v); [exact HU|]. apply upd_no_rules; [apply upd_no_rules; [exact HU|exact HA]|exact HA].
  - apply upd_no_rules; [exact HU|]. intros l Hl rs [<-|Hr]; auto.
Qed.
Lemma bare_implied : forall G n es, exists T, convert_implied_weights G (rules_table n (map bare_edge es)) = Ok T.
Proof.
  intros G n es. unfold convert_implied_weights. apply mapO_total. intros l Hl. apply mapO_total. intros rs Hr. rewrite (bare_table n es l rs Hl Hr). exists []. reflexivity.
Qed.
