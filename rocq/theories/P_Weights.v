(** The reported weights are those of the lightest correction after rounding, and nothing else. *)
From Coq Require Import Reals ZArith NArith List Bool Arith Lia Lra Permutation Classical.
From Verif Require Import M_Base M_Core M_CoreHeap M_Session S_Core S_Session S_CoreHeap S_Decode M_Build S_Build P_Tree P_Build P_Convert P_Convert2 P_UserCorr
  M_Flip S_Flip P_Flip M_Search S_Search M_ToEdges S_ToEdges P_ToEdges P_ToEdges2 M_SearchHeap S_SearchHeap P_CoreGeo P_CoreDecode P_Signed P_Decode P_Halt P_Halt2 P_Machine
  P_CoreSim P_CoreHeap P_CoreHeap2 M_Failing P_Failing P_SearchHeap P_SearchHeap2
  M_Discretise P_Discretise M_Merge P_Merge M_Pipeline M_PipelineHeap M_Bits S_Bits P_Bits M_UserGraph S_UserGraph P_UserGraph S_Pipeline S_PipelineHeap P_Pipeline P_Pipeline2 P_Pipeline3 P_PipelineHeap
  M_Matching S_Matching P_Matched P_Matching P_Padding S_Weights.
Import ListNotations.
Local Open Scope nat_scope.

Definition rounded (c : R) (F : list (uedge RN)) : Z := s_total (map (discretised_edge c) F).
Definition lightest (g : ugraph RN) (c : R) (F : list (uedge RN)) (evs : list nat) (w : R) : Prop :=
  corrects g F evs /\ (forall F', corrects g F' evs -> (rounded c F <= rounded c F')%Z) /\ w = reported (2 * c) (rounded c F).
Definition told (g : ugraph RN) (P : nat -> Prop) (w : R) : Prop :=
  exists c evs F, normalising_constant (map weight (edges g)) = Ok c /\ (forall v, In v evs <-> P v) /\ lightest g c F evs w.

(** ** The decoder of a graph *)
Section Graph.
Variable g : ugraph RN.
Hypothesis INV : Inv g.
Hypothesis FL : flags_ok RN g.
Variables (d : decoder) (c : R) (sg : sgraph).
Hypothesis DO : decoder_of g d c sg.
Hypothesis HARM : conversion_harmless g.
Let C := convert_all (num_nodes g) (fun v => is_boundary_node g (Some v)) (map (discretised_edge c) (edges g)).
Section Calendar.
Variables (NI : ints) (orc orc2 : nat -> nat) (s : state) (q : search) (evs : list nat).
Context {AB : able NI (adj (d_graph d)) (d_neg d) evs}.
Hypothesis HI : idle (adj (d_graph d)) s.
Hypothesis HQ : search_idle q.
Hypothesis ND : NoDup evs.
Hypothesis IR : forall v, In v evs -> v < num_nodes g.
Lemma pipeline_told : (exists F, corrects g F evs) ->
  exists K s' q' w F, (forall fuel, K <= fuel -> py_decode d fuel fuel orc orc2 NI s q evs = Ok (s', q', (map (fun k => flips_observable k F) (seq 0 (nobs g)), w))) /\
    idle (adj (d_graph d)) s' /\ search_idle q' /\ lightest g c F evs w.
Proof.
  intros [F0 HF0]. destruct (corr_solves g INV FL d c sg DO HARM evs F0 HF0) as (Y & HY & _). pose proof AB as AB2. rewrite (neg_eta g d c sg DO) in AB2.
  destruct (run_events (nobs g) (num_nodes g) C (d_graph d) sg (boundary_flags g) (d_search d) (2 * c) (do_mg _ _ _ _ DO) (do_sg _ _ _ _ DO) (convert_all_fop _ _ _ (E_fop g INV c)) (fun e He => proj1 (C_even g INV d c sg DO e He))
              (C_bare g INV FL c) (do_so _ _ _ _ DO) NI orc orc2 s q evs HI HQ (C_valid g d c sg DO evs ND IR) (ex_intro _ Y HY)) as (K & s' & q' & w & X & H1 & H2 & H3 & H4 & H5 & H6).
  destruct (solves_corr g INV FL c evs X H4) as (F & G1 & G2 & G3 & _). exists K, s', q', (reported (2 * c) w), F.
  split; [|split; [exact H2|split; [exact H3|split; [exact G1|split]]]].
  - intros fuel Hf. specialize (H1 fuel Hf). rewrite <- (d_eta g d c sg DO) in H1. unfold py_decode. rewrite H1. cbn [bindO]. rewrite (do_norm _ _ _ _ DO). rewrite (map_ext _ _ G3). reflexivity.
  - intros F' HF'. unfold rounded. destruct (corr_solves g INV FL d c sg DO HARM evs F' HF') as (Y' & HY' & L). specialize (H6 Y' HY'). eapply Z.le_trans; [|exact L]. eapply Z.le_trans; [|exact H6]. apply Z.eq_le_incl. exact (eq_trans G2 H5).
  - unfold rounded. f_equal. symmetry. exact (eq_trans G2 H5).
Qed.
End Calendar.
Lemma graph_told : forall r evs F0, ready d r -> NoDup evs -> (forall v, In v evs -> v < num_nodes g) -> corrects g F0 evs -> manageable g F0 ->
  exists K r' o w F, (forall fuel, K <= fuel -> py_decode_h d fuel cyclic_ints r evs = Ok (r', (o, w))) /\ ready d r' /\ lightest g c F evs w.
Proof.
  intros r evs F0 RD ND IR HF HS.
  destruct (pipeline_light g INV FL d c sg DO HARM evs F0 HF HS) as (LW & L2 & L3). pose proof (spy_able (adj (d_graph d)) LW (d_neg d) evs L2 L3) as AB. pose proof AB as AB2. rewrite (neg_eta g d c sg DO) in AB2.
  pose proof (d_eta g d c sg DO) as Ed. 
  destruct (events_same (nobs g) (num_nodes g) _ (d_graph d) sg (boundary_flags g) (d_search d) (2 * c) (do_mg _ _ _ _ DO) (do_sg _ _ _ _ DO) (convert_all_fop _ _ _ (E_fop g INV c))
      (fun e He => proj1 (C_even g INV d c sg DO e He)) (do_so _ _ _ _ DO) r evs (AB := AB2) ltac:(rewrite <- Ed; exact RD) (C_valid g d c sg DO evs ND IR)) as (K1 & orc & orc2 & h & hq & Q1 & Q2).
  rewrite <- Ed in Q2.
  destruct (pipeline_told spy_ints orc orc2 (r_state r) (r_search r) evs (AB := AB) (rd_idle _ _ RD) (rd_search _ _ RD) ND IR (ex_intro _ F0 HF)) as (K2 & s' & q' & w & F & P1 & P2 & P3 & P4).
  exists (Nat.max K1 K2), (mkRun s' h q' hq (r_marks r)), (map (fun i => flips_observable i F) (seq 0 (nobs g))), w, F.
  assert (X : forall fuel, Nat.max K1 K2 <= fuel -> py_decode_h d fuel cyclic_ints r evs = Ok (mkRun s' h q' hq (r_marks r), (map (fun i => flips_observable i F) (seq 0 (nobs g)), w)) /\ drained s' h).
  { intros f Hf. specialize (P1 f ltac:(lia)). destruct (Q2 f ltac:(lia)) as [Q3 Q4]. unfold py_decode in P1. unfold py_decode_h.
    destruct (decode_events d f f orc orc2 spy_ints (r_state r) (r_search r) evs) as [[[s2 q2] [o2 w2]]| | |]; cbn [bindO] in P1; try discriminate.
    injection P1 as -> -> -> <-. destruct Q3 as [Q3|Q3]; [discriminate|]. rewrite Q3. split; [reflexivity|]. exact (Q4 _ _ _ eq_refl). }
  split; [intros f Hf; exact (proj1 (X f Hf))|]. split; [|exact P4].
  destruct RD. split; cbn [r_state r_heap r_search r_sheap r_marks]; auto. exact (proj2 (X _ (le_n _))).
Qed.
End Graph.

(** ** The object *)
Lemma decode_into_told : forall g d k c sg r evs P, Inv g -> flags_ok RN g -> serves g d k c sg -> ready d r -> conversion_harmless g -> NoDup evs -> (forall v, In v evs <-> P v) -> explainable g P ->
  exists K r' row w, (forall fuel, K <= fuel -> decode_into fuel cyclic_ints d r evs (repeat 0%Z (nobs g)) = Ok (r', row, w)) /\ ready d r' /\ right_row g P row w /\ told g P w.
Proof.
  intros g d k c sg r evs P INV FL SV RD HARM ND HE EX. destruct (decode_into_ok g d k c sg r evs P INV FL SV RD HARM ND HE EX) as (K1 & r1 & row & w & D1 & D2 & D3).
  destruct EX as (evs0 & F & E0 & HF & HS). assert (HF' : corrects g F evs) by (apply (corrects_iff g F evs0); [intros v; rewrite E0, HE; reflexivity|exact HF]).
  destruct (graph_told (at_nobs g k) INV FL d c sg (sv_of _ _ _ _ _ SV) HARM r evs F RD ND (explained_range g F evs INV FL HF') HF' HS) as (K2 & r2 & o & w2 & X & G1 & G2 & G3).
  exists K1, r1, row, w. split; [exact D1|]. split; [exact D2|]. split; [exact D3|].
  assert (w = w2) as ->.
  { specialize (D1 (Nat.max K1 K2) ltac:(lia)). specialize (G1 (Nat.max K1 K2) ltac:(lia)). unfold decode_into in D1. rewrite G1 in D1. cbn [bindO fst snd] in D1. destruct (xor_bits _ _); cbn [bindO] in D1; congruence. }
  exists c, evs, X. split; [exact (do_c _ _ _ _ (sv_of _ _ _ _ _ SV))|]. split; [exact HE|exact G3].
Qed.
Lemma batch_told : forall g d k c sg ps pp, Inv g -> flags_ok RN g -> serves g d k c sg -> conversion_harmless g -> forall shots r, ready d r -> Forall (fun shot => explainable g (shot_event ps shot)) shots ->
  exists K r' l, (forall fuel, K <= fuel -> decode_batch running (decode_into fuel cyclic_ints d) (nobs g) ps pp r shots = Ok (r', l)) /\ Forall2 (fun shot x => told g (shot_event ps shot) (snd x)) shots l.
Proof.
  intros g d k c sg ps pp INV FL SV HARM shots. induction shots as [|shot shots IH]; intros r RD HX; [exists 0, r, []; split; [reflexivity|constructor]|].
  destruct (shot_events_ok ps shot) as [ND HE]. destruct (decode_into_told g d k c sg r _ _ INV FL SV RD HARM ND HE (Forall_inv HX)) as (K1 & r1 & row & w & D1 & D2 & D3 & D4).
  destruct (IH r1 D2 (Forall_inv_tail HX)) as (K2 & r2 & l & E1 & E2).
  assert (Y : exists row', forall fuel, K1 <= fuel -> decode_one running (decode_into fuel cyclic_ints d) (nobs g) ps pp r shot = Ok (r1, row', w)).
  { unfold decode_one. destruct pp; [|exists row; exact D1].
    assert (L : forall p, In p row -> is_bit p) by (destruct D3 as (? & X & _ & -> & _); intros p; apply b2z_bit).
    assert (L1 : length row = nobs g) by (destruct D3 as (? & X & _ & -> & _); now rewrite map_length, seq_length).
    destruct (pack_ok row L) as (row' & P1 & _). rewrite L1 in P1. exists row'. intros f Hf. rewrite D1 by exact Hf. cbn [bindO]. rewrite P1. reflexivity. }
  destruct Y as (row' & Y). exists (Nat.max K1 K2), r2, ((row', w) :: l). split; [|constructor; assumption].
  intros f Hf. cbn [decode_batch]. rewrite Y by lia. cbn [bindO]. rewrite E1 by lia. reflexivity.
Qed.
Lemma ask_explainable : forall g P evs, askable g P -> (forall v, In v evs <-> P v) -> solvable g P -> explainable g P.
Proof. intros g P evs HA HE HS. destruct (ask_cases g P evs HA HE) as [[H _]|(_ & _ & _ & H)]; [exact H|contradiction]. Qed.
Lemma ask_told : forall m g c Ps, fits m g -> fair g c -> asks_weights g c Ps ->
  exists K m' r, (forall fuel, K <= fuel -> mstep fuel cyclic_ints m c = Ok (m', r)) /\ right g c r /\
    match weights_told r with Some ws => Forall2 (told g) Ps ws | None => Exists (fun P => ~ solvable g P) Ps end.
Proof.
  intros m g c Ps FT HF HW. destruct (step_ok m g c FT HF) as (K & m' & r & S1 & S2 & _). exists (S K), m', r. split; [intros f Hf; apply S1; lia|]. split; [exact S2|].
  pose proof (f_inv _ _ FT) as INV. pose proof (f_flags _ _ FT) as FL. destruct (f_graph _ _ FT) as [b Eg]. assert (NO : nobs (m_graph m) = nobs g) by now rewrite Eg.
  destruct c as [x|z|ps pp [l|nc shots|]|z|z|z]; try (destruct HW; fail); cbn [fair right mstep asks_weights] in *; destruct HW as [HA ->].
  - assert (EV : events_in (m_graph m) z = events_in g z) by now rewrite Eg.
    destruct (HF HA) as [(IDS & SC & HARM) AS]. destruct (events_in_ok g z HA) as (evs & Ev & ND & HE). destruct (get_ok m g FT IDS SC) as (m1 & d & r1 & k & c & sg & G1 & G2 & G3 & G4).
    destruct S2 as (R1 & R2 & _). destruct (classic (solvable g (event_at z))) as [SX|SX]; [|rewrite (R2 HA SX); now constructor].
    destruct (R1 HA SX) as (row & w & -> & _). constructor; [|constructor].
    destruct (decode_into_told g d k c sg r1 evs _ INV FL G3 G4 HARM ND HE (ask_explainable g _ evs AS HE SX)) as (K2 & r2 & row2 & w2 & D1 & _ & _ & D4).
    specialize (S1 (Nat.max K K2) ltac:(lia)). rewrite EV, Ev, G1 in S1. cbn [unless_thrown] in S1. rewrite NO, D1 in S1 by lia. cbn [unless_thrown] in S1. injection S1 as _ _ <-. exact D4.
  - destruct (HF HA) as [(IDS & SC & HARM) AS]. destruct (get_ok m g FT IDS SC) as (m1 & d & r1 & k & c & sg & G1 & G2 & G3 & G4).
    destruct S2 as (R1 & _). destruct (R1 HA) as [R2 R3]. destruct (classic (Exists (fun shot => ~ solvable g (shot_event ps shot)) shots)) as [SX|SX].
    + rewrite (R3 SX). cbn [weights_told]. clear -SX. induction SX; [now constructor|now apply Exists_cons_tl].
    + assert (SA : Forall (fun shot => solvable g (shot_event ps shot)) shots).
      { apply Forall_forall. intros shot Hs. apply NNPP. intros N. apply SX, Exists_exists. exists shot. auto. }
      assert (EA : Forall (fun shot => explainable g (shot_event ps shot)) shots).
      { rewrite Forall_forall in *. intros shot Hs. destruct (shot_events_ok ps shot) as [_ HE]. exact (ask_explainable g _ _ (AS shot Hs) HE (SA shot Hs)). }
      destruct (R2 SA) as (l & -> & _). cbn [weights_told].
      destruct (batch_told g d k c sg ps pp INV FL G3 HARM shots r1 G4 EA) as (K2 & r2 & l2 & D1 & D4).
      assert (S : batch_shape_ok (m_graph m) ps nc = true) by (rewrite Eg; exact (proj1 (batch_ok_iff g ps nc shots) HA)).
      specialize (S1 (Nat.max K K2) ltac:(lia)). rewrite S, G1 in S1. cbn [unless_thrown] in S1. rewrite NO, D1 in S1 by lia. cbn [unless_thrown] in S1. injection S1 as _ <-.
      clear -D4. induction D4; cbn [map]; constructor; assumption.
Qed.

(** ** Graphs that are the same up to the numbering *)
Lemma max_abs_perm : forall ws ws', Permutation ws ws' -> max_abs ws = max_abs ws'.
Proof.
  assert (G : forall ws ws', Permutation ws ws' -> forall m, fold_left (fun m w => if Rlt_dec m (Rabs w) then Rabs w else m) ws m = fold_left (fun m w => if Rlt_dec m (Rabs w) then Rabs w else m) ws' m).
  { intros ws ws' H. induction H; intros m; cbn [fold_left]; auto.
    - f_equal. repeat destruct Rlt_dec; lra.
    - now rewrite IHPermutation1. }
  intros. now apply G.
Qed.
Lemma forallb_perm : forall A (f : A -> bool) l l', Permutation l l' -> forallb f l = forallb f l'.
Proof. intros A f l l' H. induction H; cbn [forallb]; [reflexivity|now rewrite IHPermutation| |congruence]. destruct (f x), (f y); reflexivity. Qed.
Lemma constant_perm : forall ws ws', Permutation ws ws' -> normalising_constant ws = normalising_constant ws'.
Proof. intros ws ws' H. unfold normalising_constant. now rewrite (max_abs_perm _ _ H), (forallb_perm _ _ _ _ H). Qed.
Lemma sub_perm : forall A (F E : list A), NoDup F -> incl F E -> exists E0, Permutation E (F ++ E0).
Proof.
  intros A F. induction F as [|x F IH]; intros E ND HI; [exists E; reflexivity|]. apply NoDup_cons_iff in ND as [N1 N2].
  destruct (in_split x E (HI x (or_introl eq_refl))) as (l1 & l2 & ->).
  destruct (IH (l1 ++ l2) N2) as (E0 & P).
  { intros y Hy. assert (Q : In y (l1 ++ x :: l2)) by (apply HI; now right). apply in_app_iff in Q. apply in_app_iff. destruct Q as [Q|[<-|Q]]; [auto|contradiction|auto]. }
  exists E0. rewrite <- Permutation_middle. cbn [app]. now constructor.
Qed.
Lemma Forall2_part : forall A B (P : A -> B -> Prop) E L F, Forall2 P E L -> NoDup L -> NoDup F -> incl F E -> exists F', Forall2 P F F' /\ NoDup F' /\ incl F' L.
Proof.
  intros A B P E L F H NL NF HI. destruct (sub_perm _ F E NF HI) as (E0 & PE). destruct (Permutation_Forall2 PE H) as (L' & PL & H'). apply Forall2_app_inv_l in H' as (F' & L0 & H1 & H2 & ->).
  exists F'. split; [exact H1|]. pose proof (Permutation_NoDup PL NL) as N. split; [clear -N; induction F' as [|x F' IH]; [constructor|]; cbn [app] in N; apply NoDup_cons_iff in N as [N1 N2]; constructor; [intros Hx; apply N1, in_or_app; now left|auto]|]. intros y Hy. apply (Permutation_in _ (Permutation_sym PL)), in_or_app. now left.
Qed.
Section Numbering.
Variables (f h : nat -> nat).
Hypothesis HF : forall v, h (f v) = v.
Hypothesis FH : forall v, f (h v) = v.
Lemma f_eqb : forall a b, (f a =? f b) = (a =? b).
Proof. intros a b. destruct (Nat.eqb_spec a b) as [->|N]; [apply Nat.eqb_refl|]. apply Nat.eqb_neq. intros E. apply N. now rewrite <- (HF a), <- (HF b), E. Qed.
Lemma renamed_ends : forall e1 e2 v, renamed f e1 e2 -> edge_ends (f v) e2 = edge_ends v e1.
Proof.
  intros e1 e2 v [_ [[E1 E2]|(x & E1 & E2 & E3)]]; unfold edge_ends.
  - rewrite E1, E2, f_eqb. destruct (node2 e1) as [x|]; cbn [option_map]; [rewrite f_eqb|]; reflexivity.
  - rewrite E1, E2, E3, !f_eqb. lia.
Qed.
Lemma renamed_back : forall e1 e2, renamed f e1 e2 -> renamed h e2 e1.
Proof.
  intros e1 e2 [W [[E1 E2]|(x & E1 & E2 & E3)]]; (split; [now symmetry|]).
  - left. rewrite E1, E2. split; [now rewrite HF|]. destruct (node2 e1) as [x|]; cbn [option_map]; [now rewrite HF|reflexivity].
  - right. exists (f (node1 e1)). rewrite E1, E2, E3, !HF. auto.
Qed.
Lemma ids_back : forall e1 e2, renamed_with_ids f e1 e2 -> renamed_with_ids h e2 e1.
Proof. intros e1 e2 [H1 H2]. split; [now apply renamed_back|now symmetry]. Qed.
Lemma back : forall (like like' : uedge RN -> uedge RN -> Prop), (forall e1 e2, like e1 e2 -> like' e2 e1) -> forall g1 g2, same_up_to like f g1 g2 -> same_up_to like' h g2 g1.
Proof.
  intros like like' BK g1 g2 [(L & P & H) B]. split; [|intros v; now rewrite B, FH].
  assert (H' : Forall2 like' L (edges g1)) by (clear -H BK; induction H; constructor; auto). destruct (Permutation_Forall2 P H') as (L' & PL & H2). exists L'. split; [now symmetry|exact H2].
Qed.
Lemma degree_same : forall F F', Forall2 (renamed f) F F' -> forall v, total_degree (f v) F' = total_degree v F.
Proof. intros F F' H v. induction H as [|e1 e2 F F' He H IH]; [reflexivity|]. unfold total_degree in *. cbn [fold_right]. now rewrite (renamed_ends _ _ v He), IH. Qed.
Lemma corrects_same : forall (like : uedge RN -> uedge RN -> Prop) g1 g2 F evs1 evs2, (forall e1 e2, like e1 e2 -> renamed f e1 e2) -> same_up_to like f g1 g2 -> NoDup (edges g2) -> same_events f g1 (fun v => In v evs1) (fun v => In v evs2) ->
  corrects g1 F evs1 -> exists F', Forall2 like F F' /\ corrects g2 F' evs2.
Proof.
  intros like g1 g2 F evs1 evs2 LK [(L & P & H) B] ND HE (N & I & D).
  destruct (Forall2_part _ _ _ _ _ F H (Permutation_NoDup (Permutation_sym P) ND) N I) as (F' & H1 & H2 & H3). exists F'. split; [exact H1|]. split; [exact H2|].
  split; [intros e He; apply (Permutation_in _ P); auto|]. intros u Hu. rewrite <- (FH u) in *. rewrite <- B in Hu. rewrite degree_same with (F := F) by (clear -LK H1; induction H1; constructor; auto). rewrite (D _ Hu). now apply HE.
Qed.
End Numbering.
Lemma Forall2_len : forall A B (P : A -> B -> Prop) l l', Forall2 P l l' -> length l = length l'.
Proof. intros A B P l l' H. induction H; cbn [length]; congruence. Qed.
Lemma weights_same : forall f F F', Forall2 (renamed f) F F' -> map weight F = map weight F'.
Proof. intros f F F' H. induction H as [|e1 e2 F F' [W _] H IH]; [reflexivity|]. cbn [map]. now rewrite IH, W. Qed.
Lemma rounded_weights : forall c F, rounded c F = fold_right Z.add 0%Z (map (discretise c) (map weight F)).
Proof. intros c F. unfold rounded, s_total. induction F as [|e F IH]; [reflexivity|]. cbn [map fold_right]. rewrite IH. reflexivity. Qed.
Lemma total_weights : forall F, total_weight F = fold_right Rplus 0%R (map weight F).
Proof. induction F as [|e F IH]; [reflexivity|]. cbn [total_weight map fold_right] in *. unfold total_weight in IH. now rewrite IH. Qed.
Lemma edge_weights_perm : forall f g1 g2, same_up_to (renamed f) f g1 g2 -> Permutation (map weight (edges g1)) (map weight (edges g2)).
Proof. intros f g1 g2 [(L & P & H) _]. rewrite (weights_same f _ _ H). now apply Permutation_map. Qed.

Section Two.
Variables (f h : nat -> nat) (g1 g2 : ugraph RN).
Hypothesis HF : forall v, h (f v) = v.
Hypothesis FH : forall v, f (h v) = v.
Hypothesis N1 : NoDup (edges g1).
Hypothesis N2 : NoDup (edges g2).
Hypothesis SM : same_up_to (renamed f) f g1 g2.
Lemma events_listed : forall evs1 evs2 (P1 P2 : nat -> Prop), same_events f g1 P1 P2 -> (forall v, In v evs1 <-> P1 v) -> (forall v, In v evs2 <-> P2 v) -> same_events f g1 (fun v => In v evs1) (fun v => In v evs2).
Proof. intros evs1 evs2 P1 P2 H H1 H2 v Hv. rewrite H1, H2. now apply H. Qed.
Lemma events_back : forall P1 P2, same_events f g1 P1 P2 -> same_events h g2 P2 P1.
Proof. intros P1 P2 H u Hu. rewrite <- (FH u) in Hu. rewrite <- (proj2 SM) in Hu. rewrite (H _ Hu), FH. reflexivity. Qed.
Lemma told_same : forall P1 P2 w1 w2, same_events f g1 P1 P2 -> told g1 P1 w1 -> told g2 P2 w2 -> w1 = w2.
Proof.
  intros P1 P2 w1 w2 SE (c1 & evs1 & F1 & C1 & E1 & A1 & A2 & ->) (c2 & evs2 & F2 & C2 & E2 & B1 & B2 & ->).
  rewrite (constant_perm _ _ (edge_weights_perm f g1 g2 SM)), C2 in C1. injection C1 as ->.
  pose proof (events_listed evs1 evs2 P1 P2 SE E1 E2) as SL.
  destruct (corrects_same f h HF FH _ g1 g2 F1 evs1 evs2 (fun _ _ H => H) SM N2 SL A1) as (F1' & H1 & H2).
  destruct (corrects_same h f FH HF _ g2 g1 F2 evs2 evs1 (fun _ _ H => H) (back f h FH _ _ (renamed_back f h HF) g1 g2 SM) N1 (events_back _ _ SL) B1) as (F2' & H3 & H4).
  specialize (A2 F2' H4). specialize (B2 F1' H2). rewrite !rounded_weights in A2, B2. rewrite <- (weights_same _ _ _ H1) in B2. rewrite <- (weights_same _ _ _ H3) in A2. rewrite !rounded_weights. f_equal. lia.
Qed.
Lemma solvable_same : forall P1 P2 evs2, (forall v, In v evs2 <-> P2 v) -> same_events f g1 P1 P2 -> solvable g1 P1 -> solvable g2 P2.
Proof.
  intros P1 P2 evs2 E2 SE (evs1 & F & E1 & HC). destruct (corrects_same f h HF FH _ g1 g2 F evs1 evs2 (fun _ _ H => H) SM N2 (events_listed evs1 evs2 P1 P2 SE E1 E2) HC) as (F' & _ & H). exists evs2, F'. auto.
Qed.
Lemma near_same : forall evs1 evs2 F1 F2, same_events f g1 (fun v => In v evs1) (fun v => In v evs2) -> Forall2 (renamed f) F1 F2 -> near_best g1 F1 evs1 -> near_best g2 F2 evs2.
Proof.
  intros evs1 evs2 F1 F2 SE H NB X HX.
  destruct (corrects_same h f FH HF _ g2 g1 X evs2 evs1 (fun _ _ H => H) (back f h FH _ _ (renamed_back f h HF) g1 g2 SM) N1 (events_back _ _ SE) HX) as (X' & H3 & H4).
  destruct (NB X' H4) as [Q1 Q2]. assert (W : forall e, In e (edges g1) -> exists e', In e' (edges g2) /\ weight e' = weight e).
  { intros e He. pose proof (Permutation_in _ (edge_weights_perm f g1 g2 SM) (in_map weight _ _ He)) as I. apply in_map_iff in I as (e' & E' & I). eauto. }
  rewrite !total_weights in *. rewrite (weights_same _ _ _ H3), <- (weights_same _ _ _ H), (Forall2_len _ _ _ _ _ H3), <- (Forall2_len _ _ _ _ _ H). split.
  - intros M HM. apply Q1. intros e He. destruct (W e He) as (e' & I & <-). now apply HM.
  - intros HZ. apply Q2. intros e He. destruct (W e He) as (e' & I & <-). now apply HZ.
Qed.
End Two.
Lemma flips_same : forall f F F', Forall2 (renamed_with_ids f) F F' -> forall k, flips_observable k F = flips_observable k F'.
Proof.
  intros f F F' H k. induction H as [|e1 e2 F F' [_ P] H IH]; [reflexivity|]. unfold flips_observable in *. cbn [fold_right]. rewrite IH. f_equal. f_equal. now apply Permutation_count_occ.
Qed.
Lemma asked_listed : forall g c Ps, asks_weights g c Ps -> Forall (fun P => exists evs, NoDup evs /\ forall v : nat, In v evs <-> P v) Ps.
Proof.
  intros g [x|z|ps pp [l|nc shots|]|z|z|z] Ps H; try (destruct H; fail); destruct H as [HA ->].
  - constructor; [|constructor]. destruct (events_in_ok g z HA) as (evs & _ & ND & HE). eauto.
  - apply Forall_forall. intros P HP. apply in_map_iff in HP as (shot & <- & _). destruct (shot_events_ok ps shot) as [ND HE]. eauto.
Qed.
Lemma last_call : forall n k cs c Ps, let g := graph_after (new_graph RN n k) cs in all_fair (new_graph RN n k) (cs ++ [c]) -> asks_weights g c Ps ->
  exists K m rs r, (forall fuel, K <= fuel -> mrun fuel cyclic_ints (new_matching (new_graph RN n k)) (cs ++ [c]) = Ok (m, rs ++ [r])) /\ Inv g /\ right g c r /\
    match weights_told r with Some ws => Forall2 (told g) Ps ws | None => Exists (fun P => ~ solvable g P) Ps end.
Proof.
  intros n k cs c Ps g HF HW. assert (X : forall cs g0, all_fair g0 (cs ++ [c]) -> all_fair g0 cs /\ fair (graph_after g0 cs) c).
  { clear. induction cs as [|a cs IH]; intros g0 H; cbn [app all_fair] in H; [split; [exact Logic.I|exact (proj1 H)]|]. destruct H as [H1 H2]. destruct (IH _ H2) as [H3 H4]. split; [split; assumption|exact H4]. }
  destruct (X cs _ HF) as [H1 H2]. destruct (run_fits cs _ _ (new_fits (new_graph RN n k) (new_inv (N := RN) n k) (flags_new RN n k) (fun e H => match H with end)) H1) as (K1 & m1 & rs & A1 & A2 & A3). fold (graph_after (new_graph RN n k) cs) in A3. fold g in A3.
  destruct (ask_told m1 g c Ps A3 H2 HW) as (K2 & m2 & r & B1 & B2 & B3). exists (Nat.max K1 K2), m2, rs, r. split; [|split; [exact (f_inv _ _ A3)|auto]].
  intros fuel Hf. rewrite (mrun_app fuel cyclic_ints cs [c] _ m1 rs (A1 fuel ltac:(lia))). cbn [mrun]. rewrite B1 by lia. reflexivity.
Qed.
Lemma sessions_weights : forall n1 k1 cs1 c1 Ps1 n2 k2 cs2 c2 Ps2 f,
  let g1 := graph_after (new_graph RN n1 k1) cs1 in let g2 := graph_after (new_graph RN n2 k2) cs2 in
  all_fair (new_graph RN n1 k1) (cs1 ++ [c1]) -> all_fair (new_graph RN n2 k2) (cs2 ++ [c2]) ->
  numbering f -> same_up_to (renamed f) f g1 g2 -> asks_weights g1 c1 Ps1 -> asks_weights g2 c2 Ps2 -> Forall2 (same_events f g1) Ps1 Ps2 ->
  exists K m1 rs1 r1 m2 rs2 r2,
    (forall fuel, K <= fuel -> mrun fuel cyclic_ints (new_matching (new_graph RN n1 k1)) (cs1 ++ [c1]) = Ok (m1, rs1 ++ [r1])) /\
    (forall fuel, K <= fuel -> mrun fuel cyclic_ints (new_matching (new_graph RN n2 k2)) (cs2 ++ [c2]) = Ok (m2, rs2 ++ [r2])) /\
    weights_told r1 = weights_told r2.
Proof.
  intros n1 k1 cs1 c1 Ps1 n2 k2 cs2 c2 Ps2 f g1 g2 H1 H2 (h & HF & FH) SM W1 W2 SE.
  destruct (last_call n1 k1 cs1 c1 Ps1 H1 W1) as (K1 & m1 & rs1 & r1 & A1 & I1 & _ & A2). destruct (last_call n2 k2 cs2 c2 Ps2 H2 W2) as (K2 & m2 & rs2 & r2 & B1 & I2 & _ & B2).
  exists (Nat.max K1 K2), m1, rs1, r1, m2, rs2, r2. split; [intros; apply A1; lia|]. split; [intros; apply B1; lia|].
  fold g1 in A2, I1. fold g2 in B2, I2. pose proof (edges_NoDup g1 I1) as N1. pose proof (edges_NoDup g2 I2) as N2.
  pose proof (asked_listed g1 c1 Ps1 W1) as L1. pose proof (asked_listed g2 c2 Ps2 W2) as L2.
  assert (T1 : forall P ws Ps, Forall2 (told g1) Ps ws -> In P Ps -> solvable g1 P) by (clear; intros P ws Ps H; induction H as [|P0 w Ps ws (c & evs & F & _ & E & H & _) _ IH]; intros []; [subst; now exists evs, F|auto]).
  assert (T2 : forall P ws Ps, Forall2 (told g2) Ps ws -> In P Ps -> solvable g2 P) by (clear; intros P ws Ps H; induction H as [|P0 w Ps ws (c & evs & F & _ & E & H & _) _ IH]; intros []; [subst; now exists evs, F|auto]).
  assert (IN : forall P1, In P1 Ps1 -> exists P2, In P2 Ps2 /\ same_events f g1 P1 P2) by (clear -SE; induction SE as [|a b l1 l2 H _ IH]; intros P1 []; [subst; exists b; split; [now left|exact H]|]; destruct (IH P1 H0) as (P2 & Q1 & Q2); exists P2; split; [now right|exact Q2]).
  assert (IN2 : forall P2, In P2 Ps2 -> exists P1, In P1 Ps1 /\ same_events f g1 P1 P2) by (clear -SE; induction SE as [|a b l1 l2 H _ IH]; intros P2 []; [subst; exists a; split; [now left|exact H]|]; destruct (IH P2 H0) as (P1 & Q1 & Q2); exists P1; split; [now right|exact Q2]).
  rewrite Forall_forall in L1, L2.
  destruct (weights_told r1) as [ws1|], (weights_told r2) as [ws2|]; [| | |reflexivity].
  - f_equal. clear -A2 B2 SE HF FH N1 N2 SM. revert ws1 ws2 A2 B2. induction SE as [|P1 P2 l1 l2 HP _ IH]; intros ws1 ws2 A2 B2; inversion A2; inversion B2; subst; [reflexivity|]. f_equal; [|auto]. eapply (told_same f h g1 g2); eassumption.
  - exfalso. apply Exists_exists in B2 as (P2 & I & NS). apply NS. destruct (IN2 P2 I) as (P1 & I' & S). destruct (L2 P2 I) as (evs2 & _ & E2). apply (solvable_same f h g1 g2 HF FH N2 SM P1 P2 evs2 E2 S). exact (T1 P1 ws1 Ps1 A2 I').
  - exfalso. apply Exists_exists in A2 as (P1 & I & NS). apply NS. destruct (IN P1 I) as (P2 & I' & S). destruct (L1 P1 I) as (evs1 & _ & E1).
    apply (solvable_same h f g2 g1 FH HF N1 (back f h FH _ _ (renamed_back f h HF) g1 g2 SM) P2 P1 evs1 E1); [|exact (T2 P2 ws2 Ps2 B2 I')]. apply (events_back f h g1 g2 FH SM). exact S.
Qed.
Lemma sessions_rows : forall n1 k1 cs1 z1 n2 k2 cs2 z2 f,
  let g1 := graph_after (new_graph RN n1 k1) cs1 in let g2 := graph_after (new_graph RN n2 k2) cs2 in
  all_fair (new_graph RN n1 k1) (cs1 ++ [AskDecode z1]) -> all_fair (new_graph RN n2 k2) (cs2 ++ [AskDecode z2]) ->
  numbering f -> same_up_to (renamed_with_ids f) f g1 g2 -> nobs g1 = nobs g2 -> accepted g1 z1 -> accepted g2 z2 -> same_events f g1 (event_at z1) (event_at z2) -> clear_cut g1 (event_at z1) ->
  exists K m1 rs1 r m2 rs2,
    (forall fuel, K <= fuel -> mrun fuel cyclic_ints (new_matching (new_graph RN n1 k1)) (cs1 ++ [AskDecode z1]) = Ok (m1, rs1 ++ [r])) /\
    (forall fuel, K <= fuel -> mrun fuel cyclic_ints (new_matching (new_graph RN n2 k2)) (cs2 ++ [AskDecode z2]) = Ok (m2, rs2 ++ [r])).
Proof.
  intros n1 k1 cs1 z1 n2 k2 cs2 z2 f g1 g2 H1 H2 NU SMI NO HA1 HA2 SE CC.
  assert (SM : same_up_to (renamed f) f g1 g2).
  { destruct SMI as [(L & P & H) B]. split; [|exact B]. exists L. split; [exact P|]. clear -H. induction H as [|? ? ? ? [Hx _]]; constructor; assumption. }
  destruct (sessions_weights n1 k1 cs1 (AskDecode z1) [event_at z1] n2 k2 cs2 (AskDecode z2) [event_at z2] f H1 H2 NU SM (conj HA1 eq_refl) (conj HA2 eq_refl) (Forall2_cons _ _ SE (Forall2_nil _))) as (K0 & m1 & rs1 & r1 & m2 & rs2 & r2 & C1 & C2 & C3).
  destruct NU as (h & HF & FH).
  destruct (last_call n1 k1 cs1 (AskDecode z1) [event_at z1] H1 (conj HA1 eq_refl)) as (K1 & m1' & rs1' & r1' & A1 & I1 & A2 & A3). destruct (last_call n2 k2 cs2 (AskDecode z2) [event_at z2] H2 (conj HA2 eq_refl)) as (K2 & m2' & rs2' & r2' & B1 & I2 & B2 & B3).
  fold g1 in A2, A3, I1. fold g2 in B2, B3, I2.
  assert (r1' = r1) as ->. { specialize (C1 (Nat.max K0 K1) ltac:(lia)). rewrite A1 in C1 by lia. injection C1 as _ E. apply app_inj_tail in E. exact (proj2 E). }
  assert (r2' = r2) as ->. { specialize (C2 (Nat.max K0 K2) ltac:(lia)). rewrite B1 in C2 by lia. injection C2 as _ E. apply app_inj_tail in E. exact (proj2 E). }
  assert (r1 = r2) as ->; [|exists K0, m1, rs1, r2, m2, rs2; auto]. 
  cbn [right] in A2, B2. destruct A2 as (X1 & X2 & _), B2 as (Y1 & Y2 & _).
  destruct (classic (solvable g1 (event_at z1))) as [S1|S1].
  - destruct (classic (solvable g2 (event_at z2))) as [S2|S2]; [|rewrite (Y2 HA2 S2) in C3; destruct (X1 HA1 S1) as (? & ? & -> & _); discriminate].
    destruct (X1 HA1 S1) as (row1 & w1 & -> & (evs1 & F1 & E1 & -> & P1 & P2 & _)), (Y1 HA2 S2) as (row2 & w2 & -> & (evs2 & F2 & E2 & -> & Q1 & Q2 & _)). injection C3 as ->. f_equal. rewrite <- NO.
    pose proof (edges_NoDup g1 I1) as N1. pose proof (edges_NoDup g2 I2) as N2.
    assert (SL : same_events f g1 (fun v => In v evs1) (fun v => In v evs2)) by exact (events_listed f g1 evs1 evs2 _ _ SE E1 E2).
    pose proof (back f h FH _ _ (ids_back f h HF) g1 g2 SMI) as SMB. pose proof (back f h FH _ _ (renamed_back f h HF) g1 g2 SM) as SMB'.
    destruct (corrects_same h f FH HF _ g2 g1 F2 evs2 evs1 (fun _ _ H => proj1 H) SMB N1 (events_back f h g1 g2 FH SM _ _ SL) Q1) as (F2' & G1 & G2).
    assert (G1' : Forall2 (renamed h) F2 F2') by (clear -G1; induction G1 as [|? ? ? ? [Hx _]]; constructor; assumption).
    apply map_ext. intros i. f_equal. rewrite (flips_same h F2 F2' G1 i). apply (CC evs1); auto. exact (near_same h f g2 g1 FH HF N2 SMB' evs2 evs1 F2 F2' (events_back f h g1 g2 FH SM _ _ SL) G1' Q2).
  - rewrite (X2 HA1 S1) in *. destruct (classic (solvable g2 (event_at z2))) as [S2|S2]; [|now rewrite (Y2 HA2 S2)]. destruct (Y1 HA2 S2) as (? & ? & -> & _). discriminate.
Qed.

(** ** The order of additions *)
Definition op_edge (x : op RN) : list (uedge RN) := match x with OpAdd u v o w p _ => [mkE u v o w p] | _ => [] end.
Definition op_ids (k : nat) (x : op RN) : nat := match x with OpAdd _ _ o _ _ _ => raise_nobs k o | _ => k end.
Lemma run_adds : forall ops (g : ugraph RN), Inv g -> different_edges ops -> (forall u v o w p s e, In (OpAdd u v o w p s) ops -> In e (edges g) -> ~ joins e u v) ->
  edges (run g ops) = edges g ++ flat_map op_edge ops /\ bnodes (run g ops) = bnodes g /\ nobs (run g ops) = fold_left op_ids ops (nobs g).
Proof.
  induction ops as [|x ops IH]; intros g INV [HA HD] HJ; [cbn; now rewrite app_nil_r|]. apply Forall_cons_iff in HA as [Hx HA]. inversion HD as [|? ? D1 D2]; subst.
  destruct x as [u v o w p s| |]; [|destruct Hx|destruct Hx]. cbn [addition] in Hx.
  destruct (add_or_merge_new g u v o w p s INV (fun e He => HJ u v o w p s e (or_introl eq_refl) He)) as (g' & E & INV' & E1 & E2 & E3 & _).
  assert (EA : apply_op g (OpAdd u v o w p s) = g') by (cbn [apply_op]; unfold py_add; rewrite Hx, E; reflexivity).
  change (run g (OpAdd u v o w p s :: ops)) with (run (apply_op g (OpAdd u v o w p s)) ops). rewrite EA.
  destruct (IH g' INV' (conj HA D2)) as (I1 & I2 & I3).
  - intros u' v' o' w' p' s' e Hin He. rewrite E1 in He. apply in_app_iff in He as [He|[<-|[]]]; [exact (HJ u' v' o' w' p' s' e (or_intror Hin) He)|].
    rewrite Forall_forall in D1. specialize (D1 _ Hin). cbn [different_pairs] in D1. unfold joins. cbn [node1 node2]. intros [[-> ->]|[-> ->]]; apply D1; auto.
  - rewrite I1, I2, I3, E1, E2, E3. cbn [flat_map op_edge fold_left op_ids]. rewrite <- app_assoc. auto.
Qed.
Lemma raise_max : forall o k, raise_nobs k o = Nat.max k (fold_right (fun x m => Nat.max (x + 1) m) 0 o).
Proof.
  unfold raise_nobs. induction o as [|x o IH]; intros k; cbn [fold_left fold_right]; [lia|]. rewrite IH. destruct (Nat.ltb_spec k (x + 1)); lia.
Qed.
Lemma ids_perm : forall ops1 ops2, Permutation ops1 ops2 -> forall k, fold_left op_ids ops1 k = fold_left op_ids ops2 k.
Proof.
  intros ops1 ops2 H. induction H as [|x l l' H IH|x y l|l l' l'' _ IH1 _ IH2]; intros k; cbn [fold_left]; auto; [|now rewrite IH1].
  f_equal. destruct x as [? ? o ? ? ?| |], y as [? ? o' ? ? ?| |]; cbn [op_ids]; auto. rewrite !raise_max. lia.
Qed.
Lemma flat_perm : forall ops1 ops2, Permutation ops1 ops2 -> Permutation (flat_map op_edge ops1) (flat_map op_edge ops2).
Proof.
  intros ops1 ops2 H. induction H as [|x l l' H IH|x y l|l l' l'' _ IH1 _ IH2]; cbn [flat_map]; [constructor|now apply Permutation_app_head| |now rewrite IH1].
  rewrite !app_assoc. apply Permutation_app_tail, Permutation_app_comm.
Qed.
Lemma pairs_sym : forall x y, different_pairs x y -> different_pairs y x.
Proof. intros [u v o w p s| |] [u' v' o' w' p' s'| |]; cbn [different_pairs]; auto. intros H [[-> ->]|[-> ->]]; apply H; auto. Qed.
Lemma different_perm : forall ops1 ops2, Permutation ops1 ops2 -> different_edges ops1 -> different_edges ops2.
Proof.
  intros ops1 ops2 H [HA HD]. split; [exact (Permutation_Forall H HA)|]. clear HA. induction H as [|x l l' H IH|x y l|l l' l'' _ IH1 _ IH2]; auto.
  - inversion HD; subst. constructor; auto. eapply Permutation_Forall; eassumption.
  - inversion HD as [|? ? D1 D2]; subst. inversion D2 as [|? ? D3 D4]; subst. apply Forall_cons_iff in D1 as [D0 D1]. constructor; [constructor; [now apply pairs_sym|assumption]|]. constructor; assumption.
Qed.
Lemma id_numbering : numbering (fun v => v). Proof. exists (fun v => v). auto. Qed.
Lemma renamed_id : forall e, renamed_with_ids (fun v => v) e e.
Proof. intros e. split; [|reflexivity]. split; [reflexivity|]. left. split; [reflexivity|]. now destruct (node2 e). Qed.
Lemma any_order : forall n k ops1 ops2, Permutation ops1 ops2 -> different_edges ops1 ->
  let g1 := run (new_graph RN n k) ops1 in let g2 := run (new_graph RN n k) ops2 in
  same_up_to (renamed_with_ids (fun v => v)) (fun v => v) g1 g2 /\ nobs g1 = nobs g2.
Proof.
  intros n k ops1 ops2 P D g1 g2. destruct (run_adds ops1 (new_graph RN n k) (new_inv (N := RN) n k) D ltac:(intros ? ? ? ? ? ? ? _ [])) as (A1 & A2 & A3).
  destruct (run_adds ops2 (new_graph RN n k) (new_inv (N := RN) n k) (different_perm _ _ P D) ltac:(intros ? ? ? ? ? ? ? _ [])) as (B1 & B2 & B3). fold g1 in A1, A2, A3. fold g2 in B1, B2, B3.
  split; [|rewrite A3, B3; now apply ids_perm]. split; [|intros v; now rewrite A2, B2]. exists (edges g1). split.
  - rewrite A1, B1. now apply Permutation_app_head, flat_perm.
  - generalize (edges g1). induction l as [|e l IH]; constructor; [apply renamed_id|exact IH].
Qed.
Lemma after_modify : forall ops g, graph_after g (map Modify ops) = run g ops.
Proof. unfold graph_after, run. induction ops as [|x ops IH]; intros g; [reflexivity|]. cbn [map fold_left after]. apply IH. Qed.
Lemma drop_ids : forall f E L, Forall2 (renamed_with_ids f) E L -> Forall2 (renamed f) E L.
Proof. intros f E L H. induction H as [|? ? ? ? [Hx _]]; constructor; assumption. Qed.
Lemma any_order_weights : forall n k ops1 ops2 c1 c2 Ps,
  Permutation ops1 ops2 -> different_edges ops1 -> let g1 := run (new_graph RN n k) ops1 in let g2 := run (new_graph RN n k) ops2 in
  all_fair (new_graph RN n k) (map Modify ops1 ++ [c1]) -> all_fair (new_graph RN n k) (map Modify ops2 ++ [c2]) -> asks_weights g1 c1 Ps -> asks_weights g2 c2 Ps ->
  exists K m1 rs1 r1 m2 rs2 r2,
    (forall fuel, K <= fuel -> mrun fuel cyclic_ints (new_matching (new_graph RN n k)) (map Modify ops1 ++ [c1]) = Ok (m1, rs1 ++ [r1])) /\
    (forall fuel, K <= fuel -> mrun fuel cyclic_ints (new_matching (new_graph RN n k)) (map Modify ops2 ++ [c2]) = Ok (m2, rs2 ++ [r2])) /\
    weights_told r1 = weights_told r2.
Proof.
  intros n k ops1 ops2 c1 c2 Ps P D g1 g2 H1 H2 W1 W2. destruct (any_order n k ops1 ops2 P D) as [[(L & P1 & P2) B] _]. fold g1 in P2, B. fold g2 in P1, B.
  apply (sessions_weights n k (map Modify ops1) c1 Ps n k (map Modify ops2) c2 Ps (fun v => v)); rewrite ?after_modify; auto using id_numbering.
  - split; [|exact B]. exists L. split; [exact P1|]. now apply drop_ids.
  - clear. induction Ps as [|P l IH]; constructor; [intros v _; reflexivity|exact IH].
Qed.
