(** C73: loading graphs into a Matching object that is in use.

    A user makes a Matching object and then loads check matrices, networkx or rustworkx graphs and detector error models into it, changes the graph and asks for decodings,
    in any order.  A function that loads either replaces the graph or raises an exception and changes nothing.  Every reply in between is right for the
    graph that was loaded last, with the changes made since: nothing of an earlier graph, and nothing of the decoder made for it, shows in a later reply. *)
From Coq Require Import Reals ZArith List Bool Arith Lia Lra.
From Verif Require Import M_Base M_Bits M_CoreHeap M_Dem M_Merge S_Dem M_MatrixArgs S_MatrixArgs M_GraphIO M_Matching S_Matching P_Compact P_Pipeline T_Pipeline T_Matching T_MatrixArgs
  M_UserGraph S_UserGraph P_UserGraph S_Pipeline S_GraphIO P_GraphIO P_GraphWrite M_Load S_Load P_Load.
Import ListNotations.
Local Open Scope nat_scope.

Theorem C73_loading_session : forall cs : list lcall, all_lfair (new_graph RN 0 0) cs ->
  exists K m' rs, (forall fuel, K <= fuel -> lrun fuel cyclic_ints (new_matching (new_graph RN 0 0)) cs = Ok (m', rs)) /\ all_lright (new_graph RN 0 0) cs rs.
Proof. exact loads_ok. Qed.
Print Assumptions C73_loading_session.

(** Arrays of well-formed matrices and any Python graph are loaded or refused; nothing is read that is not there. *)
Theorem C73_loads_or_raises : forall g x, lfair g (Load x) -> (exists g', make_graph x = Ok g') \/ make_graph x = Throw.
Proof. intros g x H. destruct (make_ok g x H) as [E|(g' & E & _)]; eauto. Qed.
Print Assumptions C73_loads_or_raises.

(** ** A case that meets the hypotheses *)
(** Nodes 0, 1, 2 in a row are loaded and a syndrome is decoded.  Then a graph that cannot be read (an edge with both fault_ids and qubit_id), which leaves the object as it
    was; then the check matrix of a ring, and the same syndrome again. *)
Definition row_python : pygraph RN := mkPy (N := RN) [(0, false); (1, false); (2, false)]%Z
  [ (0, 1, mkA (N := RN) (Some (IdInt 0)) None (Some 2%R) None)%Z; (1, 2, mkA (N := RN) None (Some (IdSet [1]%Z)) None None)%Z].
Definition unreadable : pygraph RN := mkPy (N := RN) [(0, false)]%Z [(0, 0, mkA (N := RN) (Some (IdInt 0)) (Some (IdInt 0)) None None)%Z].
Definition load_calls : list lcall :=
  [ Load (FromGraph row_python None); Use (AskDecode (Syn1 [1; 0; 1]%Z)); Load (FromGraph unreadable None); Use (AskEdges (Syn1 [0; 1; 1]%Z));
    Load (FromMatrix (ring_call (Some 1%Z))); Use (AskDecode (Syn1 [1; 0; 1]%Z)) ].
Lemma askable_few : forall (g : ugraph RN) l, Inv g -> num_nodes g <= 64 -> length l <= num_nodes g -> askable g (event_at (Syn1 l)).
Proof.
  intros g l HI HN HL. right. split; [now apply few_nodes_compact|]. intros v Hv. cbn [event_at] in Hv. destruct (Nat.lt_ge_cases v (length l)) as [L|L]; [lia|]. rewrite nth_overflow in Hv by exact L. contradiction.
Qed.
Lemma row_loads : exists g, make_graph (FromGraph row_python None) = Ok g /\ num_nodes g = 3 /\ nobs g = 2 /\ map (weight (N := RN)) (edges g) = [2; 1]%R /\ map (obs (N := RN)) (edges g) = [[0]; [1]].
Proof.
  assert (F2 : Rltb max_user_weight (Rabs 2) = false) by (apply (T_Pipeline.fits 2); lra). assert (F1 : Rltb max_user_weight (Rabs 1) = false) by (apply (T_Pipeline.fits 1); lra).
  eexists. split.
  - lazy -[Rltb max_user_weight IZR Rabs]. rewrite F2. lazy -[Rltb max_user_weight IZR Rabs]. rewrite F1. reflexivity.
  - repeat split; reflexivity.
Qed.
Example C73_example : all_lfair (new_graph RN 0 0) load_calls /\ make_graph (FromGraph unreadable None) = Throw /\ (exists g, make_graph (FromMatrix (ring_call (Some 1%Z))) = Ok g).
Proof.
  assert (UR : make_graph (FromGraph unreadable None) = Throw) by reflexivity. destruct (ring_loads 1) as (g2 & E2). change (Z.of_nat 1) with 1%Z in E2.
  split; [|split; [exact UR|exists g2; exact E2]]. unfold load_calls. cbn [all_lfair lafter lfair after]. rewrite UR. destruct row_loads as (g1 & E1 & N1 & O1 & W1 & B1). rewrite E1. cbn [make_graph]. rewrite E2.
  assert (I1 : Inv g1) by exact (proj1 (read_made row_python None g1 E1)).
  assert (P2 : num_nodes g2 = 3 /\ nobs g2 = 3 /\ map (weight (N := RN)) (edges g2) = [3; 2; 2]%R /\ map (obs (N := RN)) (edges g2) = [[0]; [1]; [2]]).
  { assert (E2' := E2). lazy -[Rltb max_user_weight IZR Rdiv Rinv Rmult Rabs] in E2'. injection E2' as <-. repeat split; reflexivity. }
  destruct P2 as (N2 & O2 & W2 & B2).
  assert (WF : (forall H, check_matrix (N := RN) (ring_call (Some 1%Z)) H -> well_formed H) /\ (forall F, a_faults (N := RN) (ring_call (Some 1%Z)) = Some F -> well_formed F)).
  { split; [|discriminate]. destruct (ring_means 1) as ((H & HC & _ & _ & [WF _]) & _). intros H' [HC'|[_ HC']]; [discriminate|]. destruct HC as [HC|[_ HC]]; [discriminate|]. cbn in HC, HC'. injection HC as <-. injection HC' as <-. exact WF. }
  assert (HW : forall g : ugraph RN, (forall w, In w (map (weight (N := RN)) (edges g)) -> (1 <= w <= 3)%R) -> moderate g /\ (forall e, In e (edges g) -> (0 <= weight e)%R) /\ (edges g <> [] -> scalable g)).
  { intros g H. assert (K : forall e, In e (edges g) -> (1 <= weight e <= 3)%R) by (intros e He; apply H; now apply in_map). split; [|split].
    - intros e He. specialize (K e He). unfold max_user_weight. rewrite Rabs_right; lra.
    - intros e He. specialize (K e He). lra.
    - intros NE. destruct (edges g) as [|e l] eqn:E; [congruence|]. apply (scalable_some g e); [rewrite E; now left|]. specialize (K e (or_introl eq_refl)). rewrite Rabs_right; lra. }
  destruct (HW g1) as (M1 & P1 & S1). { rewrite W1. intros w [<-|[<-|[]]]; lra. }
  destruct (HW g2) as (M2 & P2 & S2). { rewrite W2. intros w [<-|[<-|[<-|[]]]]; lra. }
  assert (I2 : Inv g2). { destruct (make_ok (new_graph RN 0 0) (FromMatrix (ring_call (Some 1%Z)))) as [E|(g' & E & F)]; cbn [make_graph lfair] in *; [|congruence|rewrite E2 in E; injection E as <-; exact (P_Matching.f_inv _ _ F)]. split; [exact (proj1 WF)|]. split; [exact (proj2 WF)|]. intros g' E. rewrite E2 in E. injection E as <-. exact M2. }
  assert (U1 : usable g1).
  { split; [|split; [apply S1; intros E; rewrite E in W1; discriminate|exact (harmless_nonneg g1 P1)]]. intros e o He Ho. rewrite O1. assert (X : In (obs e) [[0]; [1]]) by (rewrite <- B1; now apply in_map). destruct X as [X|[X|[]]]; rewrite <- X in Ho; destruct Ho as [<-|[]]; lia. }
  assert (U2 : usable g2).
  { split; [|split; [apply S2; intros E; rewrite E in W2; discriminate|exact (harmless_nonneg g2 P2)]]. intros e o He Ho. rewrite O2. assert (X : In (obs e) [[0]; [1]; [2]]) by (rewrite <- B2; now apply in_map). destruct X as [X|[X|[X|[]]]]; rewrite <- X in Ho; destruct Ho as [<-|[]]; lia. }
  split; [exact I|]. split; [intros _; split; [exact U1|]; apply askable_few; auto; rewrite N1; cbn; lia|]. split; [exact I|].
  split; [intros _; split; [exact U1|]; split; [intros e He _; now apply P1|]; apply askable_few; auto; rewrite N1; cbn; lia|].
  split; [split; [exact (proj1 WF)|]; split; [exact (proj2 WF)|]; intros g' E; injection E as <-; exact M2|].
  split; [intros _; split; [exact U2|]; apply askable_few; auto; rewrite N2; cbn; lia|exact I].
Qed.
