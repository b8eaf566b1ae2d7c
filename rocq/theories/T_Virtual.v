(** C75: a check matrix loaded with a virtual boundary or with a boundary node is decoded alike.

    With use_virtual_boundary_node=True, a column with a single one becomes a boundary edge.  With False, it becomes an edge to an additional
    node, which is declared to be the boundary.  The documentation says that the decoder handles both identically.  The two graphs have the same
    edges in the same order.  Both accept the same matrices.  The decoder reports exactly the same weights for the same detection events, or an
    exception for both; and what is right as an answer to any question is the same. *)
From Coq Require Import Reals ZArith List Bool Arith Lia Lra.
From Verif Require Import M_Base M_Core M_CoreHeap M_Bits M_Merge P_Dem M_CheckMatrix S_CheckMatrix P_CheckMatrix2 M_Matching S_Matching M_UserGraph S_UserGraph S_Pipeline S_MatrixDecode P_Matching P_MatrixDecode S_Weights S_Virtual P_Virtual P_Virtual2 T_MatrixDecode.
Import ListNotations.
Local Open Scope nat_scope.

(** Both ways raise an exception, or the graphs correspond. *)
Theorem C75_same_graph : forall (N : numops) rows cols faults fr (ws ps : list (num N)) s reps tws mes, (forall c r, In c cols -> In r c -> r < rows) ->
  match load_check_matrix rows cols faults fr ws ps s true reps tws mes, load_check_matrix rows cols faults fr ws ps s false reps tws mes with
  | Ok gv, Ok gb => same_layout (rows * reps) gv gb
  | Throw, Throw => True
  | _, _ => False
  end.
Proof. exact @load_sim. Qed.
Print Assumptions C75_same_graph.

(** One syndrome: the same weight, or an exception for both; each of the two predictions would have been right for the other. *)
Theorem C75_decode : forall rows reps nfaults cols faults (ws ps : list R) s (tws mes : option (list R)) gv gb M z1 z2,
  load_check_matrix (N := RN) rows cols faults nfaults ws ps s true reps tws mes = Ok gv ->
  load_check_matrix (N := RN) rows cols faults nfaults ws ps s false reps tws mes = Ok gb ->
  sound_matrix rows reps cols faults ws (times tws) s nfaults M ->
  accepted gv z1 -> accepted gb z2 -> events_below (rows * reps) (event_at z1) (event_at z2) -> rows * reps < 64 \/ compact gv ->
  exists K m1 m2,
    (exists row1 row2 w, (forall fuel, K <= fuel ->
        mstep fuel cyclic_ints (new_matching gv) (AskDecode z1) = Ok (m1, Row row1 w) /\ mstep fuel cyclic_ints (new_matching gb) (AskDecode z2) = Ok (m2, Row row2 w)) /\
      right_row gv (event_at z1) row1 w /\ right_row gv (event_at z1) row2 w) \/
    (forall fuel, K <= fuel ->
        mstep fuel cyclic_ints (new_matching gv) (AskDecode z1) = Ok (m1, Raised) /\ mstep fuel cyclic_ints (new_matching gb) (AskDecode z2) = Ok (m2, Raised)).
Proof. exact (fun rows reps nf cols faults ws ps s tws mes gv gb M z1 z2 LV LB SM => matrix_decode rows reps nf cols faults ws ps s tws mes gv gb M LV LB SM z1 z2). Qed.
Print Assumptions C75_decode.

(** Any call that is answered with weights, be it a batch, packed or not, and any events that the hypotheses of C53 allow. *)
Theorem C75_weights : forall rows reps nfaults cols faults (ws ps : list R) s (tws mes : option (list R)) gv gb M c1 c2 Ps1 Ps2,
  load_check_matrix (N := RN) rows cols faults nfaults ws ps s true reps tws mes = Ok gv ->
  load_check_matrix (N := RN) rows cols faults nfaults ws ps s false reps tws mes = Ok gb ->
  sound_matrix rows reps cols faults ws (times tws) s nfaults M ->
  fair gv c1 -> fair gb c2 -> asks_weights gv c1 Ps1 -> asks_weights gb c2 Ps2 -> Forall2 (events_below (rows * reps)) Ps1 Ps2 ->
  exists K m1 r1 m2 r2,
    (forall fuel, K <= fuel -> mstep fuel cyclic_ints (new_matching gv) c1 = Ok (m1, r1) /\ mstep fuel cyclic_ints (new_matching gb) c2 = Ok (m2, r2)) /\
    right gv c1 r1 /\ right gb c2 r2 /\ weights_told r1 = weights_told r2.
Proof. exact (fun rows reps nf cols faults ws ps s tws mes gv gb M c1 c2 Ps1 Ps2 LV LB SM => matrix_pair rows reps nf cols faults ws ps s tws mes gv gb M LV LB SM c1 c2 Ps1 Ps2). Qed.
Print Assumptions C75_weights.

(** What has an answer, and which rows, edges, pairs and dictionaries are right answers, does not depend on the way of loading. *)
Theorem C75_right_answers : forall rows reps nfaults cols faults (ws ps : list R) s (tws mes : option (list R)) gv gb M z1 z2,
  load_check_matrix (N := RN) rows cols faults nfaults ws ps s true reps tws mes = Ok gv ->
  load_check_matrix (N := RN) rows cols faults nfaults ws ps s false reps tws mes = Ok gb ->
  sound_matrix rows reps cols faults ws (times tws) s nfaults M ->
  accepted gv z1 -> accepted gb z2 -> events_below (rows * reps) (event_at z1) (event_at z2) ->
  (solvable gv (event_at z1) <-> solvable gb (event_at z2)) /\
  (forall row w, right_row gv (event_at z1) row w <-> right_row gb (event_at z2) row w) /\
  (forall out, right_edges gv (event_at z1) out <-> right_edges gb (event_at z2) out) /\
  (forall out, right_pairs gv (event_at z1) out <-> right_pairs gb (event_at z2) out) /\
  (forall t, right_dict gv (event_at z1) t <-> right_dict gb (event_at z2) t).
Proof. exact (fun rows reps nf cols faults ws ps s tws mes gv gb M z1 z2 LV LB SM => matrix_right rows reps nf cols faults ws ps s tws mes gv gb M LV LB SM z1 z2). Qed.
Print Assumptions C75_right_answers.

(** ** A case that meets the hypotheses *)
(** The matrix of C56, in two rounds, has columns with a single one.  The syndrome for the graph with a boundary node may have an entry for
    that node, which does not matter. *)
Example C75_example : exists gv gb, let z1 := Syn1 [1; 0; 1; 0]%Z in let z2 := Syn1 [1; 0; 1; 0; 1]%Z in
  load_check_matrix (N := RN) 2 ex_cols ex_faults 4 ex_ws ex_ws SMALLEST_WEIGHT true 2 (Some ex_tws) (Some ex_tws) = Ok gv /\
  load_check_matrix (N := RN) 2 ex_cols ex_faults 4 ex_ws ex_ws SMALLEST_WEIGHT false 2 (Some ex_tws) (Some ex_tws) = Ok gb /\
  sound_matrix 2 2 ex_cols ex_faults ex_ws ex_tws SMALLEST_WEIGHT 4 3 /\ bnodes gb = [4] /\
  accepted gv z1 /\ accepted gb z2 /\ events_below 4 (event_at z1) (event_at z2) /\
  exists e, In e (edges gv) /\ node2 e = None.
Proof.
  destruct (check_matrix_accepts (N := RN) 2 ex_cols ex_faults 4 ex_ws ex_ws SMALLEST_WEIGHT true 2 (Some ex_tws) (Some ex_tws)) as (gv & Ev); try reflexivity; try discriminate.
  { intros c Hc. cbn in Hc. repeat (destruct Hc as [<-|Hc]; [cbn; lia|]). destruct Hc. }
  { intros _. exists ex_tws, ex_tws. auto. }
  destruct (check_matrix_accepts (N := RN) 2 ex_cols ex_faults 4 ex_ws ex_ws SMALLEST_WEIGHT false 2 (Some ex_tws) (Some ex_tws)) as (gb & Eb); try reflexivity; try discriminate.
  { intros c Hc. cbn in Hc. repeat (destruct Hc as [<-|Hc]; [cbn; lia|]). destruct Hc. }
  { intros _. exists ex_tws, ex_tws. auto. }
  pose proof (ex_sound 2 (le_n 2)) as SM. pose proof (C75_same_graph RN 2 ex_cols ex_faults 4 ex_ws ex_ws SMALLEST_WEIGHT 2 (Some ex_tws) (Some ex_tws) (proj1 SM)) as LY. rewrite Ev, Eb in LY.
  destruct (proj1 (check_matrix_boundary (N := RN) 2 ex_cols ex_faults 4 ex_ws ex_ws SMALLEST_WEIGHT false 2 (Some ex_tws) (Some ex_tws) gb Eb (proj1 SM))) as [B NB]; [split; [reflexivity|split; [lia|]]; exists 0; now left|].
  assert (X : exists e, In e (edges gv) /\ node2 e = None).
  { destruct (existsb lone (edges gv)) eqn:X; [apply existsb_exists in X as (e & He & L); exists e; split; [exact He|]; unfold lone in L; destruct (node2 e); [discriminate|reflexivity]|].
    exfalso. assert (Q : ~ exists e, In e (edges gv) /\ node2 e = None).
    { intros (e & He & L). assert (Y : existsb lone (edges gv) = true) by (apply existsb_exists; exists e; split; [exact He|unfold lone; now rewrite L]). congruence. }
    destruct (l_without _ _ _ LY Q) as [_ B']. rewrite B in B'. discriminate. }
  exists gv, gb. cbv zeta. split; [exact Ev|]. split; [exact Eb|]. split; [exact SM|]. split; [exact B|]. split; [|split; [|split; [|exact X]]].
  - cbn [accepted length]. unfold num_detectors. rewrite (l_virtual _ _ _ LY), (l_nodes _ _ _ LY). cbn. lia.
  - cbn [accepted length]. unfold num_detectors. rewrite B, NB. cbn. lia.
  - intros v Hv. cbn [event_at]. do 4 (destruct v as [|v]; [reflexivity|]). lia.
Qed.
Print Assumptions C75_example.
