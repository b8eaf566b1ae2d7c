(** From the edges given by the caller to the decoder's answer: C44 (signed weights), C45 (user graphs with
    declared boundary nodes).

    [build] and [to_matching_graph] are the construction of the matching graph (M_Build.v), [decode] the whole decode
    (M_Core.v).  Integers are exact; any tie-breaking [orc]; any bound [fuel]. *)
From Coq Require Import ZArith NArith List Bool Arith Lia.
From Verif Require Import M_Base M_Core M_Session S_Core S_Session M_Build S_Build S_Decode P_Signed P_Decode T_Build.
Import ListNotations.
Local Open Scope nat_scope.

(** C44.  The answer is the weight and the observables of some selection of the edges whose odd-degree detectors are the
    detection events, and no such selection has a smaller sum of signed weights. *)
Theorem C44_signed_weights : forall nobs n E g bnd fuel orc s evs s' o w l,
  build nobs n E = Ok g -> ForallOrdPairs (fun e f => ~ parallel e f) E -> (forall e, In e E -> Z.even (s_weight e) = true) -> boundary_bare bnd E ->
  idle (adj g) s -> valid_events (adj g) evs ->
  decode (adj g) fuel orc exact_ints (neg_info_of nobs g bnd) s evs = Ok (s', (o, w, l)) ->
  exists X, solves E (wanted bnd evs) X /\ s_total (select E X) = w /\
    (nobs <= 64 -> forall k, N.testbit o (N.of_nat k) = s_flips k (select E X)) /\
    forall Y, solves E (wanted bnd evs) Y -> (w <= s_total (select E Y))%Z.
Proof. exact (fun nobs n E g bnd fuel orc s evs s' o w l HB NP EV BN => signed_answer nobs n E g bnd HB NP EV BN fuel orc s evs s' o w l). Qed.
Print Assumptions C44_signed_weights.

Theorem C44_raised_only_if_infeasible : forall nobs n E g bnd fuel orc s evs,
  build nobs n E = Ok g -> ForallOrdPairs (fun e f => ~ parallel e f) E -> (forall e, In e E -> Z.even (s_weight e) = true) -> boundary_bare bnd E ->
  idle (adj g) s -> valid_events (adj g) evs ->
  decode (adj g) fuel orc exact_ints (neg_info_of nobs g bnd) s evs = Throw -> forall Y, ~ solves E (wanted bnd evs) Y.
Proof. exact (fun nobs n E g bnd fuel orc s evs HB NP EV BN => signed_throws nobs n E g bnd HB NP EV BN fuel orc s evs). Qed.
Print Assumptions C44_raised_only_if_infeasible.

(** C45.  Boundary nodes of the user graph may have any degree; detection events at them are ignored. *)
Theorem C45_user_graph : forall nobs n B E g fuel orc s evs s' o w l,
  nodes_below n E -> ForallOrdPairs (fun e f => ~ parallel e f) E -> (forall e, In e E -> Z.even (s_weight e) = true) ->
  (forall e, In e E -> (0 <= s_weight e)%Z) -> to_matching_graph nobs n B E = Ok g ->
  idle (adj g) s -> valid_events (adj g) evs ->
  decode (adj g) fuel orc exact_ints (neg_info_of nobs g (map B (seq 0 n))) s evs = Ok (s', (o, w, l)) ->
  (exists F, u_explains E B F evs /\ s_total F = w /\ u_mask nobs F = o) /\
  forall F, u_explains E B F evs -> (w <= s_total F)%Z.
Proof. exact (fun nobs n B E g fuel orc s evs s' o w l RB NP EV POS HC => user_answer nobs n B E g RB NP EV POS HC fuel orc s evs s' o w l). Qed.
Print Assumptions C45_user_graph.

Theorem C45_raised_only_if_infeasible : forall nobs n B E g fuel orc s evs,
  nodes_below n E -> ForallOrdPairs (fun e f => ~ parallel e f) E -> (forall e, In e E -> Z.even (s_weight e) = true) ->
  (forall e, In e E -> (0 <= s_weight e)%Z) -> to_matching_graph nobs n B E = Ok g ->
  idle (adj g) s -> valid_events (adj g) evs ->
  decode (adj g) fuel orc exact_ints (neg_info_of nobs g (map B (seq 0 n))) s evs = Throw -> forall F, ~ u_explains E B F evs.
Proof. exact (fun nobs n B E g fuel orc s evs RB NP EV POS HC => user_throws nobs n B E g RB NP EV POS HC fuel orc s evs). Qed.
Print Assumptions C45_raised_only_if_infeasible.

(** [neg_ex] (T_Build.v): negative edges, a negative boundary edge and a negative self-loop.  For the detection events
    0 and 3 the best selection has weight -6; taking the two boundary edges and the loop gives -4. *)
Example C44_example : exists g s' l, build 6 4 neg_ex = Ok g /\ ForallOrdPairs (fun e f => ~ parallel e f) neg_ex /\
  (forall e, In e neg_ex -> Z.even (s_weight e) = true) /\ boundary_bare [] neg_ex /\ idle (adj g) init_state /\ valid_events (adj g) [0; 3] /\
  decode (adj g) 200 (fun _ => 0) exact_ints (neg_info_of 6 g []) init_state [0; 3] = Ok (s', (34%N, (-6)%Z, l)) /\
  solves neg_ex (wanted [] [0; 3]) [false; false; false; true; true; true] /\
  s_total (select neg_ex [false; false; false; true; true; true]) = (-4)%Z.
Proof.
  eexists. eexists. eexists. split; [vm_compute; reflexivity|]. split; [repeat constructor; simpl; intuition congruence|]. split; [intros e He; simpl in He; intuition; subst e; reflexivity|].
  split; [intros v Hv; destruct v; discriminate|]. split; [apply init_idle|]. split; [split; [repeat constructor; simpl; intuition discriminate|intros v Hv; simpl in Hv; simpl; intuition; subst v; lia]|].
  split; [vm_compute; reflexivity|]. split; [|reflexivity]. split; [reflexivity|]. intros v. do 5 (destruct v as [|v]; [reflexivity|]). reflexivity.
Qed.
(** [bnd_ex] (T_Build.v) with boundary nodes 3 and 4; the event at 3 is ignored, those at 1 and 2 are matched directly. *)
Example C45_example : exists g s' l, to_matching_graph 4 5 B_ex bnd_ex = Ok g /\ nodes_below 5 bnd_ex /\
  ForallOrdPairs (fun e f => ~ parallel e f) bnd_ex /\ (forall e, In e bnd_ex -> Z.even (s_weight e) = true) /\ (forall e, In e bnd_ex -> (0 <= s_weight e)%Z) /\
  valid_events (adj g) [1; 3] /\
  decode (adj g) 200 (fun _ => 0) exact_ints (neg_info_of 4 g (map B_ex (seq 0 5))) init_state [1; 3] = Ok (s', (5%N, 10%Z, l)).
Proof.
  eexists. eexists. eexists. split; [vm_compute; reflexivity|]. split; [|split; [|split; [|split; [|split]]]].
  - intros u x w o He. simpl in He. intuition; match goal with H : ed _ _ _ _ = _ |- _ => injection H as <- <- <- <- end; lia.
  - repeat constructor; simpl; intuition congruence.
  - intros e He. simpl in He. intuition; subst e; reflexivity.
  - intros e He. simpl in He. intuition; subst e; simpl; lia.
  - split; [repeat constructor; simpl; intuition discriminate|intros v Hv; simpl in Hv; simpl; intuition; subst v; lia].
  - vm_compute. reflexivity.
Qed.
