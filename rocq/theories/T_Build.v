(** C09: negative weights are an exact reduction.  C32: declared boundary nodes act as one boundary. *)
From Coq Require Import ZArith NArith List Bool Arith Lia.
From Verif Require Import M_Base M_Core S_Core M_Build S_Build P_Build P_Convert P_Convert2 P_WfCheck.
Import ListNotations.
Local Open Scope nat_scope.

(** The graph that is searched has the absolute weights. *)
Theorem C09_absolute_weights : forall nobs n E g, build nobs n E = Ok g ->
  (forall u v w m, In (Some v, w, m) (nbrs (adj g) u) <->
     u <> v /\ exists w0 obs, (In (u, Some v, w0, obs) E \/ In (v, Some u, w0, obs) E) /\ w = Z.abs w0 /\ m = mask_of nobs obs) /\
  (forall u w m, In (None, w, m) (nbrs (adj g) u) <-> exists w0 obs, In (u, None, w0, obs) E /\ w = Z.abs w0 /\ m = mask_of nobs obs).
Proof. exact (fun nobs n E g H => conj (adj_edge nobs n E g (build_built _ _ _ _ H)) (adj_boundary nobs n E g (build_built _ _ _ _ H))). Qed.
Print Assumptions C09_absolute_weights.

(** A selection X of edges and the selection with the negative edges inverted: odd-degree nodes, weights and
    observables differ by the data the graph keeps about its negative edges.  Self-loops and parallel edges
    included. *)
Theorem C09_reduction : forall nobs n E g X, build nobs n E = Ok g -> length X = length E ->
  let X' := invert_negative E X in
  (forall v, Nat.odd (s_degree v (select E X')) = xorb (Nat.odd (s_degree v (select E X))) (memb v (neg_dets g))) /\
  s_abs (select E X') = (s_total (select E X) - neg_total g)%Z /\
  (forall k, s_flips k (select E X') = xorb (s_flips k (select E X)) (memb k (neg_obss g))).
Proof. exact reduction. Qed.
Print Assumptions C09_reduction.

(** X is optimal for the signed problem iff its inversion is optimal for the reduced problem. *)
Theorem C09_optimal : forall nobs n E g S X, build nobs n E = Ok g ->
  (solves E S X /\ forall Y, solves E S Y -> (s_total (select E X) <= s_total (select E Y))%Z) <->
  (length X = length E /\
   let S' := fun v => xorb (S v) (memb v (neg_dets g)) in
   solves E S' (invert_negative E X) /\
   forall Y, solves E S' Y -> (s_abs (select E (invert_negative E X)) <= s_abs (select E Y))%Z).
Proof. exact reduction_optimal. Qed.
Print Assumptions C09_optimal.

(** The mask kept for the negative edges, bit by bit. *)
Theorem C09_mask : forall nobs obs k, nobs <= 64 -> N.testbit (mask_of nobs obs) (N.of_nat k) = Nat.odd (count_occ Nat.eq_dec obs k).
Proof. exact mask_bit. Qed.
Print Assumptions C09_mask.

Definition ed (u : nat) (x : option nat) (w : Z) (obs : list nat) : sedge := (u, x, w, obs).
(** Four nodes, two negative edges, one negative boundary edge, a negative self-loop. *)
Definition neg_ex : list sedge :=
  [ed 0 (Some 1) (-4) [0]; ed 1 (Some 2) 6 []; ed 2 (Some 3) (-2) [0; 1]; ed 3 None (-8) [2]; ed 0 None 10 []; ed 2 (Some 2) (-6) [5]].
Example C09_example : exists g, build 6 4 neg_ex = Ok g /\ neg_dets g = [0; 1; 2] /\ neg_obss g = [1; 2; 5] /\ neg_total g = (-20)%Z /\
  select neg_ex (invert_negative neg_ex [false; true; true; true; false; true]) = [ed 0 (Some 1) (-4) [0]; ed 1 (Some 2) 6 []].
Proof. eexists. vm_compute. repeat split. Qed.

(** C32.  Both directions: corrections of the user graph, in which boundary nodes are unconstrained, and of the
    matching graph have the same minimum weight. *)
Theorem C32_boundary : forall nobs n B E g, nodes_below n E -> (forall e, In e E -> (0 <= s_weight e)%Z) ->
  to_matching_graph nobs n B E = Ok g -> forall evs, (forall v, In v evs -> B v = false) ->
  (forall F, u_explains E B F evs -> exists F', explains (adj g) F' evs /\ (weight_of F' <= s_total F)%Z) /\
  (forall F', explains (adj g) F' evs -> exists F, u_explains E B F evs /\ s_total F = weight_of F' /\ u_mask nobs F = obs_of F').
Proof. exact boundary_conversion'. Qed.
Print Assumptions C32_boundary.

(** The conversion succeeds and gives a well-formed matching graph. *)
Theorem C32_well_formed : forall nobs n B E, nodes_below n E -> ForallOrdPairs (fun e f => ~ parallel e f) E ->
  (forall e, In e E -> Z.even (s_weight e) = true) ->
  exists g, to_matching_graph nobs n B E = Ok g /\ wf_graph (adj g) /\ length (adj g) = n /\ (forall v, B v = true -> nbrs (adj g) v = []).
Proof. exact conversion_wf. Qed.
Print Assumptions C32_well_formed.

(** Nodes 3 and 4 are boundary nodes; three boundary edges at node 0 become one, 3-4 is dropped. *)
Definition bnd_ex : list sedge :=
  [ed 0 (Some 1) 4 [0]; ed 0 (Some 3) 10 [1]; ed 4 (Some 0) 6 [2]; ed 0 None 8 []; ed 3 (Some 4) 2 [3]; ed 1 (Some 2) 2 []; ed 2 (Some 2) 4 []].
Definition B_ex (v : nat) : bool := (v =? 3) || (v =? 4).
Example C32_example : exists g, to_matching_graph 4 5 B_ex bnd_ex = Ok g /\
  adj g = [[(None, 6%Z, 4%N); (Some 1, 4%Z, 1%N)]; [(Some 0, 4%Z, 1%N); (Some 2, 2%Z, 0%N)]; [(Some 1, 2%Z, 0%N)]; []; []] /\
  nodes_below 5 bnd_ex /\ (forall e, In e bnd_ex -> (0 <= s_weight e)%Z) /\
  ForallOrdPairs (fun e f => ~ parallel e f) bnd_ex.
Proof.
  eexists. split; [vm_compute; reflexivity|]. split; [reflexivity|]. split; [|split].
  - intros u x w o He. simpl in He. intuition; match goal with H : ed _ _ _ _ = _ |- _ => injection H as <- <- <- <- end; lia.
  - intros e He. simpl in He. intuition; subst e; simpl; lia.
  - repeat constructor; simpl; intuition congruence.
Qed.

(** With negative weights the claim fails: of two negative boundary edges at one node only one survives, so the
    user graph's minimum (-6, both edges) is missed. *)
Theorem C32_negative_refuted : exists n B E g F, to_matching_graph 0 n B E = Ok g /\ nodes_below n E /\
  u_explains E B F [] /\ s_total F = (-6)%Z /\
  forall X, length X = length (convert_all n B E) -> (forall v, Nat.odd (s_degree v (select (convert_all n B E) X)) = false) ->
    (0 <= s_total (select (convert_all n B E) X))%Z.
Proof.
  exists 3, (fun v => 0 <? v), [ed 0 (Some 1) (-2) []; ed 0 (Some 2) (-4) []]. eexists. exists [ed 0 (Some 1) (-2) []; ed 0 (Some 2) (-4) []].
  split; [vm_compute; reflexivity|]. split.
  - intros u x w o [H|[H|[]]]; injection H as <- <- <- <-; lia.
  - split; [|split; [reflexivity|]].
    + split; [auto|]. intros v Hv. destruct v as [|v]; [|discriminate]. simpl. split; [discriminate|intros []].
    + intros X HX H. specialize (H 0). vm_compute in HX. destruct X as [|b [|]]; try discriminate. destruct b; [|vm_compute; discriminate]. vm_compute in H. discriminate.
Qed.
Print Assumptions C32_negative_refuted.
