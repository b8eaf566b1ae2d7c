(** C62: decoding on the radix heap with 32-bit integers, whether or not there is a correction: an exception is raised exactly if no
    set of edges explains the detection events, and the decoder goes on to answer as if nothing had happened.

    The graph has to be compact: a node joined by a path to another node or to the boundary is joined to it by one shorter than 2^31
    (C62_few_nodes: for instance if the number of nodes times the largest weight is below that). *)
From Coq Require Import ZArith NArith List Bool Arith Lia.
From Verif Require Import M_Base M_RadixHeap M_Tracker M_Core M_Session M_CoreHeap M_Failing S_Core S_Session S_Decode S_Reach S_CoreHeap M_Build S_Build M_Flip S_Flip
  P_WfCheck P_Session P_Decode P_Halt P_Failing P_FewNodes P_Build T_Core T_Build T_Halt.
Import ListNotations.
Local Open Scope Z_scope.

(** Any syndromes, one after another, on one decoder and one heap. *)
Theorem C62_session : forall G, wf_graph G -> (forall u x w o, In (x, w, o) (nbrs G u) -> w <= max_weight) -> joined_within G (2 ^ 31) ->
  forall l s h, idle G s -> drained s h -> Forall (valid_events G) l ->
  exists K s' h' rs, (forall fuel, (K <= fuel)%nat -> decode_each_h G fuel cyclic_ints plain s h l = Ok (s', h', rs)) /\ idle G s' /\ drained s' h' /\
    Forall2 (fun evs r => match r with
                          | Some (o, w, _) => (exists F, explains G F evs /\ obs_of F = o /\ weight_of F = w) /\ forall F, explains G F evs -> w <= weight_of F
                          | None => forall F, ~ explains G F evs
                          end) l rs.
Proof. exact plain_each. Qed.
Print Assumptions C62_session.

(** The same from the edges given by the caller, with signed weights. *)
Theorem C62_signed_weights : forall nobs n E g bnd,
  build nobs n E = Ok g -> ForallOrdPairs (fun e f => ~ parallel e f) E -> (forall e, In e E -> Z.even (s_weight e) = true) -> boundary_bare bnd E ->
  (forall e, In e E -> Z.abs (s_weight e) <= max_weight) -> s_within E (2 ^ 31) ->
  forall l s h, idle (adj g) s -> drained s h -> Forall (valid_events (adj g)) l ->
  exists K s' h' rs, (forall fuel, (K <= fuel)%nat -> decode_each_h (adj g) fuel cyclic_ints (neg_info_of nobs g bnd) s h l = Ok (s', h', rs)) /\ idle (adj g) s' /\ drained s' h' /\
    Forall2 (fun evs r => match r with
                          | Some (o, w, _) => exists X, solves E (wanted bnd evs) X /\ s_total (select E X) = w /\ ((nobs <= 64)%nat -> forall k, N.testbit o (N.of_nat k) = s_flips k (select E X)) /\
                              forall Y, solves E (wanted bnd evs) Y -> w <= s_total (select E Y)
                          | None => forall Y, ~ solves E (wanted bnd evs) Y
                          end) l rs.
Proof. exact signed_each. Qed.
Print Assumptions C62_signed_weights.

(** With an abstract queue, any order of events of equal time: what C42_light_correction_partial leaves open, on compact graphs. *)
Theorem C42_infeasible_partial : forall G orc s evs,
  wf_graph G -> (forall u x w o, In (x, w, o) (nbrs G u) -> w <= max_weight) -> joined_within G (2 ^ 31) -> idle G s -> valid_events G evs -> (forall F, ~ explains G F evs) ->
  exists K, forall fuel, (K <= fuel)%nat -> decode G fuel orc machine_ints plain s evs = Throw.
Proof. exact machine_raises. Qed.
Print Assumptions C42_infeasible_partial.
Theorem C42_infeasible_signed_partial : forall nobs n E g bnd,
  build nobs n E = Ok g -> ForallOrdPairs (fun e f => ~ parallel e f) E -> (forall e, In e E -> Z.even (s_weight e) = true) -> boundary_bare bnd E ->
  (forall e, In e E -> Z.abs (s_weight e) <= max_weight) -> s_within E (2 ^ 31) ->
  forall orc s evs, idle (adj g) s -> valid_events (adj g) evs -> (forall Y, ~ solves E (wanted bnd evs) Y) ->
  exists K, forall fuel, (K <= fuel)%nat -> decode (adj g) fuel orc machine_ints (neg_info_of nobs g bnd) s evs = Throw.
Proof. exact machine_signed_raises. Qed.
Print Assumptions C42_infeasible_signed_partial.

(** Graphs with few nodes are compact: at most 64 nodes, whatever the weights. *)
Theorem C62_few_nodes : forall G, wf_graph G -> forall W, (forall u x w o, In (x, w, o) (nbrs G u) -> w <= W) -> 0 <= W ->
  forall D, W * Z.of_nat (length G) < D -> joined_within G D.
Proof. exact few_joined. Qed.
Print Assumptions C62_few_nodes.

(** ** Cases that meet the hypotheses *)
(** Five detectors in a ring, no boundary: the odd syndromes have no correction, and looking for one forms a blossom. *)
Definition ring : graph := map (fun v => [(Some (Nat.modulo (v + 1) 5), max_weight, N.of_nat (2 ^ v)); (Some (Nat.modulo (v + 4) 5), max_weight, N.of_nat (2 ^ (Nat.modulo (v + 4) 5)))]) (seq 0 5).
Lemma ring_weights : forall u x w o, In (x, w, o) (nbrs ring u) -> w <= max_weight.
Proof. intros u x w o H. do 5 (destruct u as [|u]; [vm_compute in H; destruct H as [H|[H|[]]]; injection H as <- <- <-; unfold max_weight; lia|]). destruct u; destruct H. Qed.
Example C62_ring_example : wf_graph ring /\ joined_within ring (2 ^ 31) /\ Forall (valid_events ring) [[0; 1; 2; 3; 4]; [1; 4]; [2]; [0; 1; 2; 3]]%nat /\
  match decode_each_h ring 200 cyclic_ints plain init_state empty_heap [[0; 1; 2; 3; 4]; [1; 4]; [2]; [0; 1; 2; 3]]%nat with
  | Ok (_, h, [None; Some (o1, w1, _); None; Some (o2, w2, _)]) => o1 = 17%N /\ w1 = 2 * max_weight /\ o2 = 5%N /\ w2 = 2 * max_weight /\ num_enqueued h = 0
  | _ => False
  end.
Proof.
  assert (W : wf_graph ring) by (apply wf_check_sound; vm_compute; reflexivity). split; [exact W|].
  split; [apply (C62_few_nodes ring W max_weight ring_weights); [unfold max_weight; lia|reflexivity]|]. split; [|vm_compute; auto].
  repeat (apply Forall_cons; [split; [repeat constructor; simpl; intuition lia|intros v H; simpl in H; change (length ring) with 5%nat; lia]|]). constructor.
Qed.
(** [no_bnd] (T_Halt.v) has an edge of negative weight and no boundary; C47_signed_infeasible_example shows that the event 0 alone has no correction. *)
Example C62_signed_example : exists g, build 2 3 no_bnd = Ok g /\ s_within no_bnd (2 ^ 31) /\ boundary_bare [] no_bnd /\
  match decode_each_h (adj g) 100 cyclic_ints (neg_info_of 2 g []) init_state empty_heap [[0]; [0; 2]]%nat with
  | Ok (_, _, [None; Some (o, w, _)]) => o = 3%N /\ w = 2
  | _ => False
  end.
Proof.
  destruct C47_signed_infeasible_example as (g & HB & _ & BN & _). exists g. split; [exact HB|].
  assert (EG : build 2 3 no_bnd = Ok g) by exact HB. vm_compute in EG. injection EG as EG.
  split; [|split; [exact BN|subst g; vm_compute; auto]].
  apply (joined_s_within 2 3 no_bnd g (2 ^ 31) (build_built _ _ _ _ HB)). apply (C62_few_nodes (adj g)) with (W := 4); [subst g; apply wf_check_sound; vm_compute; reflexivity| |lia|subst g; reflexivity].
  intros u x w o H. subst g. do 3 (destruct u as [|u]; [vm_compute in H; repeat (destruct H as [H|H]; [injection H as <- <- <-; lia|]); destruct H|]). destruct u; destruct H.
Qed.
(** A failed decode between two decodes on a graph with one detector cut off: 3 is isolated. *)
Definition cut : graph := [[(None, 8, 1%N); (Some 1%nat, 4, 0%N)]; [(Some 0%nat, 4, 0%N); (Some 2%nat, 6, 2%N)]; [(Some 1%nat, 6, 2%N)]; []].
Example C62_cut_example : wf_graph cut /\
  match decode_each_h cut 100 cyclic_ints plain init_state empty_heap [[2]; [0; 3]; [3; 2; 1]; [2]]%nat with
  | Ok (_, _, [Some r1; None; None; Some r2]) => r1 = r2 /\ fst r1 = (3%N, 18)
  | _ => False
  end.
Proof. split; [apply wf_check_sound; vm_compute; reflexivity|]. vm_compute. auto. Qed.
