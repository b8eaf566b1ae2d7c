(** C51: decoding with the queue and the integers of the code: the radix heap with 32-bit times, cyclic comparisons of
    times, int32_t radii.

    M_Core.v takes the next event from an abstract queue, an oracle choosing between events of equal time.  Here the
    events come from the 33 buckets of the radix heap (M_CoreHeap.v), and nothing is left to choose. *)
From Coq Require Import ZArith NArith List Bool Arith Lia.
From Verif Require Import M_Base M_RadixHeap M_Tracker M_Core M_Session M_CoreHeap S_Core S_Session S_Decode S_Reach S_CoreHeap M_Build S_Build M_Flip S_Flip M_ToEdges S_ToEdges
  P_WfCheck P_Session P_Decode P_CoreHeap2 T_Core T_Build T_EndToEnd T_ToEdges T_Machine.
Import ListNotations.
Local Open Scope Z_scope.

(** Decoding ends with a correction of minimum weight, an idle decoder and an empty heap. *)
Theorem C51_decode : forall G s h evs F,
  wf_graph G -> (forall u x w o, In (x, w, o) (nbrs G u) -> w <= max_weight) -> idle G s -> drained s h -> valid_events G evs ->
  explains G F evs -> weight_of F < 2 ^ 31 \/ within G evs (2 ^ 31) ->
  exists K s' h' o w l, (forall fuel, (K <= fuel)%nat -> decode_h G fuel cyclic_ints plain s h evs = Ok (s', h', (o, w, l))) /\ idle G s' /\ drained s' h' /\
    (exists F, NoDup F /\ explains G F evs /\ obs_of F = o /\ weight_of F = w) /\ (forall F, explains G F evs -> w <= weight_of F).
Proof. exact (fun G s h evs F WF HW HI HD V HF HL => heap_plain G s h evs F WF HW HI HD V (conj HF HL)). Qed.
Print Assumptions C51_decode.

(** Any number of syndromes one after another, on one decoder and one heap. *)
Theorem C51_session : forall G, wf_graph G -> (forall u x w o, In (x, w, o) (nbrs G u) -> w <= max_weight) -> forall l s h, idle G s -> drained s h ->
  Forall (fun evs => valid_events G evs /\ exists F, explains G F evs /\ (weight_of F < 2 ^ 31 \/ within G evs (2 ^ 31))) l ->
  exists K s' h' rs, (forall fuel, (K <= fuel)%nat -> decode_several_h G fuel cyclic_ints plain s h l = Ok (s', h', rs)) /\ idle G s' /\ drained s' h' /\
    Forall2 (fun evs r => let '(o, w, _) := (r : result) in (exists F, explains G F evs /\ obs_of F = o /\ weight_of F = w) /\ forall F, explains G F evs -> w <= weight_of F) l rs.
Proof. exact heap_session. Qed.
Print Assumptions C51_session.

(** From the edges given by the caller, with signed weights. *)
Theorem C51_signed_weights : forall nobs n E g bnd s h evs Y,
  build nobs n E = Ok g -> ForallOrdPairs (fun e f => ~ parallel e f) E -> (forall e, In e E -> Z.even (s_weight e) = true) -> boundary_bare bnd E ->
  (forall e, In e E -> Z.abs (s_weight e) <= max_weight) -> idle (adj g) s -> drained s h -> valid_events (adj g) evs ->
  solves E (wanted bnd evs) Y -> s_total (select E Y) + s_abs (filter (fun e => s_weight e <? 0) E) < 2 ^ 31 \/ s_within E (2 ^ 31) ->
  exists K s' h' o w l, (forall fuel, (K <= fuel)%nat -> decode_h (adj g) fuel cyclic_ints (neg_info_of nobs g bnd) s h evs = Ok (s', h', (o, w, l))) /\ idle (adj g) s' /\ drained s' h' /\
    exists X, solves E (wanted bnd evs) X /\ s_total (select E X) = w /\ ((nobs <= 64)%nat -> forall k, N.testbit o (N.of_nat k) = s_flips k (select E X)) /\
    forall Y, solves E (wanted bnd evs) Y -> w <= s_total (select E Y).
Proof. exact heap_signed. Qed.
Print Assumptions C51_signed_weights.

(** On user graphs with boundary nodes (see C45). *)
Theorem C51_user_graph : forall nobs n B E g s h evs F,
  nodes_below n E -> ForallOrdPairs (fun e f => ~ parallel e f) E -> (forall e, In e E -> Z.even (s_weight e) = true) ->
  (forall e, In e E -> 0 <= s_weight e) -> to_matching_graph nobs n B E = Ok g ->
  (forall e, In e E -> s_weight e <= max_weight) -> idle (adj g) s -> drained s h -> valid_events (adj g) evs ->
  u_explains E B F evs -> s_total F < 2 ^ 31 ->
  exists K s' h' o w l, (forall fuel, (K <= fuel)%nat -> decode_h (adj g) fuel cyclic_ints (neg_info_of nobs g (map B (seq 0 n))) s h evs = Ok (s', h', (o, w, l))) /\ idle (adj g) s' /\ drained s' h' /\
    (exists F, u_explains E B F evs /\ s_total F = w /\ u_mask nobs F = o) /\ forall F, u_explains E B F evs -> w <= s_total F.
Proof. exact heap_user. Qed.
Print Assumptions C51_user_graph.

(** ** Cases that meet the hypotheses *)
Example C51_init_example : forall G, idle G init_state /\ drained init_state empty_heap.
Proof. intros G. split; [apply init_idle|]. split; reflexivity. Qed.

(** [kite] (T_Core.v) forms a blossom; its other hypotheses are in C42_blossom_example.  Three syndromes in a row. *)
Definition shown_several (r : outcome (state * heap * list result)) : option (list (N * Z) * Z) :=
  match r with Ok (_, h, rs) => Some (map fst rs, num_enqueued h) | _ => None end.
Example C51_session_example : wf_graph kite /\ (exists F, explains kite F [4; 0; 2; 1]%nat /\ weight_of F < 2 ^ 31) /\ explains kite [] [] /\ valid_events kite [4; 0; 2; 1]%nat /\
  match decode_several_h kite 60 cyclic_ints plain init_state empty_heap [[4; 0; 2; 1]; []; [4; 0; 2; 1]]%nat with
  | Ok (_, h, [(_, w1, _); (_, w2, _); (_, w3, _)]) => w1 = 12 /\ w2 = 0 /\ w3 = 12 /\ num_enqueued h = 0 /\ map (fun b => length (buckets h b)) (seq 0 34) = repeat 0%nat 34
  | _ => False end.
Proof.
  split; [apply wf_check_sound; vm_compute; reflexivity|]. destruct C42_blossom_example as (F & H & W & _). split; [exists F; auto|].
  split; [split; [constructor|]; intros v; cbn; split; [discriminate|intros []]|].
  split; [split; [repeat constructor; simpl; intuition discriminate|intros v Hv; simpl in Hv; simpl; intuition; subst v; lia]|].
  vm_compute. auto.
Qed.
(** 64 detectors in a row, every weight the largest accepted one (see C42_light_example): the times come close to 2^31. *)
Example C51_long_example :
  match decode_h (long_path 64) 400 cyclic_ints plain init_state empty_heap [0%nat] with Ok (_, h, r) => r = (1%N, 2147483520, [mkE (Some 0%nat) None 1%N]) /\ cur_time h = 2147483520 | _ => False end.
Proof. vm_compute. auto. Qed.
(** [te_ex] (T_ToEdges.v) has negative weights; C42_signed_example shows the other hypotheses. *)
Example C51_signed_example : exists g, build 71 4 te_ex = Ok g /\
  match decode_h (adj g) 200 cyclic_ints (neg_info_of 71 g []) init_state empty_heap [0; 2]%nat with Ok (_, _, (_, w, _)) => w = 2 | _ => False end.
Proof. eexists. split; [vm_compute; reflexivity|]. vm_compute. reflexivity. Qed.
(** [bnd_ex] (T_Build.v); C42_user_example shows the other hypotheses. *)
Example C51_user_example : exists g, to_matching_graph 4 5 B_ex bnd_ex = Ok g /\
  match decode_h (adj g) 200 cyclic_ints (neg_info_of 4 g (map B_ex (seq 0 5))) init_state empty_heap [1; 3]%nat with Ok (_, _, (o, w, _)) => o = 5%N /\ w = 10 | _ => False end.
Proof. eexists. split; [vm_compute; reflexivity|]. vm_compute. auto. Qed.
