(** C52: a decoder and its search as the code runs them: radix heaps and 32-bit times throughout, over any series of calls.

    The shortest-path search has a radix heap of its own.  On it, as on the abstract queue (C10), a query ends and gives a
    path that no other beats, and leaves the search and its heap as they were (T_SearchHeap.v).  Put together with the matching flooder on its
    heap (C51) and the conversion of the user's graph (C49): a new decoder answers every call of a series of decode and
    decode_to_edges_array calls correctly, whatever came before, up to the rounding of the weights.

    Assumed as in C49: all fault ids are below num_fault_ids, negative weights do not involve edges that the conversion
    drops; and that each syndrome has a correction of at most 64 edges, counting every edge of negative weight, so that
    weights and times fit in 32 bits (C42, C51). *)
From Coq Require Import Reals ZArith NArith List Bool Arith Lia Lra Permutation.
From Verif Require Import M_Base M_Cyclic M_RadixHeap M_Core M_CoreHeap S_Core S_Session S_CoreHeap M_Build S_Build M_Flip S_Flip M_Search S_Search M_ToEdges S_ToEdges
  M_SearchHeap S_SearchHeap M_Discretise M_Merge M_Pipeline M_PipelineHeap M_UserGraph S_UserGraph S_Pipeline S_PipelineHeap P_Session P_Pipeline3 P_PipelineHeap T_Pipeline.
Import ListNotations.
Local Open Scope nat_scope.

(** A new decoder is ready. *)
Theorem C52_new_decoder : forall n k (ops : list (op RN)) ensure_search_graph d,
  let g := run (new_graph RN n k) ops in
  fault_ids_in_range g -> build_decoder g ensure_search_graph = Ok d -> ready d (run_init d).
Proof. exact (fun n k ops ens d IDS HD => new_ready n k ops IDS ens d HD). Qed.
Print Assumptions C52_new_decoder.

(** Observables and weight. *)
Theorem C52_decode : forall n k (ops : list (op RN)) ensure_search_graph d r evs F,
  let g := run (new_graph RN n k) ops in
  fault_ids_in_range g -> build_decoder g ensure_search_graph = Ok d -> conversion_harmless g ->
  ready d r -> NoDup evs -> (forall v, In v evs -> v < num_nodes g) -> corrects g F evs -> manageable g F ->
  exists K r' o w, (forall fuel, K <= fuel -> py_decode_h d fuel cyclic_ints r evs = Ok (r', (o, w))) /\ ready d r' /\
    exists F, o = map (fun i => flips_observable i F) (seq 0 (nobs g)) /\ corrects g F evs /\ near_best g F evs /\ weight_reported g w F.
Proof. exact (fun n k ops ens d r evs F IDS HD HARM RD ND IR => heap_calls_decode n k ops IDS ens d HD HARM r evs RD ND IR F). Qed.
Print Assumptions C52_decode.

(** Solution edges. *)
Theorem C52_decode_to_edges : forall n k (ops : list (op RN)) d r evs F,
  let g := run (new_graph RN n k) ops in
  fault_ids_in_range g -> build_decoder g true = Ok d -> conversion_harmless g ->
  (forall e, In e (edges g) -> node2 e = Some (node1 e) -> (0 <= weight e)%R) ->
  ready d r -> NoDup evs -> (forall v, In v evs -> v < num_nodes g) -> corrects g F evs -> manageable g F ->
  exists K r' out, (forall fuel, K <= fuel -> py_decode_to_edges_h d fuel cyclic_ints r evs = Ok (r', out)) /\ ready d r' /\
    exists F, shows_edges g out F /\ corrects g F evs /\ near_best g F evs.
Proof. exact (fun n k ops d r evs F IDS HD HARM NL RD ND IR HF HS => heap_calls_edges n k ops IDS true d HD HARM r evs RD ND IR F HF HS NL eq_refl). Qed.
Print Assumptions C52_decode_to_edges.

(** Any series of calls. *)
Theorem C52_session : forall n k (ops : list (op RN)) d r cs,
  let g := run (new_graph RN n k) ops in
  fault_ids_in_range g -> build_decoder g true = Ok d -> conversion_harmless g ->
  (forall e, In e (edges g) -> node2 e = Some (node1 e) -> (0 <= weight e)%R) ->
  ready d r -> Forall (answerable_call g) cs ->
  exists K r' rs, (forall fuel, K <= fuel -> calls_h d fuel cyclic_ints r cs = Ok (r', rs)) /\ ready d r' /\ Forall2 (right_reply g) cs rs.
Proof. exact (fun n k ops d r cs IDS HD HARM NL RD => heap_calls_session n k ops IDS true d HD HARM NL eq_refl cs r RD). Qed.
Print Assumptions C52_session.

(** ** Cases that meet the hypotheses *)
(** The graph of C49_example, and a series of three calls. *)
Example C52_session_example : let g := run (new_graph RN 2 0) ex_ops in
  let cs := [Decode [0]; DecodeToEdges [0]; Decode []] in
  fault_ids_in_range g /\ conversion_harmless g /\ (forall e, In e (edges g) -> node2 e = Some (node1 e) -> (0 <= weight e)%R) /\ Forall (answerable_call g) cs /\
  exists d, build_decoder g true = Ok d /\ ready d (run_init d).
Proof.
  destruct C49_example as (Q1 & Q2 & Q3 & Q4 & H1 & HSC & H2 & H3 & H4 & H5). cbv zeta. set (g := run (new_graph RN 2 0) ex_ops) in *.
  split; [assumption|]. split; [assumption|]. split; [assumption|]. split.
  - assert (A : answerable_call g (Decode [0])).
    { split; [repeat constructor; intros []|]. split; [intros v Hv; rewrite Q3; cbn [events] in Hv; destruct Hv as [<-|[]]; lia|]. exists [ex_e1; ex_e2]. split; assumption. }
    constructor; [exact A|]. constructor; [exact A|]. constructor; [|constructor].
    split; [constructor|]. split; [intros v []|]. exists []. split.
    + split; [constructor|]. split; [intros e []|]. intros v _. cbn. split; [discriminate|intros []].
    + left. exists [ex_e2]. split; [|left; cbn; lia]. intros e He Hw. rewrite Q1 in He. destruct He as [<-|[<-|[<-|[]]]]; cbn in Hw |- *; auto; exfalso; lra.
  - destruct (calls_build 2 0 ex_ops H1 HSC true) as (d & HD & _). exists d. split; [exact HD|]. exact (C52_new_decoder 2 0 ex_ops true d H1 HD).
Qed.
