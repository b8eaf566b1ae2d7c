(** Specification of calls made to the decoder of a user graph. *)
From Coq Require Import Reals NArith List Bool Arith.
From Verif Require Import M_Core S_Core M_CoreHeap S_CoreHeap M_Build M_Flip S_Flip M_Search S_Search S_SearchHeap M_ToEdges S_ToEdges M_Pipeline M_PipelineHeap S_Session M_UserGraph M_Merge S_Pipeline.
Import ListNotations.
Local Open Scope nat_scope.

(** A decoder that is not in the middle of decoding: both flooders as when they were new, both heaps empty, no edge marked as flipped. *)
Record ready (d : decoder) (r : running) : Prop := {
  rd_idle : idle (adj (d_graph d)) (r_state r);
  rd_drained : drained (r_state r) (r_heap r);
  rd_search : search_idle (r_search r);
  rd_rested : rested (r_sheap r);
  rd_marks : forall sg, d_search d = Some sg -> unmarked (sadj sg) (r_marks r) }.

Definition events (c : call) : list nat := match c with Decode evs => evs | DecodeToEdges evs => evs end.
(** Distinct detection events on nodes of the graph, which some small set of edges explains. *)
Definition answerable_call (g : ugraph RN) (c : call) : Prop :=
  NoDup (events c) /\ (forall v, In v (events c) -> v < num_nodes g) /\ exists F, corrects g F (events c) /\ manageable g F.
(** The reply that the call asks for. *)
Definition right_reply (g : ugraph RN) (c : call) (r : reply) : Prop :=
  match c, r with
  | Decode evs, Answer o w => exists F, o = map (fun i => flips_observable i F) (seq 0 (nobs g)) /\ corrects g F evs /\ near_best g F evs /\ weight_reported g w F
  | DecodeToEdges evs, Edges out => exists F, shows_edges g out F /\ corrects g F evs /\ near_best g F evs
  | _, _ => False
  end.
