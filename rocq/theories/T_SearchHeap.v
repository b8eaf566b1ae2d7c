(** C52, the shortest-path search on its radix heap with 32-bit times. *)
From Coq Require Import ZArith NArith List Bool Arith Lia Permutation.
From Verif Require Import M_Base M_Cyclic M_RadixHeap M_Core M_CoreHeap S_Core S_Session M_Build M_Flip M_Search S_Search M_ToEdges
  M_SearchHeap S_SearchHeap P_SearchHeap2 T_Search T_ToEdges.
Import ListNotations.
Local Open Scope nat_scope.

(** The search: it ends, the path leads from [a] to [b], no path is lighter, and another query can follow. *)
Theorem C52_search : forall G s h a b, wf_graph G -> (forall u x w o, In (x, w, o) (nbrs G u) -> (w <= max_weight)%Z) ->
  valid_query G a b -> search_idle s -> rested h -> connected G a b ->
  exists K s' h' cells p,
    (forall fuel, K <= fuel -> path_from_middle_h G fuel cyclic_ints s h a b = Ok (s', h', cells) /\ path_from_source_h G fuel cyclic_ints s h a b = Ok (s', h', p)) /\
    search_idle s' /\ rested h' /\ leads G a p b /\ Forall (is_cell G) cells /\ Permutation (edges_at G cells) (edges_at G p) /\
    forall w o, path G a b w o -> (weight_of (edges_at G cells) <= w)%Z.
Proof. exact heap_search. Qed.
Print Assumptions C52_search.

(** ** Cases that meet the hypotheses *)
(** [square] is in T_Search.v, as are the other hypotheses; the same path as on the abstract queue.  A second query follows on the same
    search and heap. *)
Example C52_search_example : rested empty_heap /\ (forall u x w o, In (x, w, o) (nbrs square u) -> (w <= max_weight)%Z) /\
  match path_from_middle_h square 100 cyclic_ints search_init empty_heap 0 None with
  | Ok (s1, h1, p1) => p1 = [(3, 2); (2, 2); (4, 0); (3, 0)] /\ num_enqueued h1 = 0%Z /\
      match path_from_source_h square 100 cyclic_ints s1 h1 0 None with Ok (_, _, p2) => p2 = [(0, 2); (4, 1); (2, 1); (3, 0)] | _ => False end
  | _ => False
  end.
Proof.
  split; [repeat split|]. split; [|vm_compute; repeat split].
  intros u x w o H. do 6 (destruct u as [|u]; [cbn in H; repeat (destruct H as [H|H]; [injection H as <- <- <-; unfold max_weight; lia|]); destruct H|]). destruct u; cbn in H; destruct H.
Qed.
(** [te_ex] (T_ToEdges.v) has negative weights: both flooders on their heaps. *)
Example C52_edges_example : exists g sg, build 71 4 te_ex = Ok g /\ sbuild 4 te_ex = Ok sg /\
  match decode_to_edges_h (adj g) (sadj sg) 200 cyclic_ints (neg_info_of 71 g []) (sneg sg) init_state empty_heap search_init empty_heap (marks_of sg) [0; 2] with
  | Ok (_, h, _, hq, _, out) => num_enqueued h = 0%Z /\ num_enqueued hq = 0%Z /\ out <> []
  | _ => False
  end.
Proof. do 2 eexists. split; [vm_compute; reflexivity|]. split; [vm_compute; reflexivity|]. vm_compute. repeat split. discriminate. Qed.
