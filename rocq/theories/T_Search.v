(** C10: the bidirectional search finds a shortest path.

    [orc] is any order in which the queue may deliver events of equal time; integers are exact.  [fuel] bounds the
    loops: any bound above [k] gives the same result, so the search ends. *)
From Coq Require Import ZArith NArith List Bool Arith Lia Permutation.
From Verif Require Import M_Base M_Core S_Core M_Search S_Search P_WfCheck P_CoreGeo P_Search3.
Import ListNotations.
Local Open Scope nat_scope.

(** iter_edges_on_shortest_path_from_middle reports the edges of a path from [a] to [b], each as often as the path
    uses it, and no path is shorter; iter_edges_on_shortest_path_from_source reports such a path in order.  Both
    leave the search at rest. *)
Theorem C10_search_finds_shortest_path : forall G orc s a b,
  wf_graph G -> valid_query G a b -> search_idle s -> connected G a b ->
  exists k s' cells p,
    (forall fuel, k <= fuel -> path_from_middle G fuel orc exact_ints s a b = Ok (s', cells) /\
                               path_from_source G fuel orc exact_ints s a b = Ok (s', p)) /\
    search_idle s' /\ leads G a p b /\ Forall (is_cell G) cells /\ Permutation (edges_at G cells) (edges_at G p) /\
    forall w o, path G a b w o -> (weight_of (edges_at G cells) <= w)%Z.
Proof. exact (fun G orc s a b WF V HI C => query_spec G WF orc exact_ints (exact_wfine G) a b V s HI C). Qed.
Print Assumptions C10_search_finds_shortest_path.

(** A path between unconnected ends: the collision edge is null and is dereferenced. *)
Theorem C10_unconnected_is_undefined : forall G orc s a b,
  wf_graph G -> valid_query G a b -> search_idle s -> ~ connected G a b ->
  exists k, forall fuel, k <= fuel -> path_from_middle G fuel orc exact_ints s a b = UB /\ path_from_source G fuel orc exact_ints s a b = UB.
Proof. exact (fun G orc s a b WF V HI C => query_unreachable G WF orc exact_ints (exact_wfine G) a b V s HI C). Qed.
Print Assumptions C10_unconnected_is_undefined.

(** The cells of [leads] are a path in the sense of the specification of decoding. *)
Theorem C10_reported_path_is_a_path : forall G a p b, leads G a p b -> path G a b (weight_of (edges_at G p)) (obs_of (edges_at G p)).
Proof. exact (fun G a p b => leads_path G p a b). Qed.
Print Assumptions C10_reported_path_is_a_path.

(** A square 0-1-2-3 with a shortcut over 4 and a boundary edge at 3; node 5 is alone. *)
Definition square : graph :=
  [[(Some 1, 4%Z, 1%N); (Some 3, 10%Z, 0%N); (Some 4, 2%Z, 2%N)];
   [(Some 0, 4%Z, 1%N); (Some 2, 4%Z, 0%N)];
   [(Some 1, 4%Z, 0%N); (Some 3, 2%Z, 4%N); (Some 4, 4%Z, 0%N)];
   [(None, 6%Z, 8%N); (Some 0, 10%Z, 0%N); (Some 2, 2%Z, 4%N)];
   [(Some 0, 2%Z, 2%N); (Some 2, 4%Z, 0%N)]; []].
Example square_wf : wf_graph square.
Proof. apply wf_check_sound. reflexivity. Qed.
Example idle_init : search_idle search_init.
Proof. constructor; cbn; auto. Qed.
(** From 0 to the boundary: over 4, 2 and 3. *)
Example C10_example : valid_query square 0 None /\ connected square 0 None /\ exists s1 s2,
  path_from_middle square 100 (fun _ => 0) exact_ints search_init 0 None = Ok (s1, [(3, 2); (2, 2); (4, 0); (3, 0)]) /\
  path_from_source square 100 (fun _ => 0) exact_ints search_init 0 None = Ok (s2, [(0, 2); (4, 1); (2, 1); (3, 0)]) /\
  weight_of (edges_at square [(3, 2); (2, 2); (4, 0); (3, 0)]) = 14%Z.
Proof.
  split; [split; [cbn; lia|exact I]|]. split; [eexists; eexists; apply (leads_path square [(0, 2); (4, 1); (2, 1); (3, 0)]); cbn; auto 10|].
  eexists. eexists. split; [vm_compute; reflexivity|]. split; vm_compute; reflexivity.
Qed.
Example C10_example_two_nodes : valid_query square 0 (Some 3) /\ connected square 0 (Some 3) /\ exists s1,
  path_from_source square 100 (fun _ => 1) exact_ints search_init 0 (Some 3) = Ok (s1, [(0, 2); (4, 1); (2, 1)]).
Proof.
  split; [split; cbn; lia|]. split; [eexists; eexists; apply (leads_path square [(0, 2); (4, 1); (2, 1)]); cbn; auto 10|].
  eexists. vm_compute. reflexivity.
Qed.
Example C10_example_unconnected : valid_query square 0 (Some 5) /\ ~ connected square 0 (Some 5) /\
  path_from_middle square 100 (fun _ => 0) exact_ints search_init 0 (Some 5) = UB.
Proof.
  split; [split; cbn; lia|]. split; [|vm_compute; reflexivity]. intros (w & o & H). unfold path in H. inversion H as [|v l o' x w' ob H1 H2]; subst.
  destruct v as [|[|[|[|[|[|v]]]]]]; cbn in H2; repeat (destruct H2 as [H2|H2]; [discriminate|]); try exact H2. unfold nbrs, square in H2. cbn in H2. destruct v; cbn in H2; exact H2.
Qed.
