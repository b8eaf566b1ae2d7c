(** C74: the functions that look at the decoder's data (order, equality and radii of regions, walks over alternating trees). *)
From Coq Require Import ZArith NArith List Bool Arith Lia.
From Verif Require Import M_Base M_Varying M_Core M_Session S_Core S_Tree S_Session S_Decode P_Decode T_Core M_Inspect S_Inspect P_Inspect.
Import ListNotations.
Local Open Scope nat_scope.

(** In every state between two events the operators <=, <, > and >= of regions end and say which region lies in which. *)
Theorem C74_region_order : forall G I s evs s',
  wf_graph G -> idle G s -> valid_events G evs -> valid_events G (neg_events I) -> reached G exact_ints I s evs s' ->
  exists K, forall fuel a b, K <= fuel -> in_use (ra s') a -> in_use (ra s') b ->
  (exists x, region_le fuel s' a b = Ok x /\ (x = true <-> inside (rg s') a b)) /\
  (exists x, region_lt fuel s' a b = Ok x /\ (x = true <-> around (rg s') b a)) /\
  (exists x, region_gt fuel s' a b = Ok x /\ (x = true <-> around (rg s') a b)) /\
  (exists x, region_ge fuel s' a b = Ok x /\ (x = true <-> inside (rg s') b a)).
Proof. exact order_right. Qed.
Print Assumptions C74_region_order.

(** Regions, and nodes of alternating trees, that look alike to the operators == are the same object. *)
Theorem C74_equal_means_same : forall G I s evs s',
  wf_graph G -> idle G s -> valid_events G evs -> valid_events G (neg_events I) -> reached G exact_ints I s evs s' ->
  exists K, forall fuel, K <= fuel ->
  (forall a b, in_use (ra s') a -> in_use (ra s') b -> region_equal fuel s' a b = Ok (a =? b)) /\
  (forall a b, in_use (ta s') a -> in_use (ta s') b -> tree_equal fuel s' a b = Ok (a =? b)).
Proof. exact equality_right. Qed.
Print Assumptions C74_equal_means_same.

(** The radius of a node bounded by a region B, at any time: none if the node was reached by a blossom around B only; else the radii of the
    regions the node lies in that are not around B, less the radius at which it was reached.  Bounded by the outermost region this is the local radius
    that the decoder works with. *)
Theorem C74_bounded_radius : forall G I s evs s',
  wf_graph G -> idle G s -> valid_events G evs -> valid_events G (neg_events I) -> reached G exact_ints I s evs s' ->
  exists K, forall fuel v time B, K <= fuel -> v < length G -> in_use (ra s') B ->
  match arr (nd s') v with
  | None => bounded_radius fuel s' v time B = Ok 0%Z
  | Some R =>
      (around (rg s') R B -> bounded_radius fuel s' v time B = Ok 0%Z) /\
      (~ around (rg s') R B -> forall l, NoDup l -> (forall C, In C l <-> inside (rg s') R C /\ ~ around (rg s') C B) ->
         bounded_radius fuel s' v time B = Ok (total_radius (rg s') time l - rar (nd s') v)%Z)
  end /\
  (top (nd s') v = Some B -> bounded_radius fuel s' v time B = Ok (get_distance_at_time (local_radius s' v) time)).
Proof. exact radius_right. Qed.
Print Assumptions C74_bounded_radius.

(** find_root ends at the root of the tree; all_nodes_in_tree lists every node below the given one, once. *)
Theorem C74_tree_walks : forall G I s evs s',
  wf_graph G -> idle G s -> valid_events G evs -> valid_events G (neg_events I) -> reached G exact_ints I s evs s' ->
  exists K, forall fuel a, K <= fuel -> in_use (ta s') a ->
  (exists r, find_root fuel s' a = Ok r /\ in_use (ta s') r /\ anc (tr s') a r /\ par (tr s') r = None) /\
  (exists l, all_nodes_in_tree fuel s' a = Ok l /\ NoDup l /\ forall d, In d l <-> in_use (ta s') d /\ anc (tr s') d a).
Proof. exact trees_right. Qed.
Print Assumptions C74_tree_walks.

(** ** Cases that meet the hypotheses *)
Definition state_after (G : graph) (evs : list nat) (n : nat) : state :=
  match add_events G exact_ints plain init_state evs with
  | Ok s => match after G 60 fifo n s with Ok s' => s' | _ => init_state end
  | _ => init_state end.
(** After three events regions 1, 2 and 3 are in blossom 4; region 0 is apart. *)
Example C74_blossom_example : let s := state_after kite [4; 0; 2; 1] 3 in
  reached kite exact_ints plain init_state [4; 0; 2; 1] s /\ (forall r, r < 5 -> in_use (ra s) r) /\
  region_le 20 s 1 4 = Ok true /\ region_le 20 s 4 1 = Ok false /\ region_lt 20 s 1 1 = Ok false /\ region_gt 20 s 4 3 = Ok true /\ region_ge 20 s 0 4 = Ok false /\
  region_equal 20 s 4 4 = Ok true /\ region_equal 20 s 1 3 = Ok false /\
  map (fun B => bounded_radius 20 s 0 7%Z B) (seq 0 5) = [Ok 7%Z; Ok 1%Z; Ok 1%Z; Ok 1%Z; Ok 7%Z] /\ bounded_radius 20 s 3 7%Z 4 = Ok 0%Z.
Proof.
  intros s. split; [|split; [|vm_compute; repeat split]].
  - pose (s1 := match add_events kite exact_ints plain init_state [4; 0; 2; 1] with Ok s => s | _ => init_state end).
    apply (after_reached kite 60 fifo plain init_state [4; 0; 2; 1] 3 s1 s); [apply events_added|]; vm_compute; reflexivity.
  - assert (E1 : next (ra s) = 5) by (vm_compute; reflexivity). assert (E2 : free (ra s) = []) by (vm_compute; reflexivity). clearbody s. intros r Hr. unfold in_use. rewrite E1, E2. split; [exact Hr|intros []].
Qed.
(** One event earlier node 1 hangs on node 2 of the same tree; node 0 is a tree of its own. *)
Example C74_tree_example : let s := state_after kite [4; 0; 2; 1] 2 in
  reached kite exact_ints plain init_state [4; 0; 2; 1] s /\ (forall a, a < 3 -> in_use (ta s) a) /\
  find_root 20 s 1 = Ok 2 /\ find_root 20 s 0 = Ok 0 /\ all_nodes_in_tree 20 s 2 = Ok [2; 1] /\ all_nodes_in_tree 20 s 1 = Ok [1] /\
  tree_equal 20 s 2 2 = Ok true /\ tree_equal 20 s 2 1 = Ok false.
Proof.
  intros s. split; [|split; [|vm_compute; repeat split]].
  - pose (s1 := match add_events kite exact_ints plain init_state [4; 0; 2; 1] with Ok s => s | _ => init_state end).
    apply (after_reached kite 60 fifo plain init_state [4; 0; 2; 1] 2 s1 s); [apply events_added|]; vm_compute; reflexivity.
  - assert (E1 : next (ta s) = 4) by (vm_compute; reflexivity). assert (E2 : free (ta s) = [3]) by (vm_compute; reflexivity). clearbody s. intros a Ha. unfold in_use. rewrite E1, E2. split; [lia|]. intros [<-|[]]. lia.
Qed.
