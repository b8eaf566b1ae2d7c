(** C65: the Python methods that make and inspect a graph behave as a table of edges. *)
From Coq Require Import Arith ZArith List Bool Lia Sorting.Sorted.
From Verif Require Import M_Base M_UserGraph M_GraphIO S_GraphMap M_PyGraph S_PyGraph P_PyGraph T_UserGraph.
Import ListNotations.
Local Open Scope nat_scope.

(** The replies to any calls are those of the table. *)
Theorem C65_session : forall (N : numops) (cap n k : nat) (cs : list (pycall N)), n <= cap -> Forall (plain cap) cs ->
  right_replies cap (mkT n [] [] k) cs (snd (pyrun cap (new_graph N n k) cs)).
Proof. exact @session_right. Qed.
Print Assumptions C65_session.

(** The table determines the replies. *)
Theorem C65_spec_is_exact : forall (N : numops) (cap : nat) (cs : list (pycall N)) (t : table N) (rs1 rs2 : list (pyreply N)),
  right_replies cap t cs rs1 -> right_replies cap t cs rs2 -> rs1 = rs2.
Proof. exact @replies_once. Qed.
Print Assumptions C65_spec_is_exact.

(** A call that raises an exception changes nothing. *)
Theorem C65_raised_changes_nothing : forall (N : numops) (cap n k : nat) (cs : list (pycall N)) (c : pycall N), n <= cap -> Forall (plain cap) cs -> plain cap c ->
  let g := fst (pyrun cap (new_graph N n k) cs) in
  snd (pystep cap g c) = Raised -> fst (pystep cap g c) = g.
Proof. exact @session_raised. Qed.
Print Assumptions C65_raised_changes_nothing.

(** An edge that was added is read back, from either end. *)
Theorem C65_read_back : forall (N : numops) (cap n k : nat) (cs : list (pycall N)) (u v : nat) (l : list Z) (o : list nat) (w p : num N) (s : strategy),
  n <= cap -> Forall (plain cap) cs -> let g := fst (pyrun cap (new_graph N n k) cs) in
  below (2 ^ 63) [u; v] -> u < cap -> v < cap ->
  snd (pystep cap g (HasEdge (Z.of_nat u) (Z.of_nat v))) = Truth false ->
  same_set l o -> below (2 ^ 64) o -> w_exceeds N w = false ->
  snd (pyrun cap g [AddEdge (Z.of_nat u) (Z.of_nat v) (Some (IdSet l)) None w (Some p) (Some s);
                    GetEdgeData (Z.of_nat u) (Z.of_nat v); GetEdgeData (Z.of_nat v) (Z.of_nat u)]) = [Done; Data o w p; Data o w p].
Proof. exact @read_back. Qed.
Print Assumptions C65_read_back.

(** add_boundary_edge takes no notice of its deprecated argument qubit_id. *)
Theorem C65_boundary_qubit_id_ignored : forall (N : numops) (cap : nat) (g : ugraph N) u i q w p s,
  pystep cap g (AddBoundaryEdge u i (Some q) w p s) = pystep cap g (AddBoundaryEdge u i None w p s).
Proof. reflexivity. Qed.
Print Assumptions C65_boundary_qubit_id_ignored.

(** Without [plain]: node 2^64-1 is taken for the virtual boundary; *)
Theorem C65_reserved_node_refuted : forall (N : numops) (cap : nat) (w p : num N), 1 <= cap -> w_exceeds N w = false ->
  snd (pyrun cap (new_graph N 0 0) [AddBoundaryEdge 0 None None w (Some p) (Some DISALLOW); HasEdge 0 (2 ^ 64 - 1)]) = [Done; Truth true].
Proof. exact @reserved_node. Qed.
Print Assumptions C65_reserved_node_refuted.

(** as a boundary node it is undefined behaviour; *)
Theorem C65_largest_boundary_refuted : forall (N : numops) (cap n k : nat), (Z.of_nat cap <= 2 ^ 64 - 1)%Z ->
  snd (pyrun cap (new_graph N n k) [SetBoundaryNodes (IdSet [(2 ^ 64 - 1)%Z])]) = [Undefined].
Proof. exact @largest_boundary. Qed.
Print Assumptions C65_largest_boundary_refuted.

(** and a boundary node that there is no memory for raises an exception, yet is in the boundary afterwards, and the next call of set_boundary_nodes is undefined behaviour. *)
Theorem C65_memory_refuted : forall (N : numops) (cap n k : nat), n <= cap -> (Z.of_nat cap < 2 ^ 64 - 1)%Z ->
  exists g, pyrun cap (new_graph N n k) [SetBoundaryNodes (IdSet [Z.of_nat cap])] = (g, [Raised]) /\
    snd (pyrun cap g [NumNodes; Boundary; SetBoundaryNodes (IdSet [])]) = [Count n; Nodes [cap]; Undefined].
Proof. exact @out_of_memory. Qed.
Print Assumptions C65_memory_refuted.

Definition AddE (u v : Z) (i : option ids) (q : option (option ids)) (w : Z) (p : option Z) (s : option strategy) : pycall ZN := @AddEdge ZN u v i q w p s.
Definition AddB (u : Z) (i : option ids) (q : option (option ids)) (w : Z) (p : option Z) (s : option strategy) : pycall ZN := @AddBoundaryEdge ZN u i q w p s.
(** A session with merges, refusals, isolated nodes and a boundary, in memory for ten nodes. *)
Definition ex_session : list (pycall ZN) :=
  [ AddE 0 1 (Some (IdSet [3; 1; 3]%Z)) None 2 (Some 1%Z) (Some DISALLOW);
    AddE 1 0 None (Some (Some (IdInt 5%Z))) 7%Z None (Some DISALLOW);
    AddE 1 0 (Some (IdInt 9%Z)) None 7%Z None (Some REPLACE);
    AddE 1 2 (Some (IdInt (-1)%Z)) (Some None) 7%Z None (Some REPLACE);
    AddB 2 None (Some (Some (IdInt 4%Z))) 3%Z (Some 1%Z) (Some INDEPENDENT);
    AddE 0 12 None None 1%Z None (Some DISALLOW);
    AddE (-1) 2 None None 1%Z None (Some DISALLOW);
    AddE 3 3 None None 1%Z None None;
    SetBoundaryNodes (IdSet [5; 4]%Z);
    SetBoundaryNodes (IdSet [5; -4]%Z);
    EnsureNumFaultIds 3;
    HasEdge 1 0; HasEdge 0 2; HasBoundaryEdge 2; GetEdgeData 0 1; GetEdgeData 0 2; GetBoundaryEdgeData 2;
    Edges; Boundary; NumNodes; NumEdges; NumDetectors; NumFaultIds ].
Lemma ex_plain : Forall (plain 10) ex_session.
Proof. unfold ex_session, AddE, AddB. repeat (apply Forall_cons; [cbn [plain names In]; change (Z.of_nat 10) with 10%Z; intuition (try lia; try discriminate)|]). constructor. Qed.
Example C65_session_example : Forall (plain 10) ex_session /\ snd (pyrun 10 (new_graph ZN 0 0) ex_session) =
  [Done; Raised; Done; Raised; Done; Raised; Raised; Raised; Done; Raised; Done; Truth true; Truth false; Truth true; @Data ZN [9] 7%Z (-1)%Z; Raised; @Data ZN [] 3%Z 1%Z;
   @EdgeList ZN [(0, Some 1, ([9], 7%Z, (-1)%Z)); (2, None, ([], 3%Z, 1%Z))]; Nodes [4; 5]; Count 6; Count 2; Count 4; Count 4].
Proof. split; [exact ex_plain|vm_compute; reflexivity]. Qed.
(** Another reply is not right. *)
Example C65_spec_example : forall rs : list (pyreply ZN), right_replies 10 (mkT 0 [] [] 0) ex_session rs -> nth 15 rs Done = Raised /\ nth 22 rs Done = Count 4.
Proof.
  intros rs H. rewrite (C65_spec_is_exact ZN 10 ex_session _ rs _ H (C65_session ZN 10 0 0 ex_session (Nat.le_0_l _) ex_plain)). vm_compute. split; reflexivity.
Qed.
Example C65_raised_example : let g := fst (pyrun 10 (new_graph ZN 0 0) ex_session) in
  plain 10 (AddE 0 1 None None 1 None (Some DISALLOW)) /\ snd (pystep 10 g (AddE 0 1 None None 1 None (Some DISALLOW))) = Raised /\ num_edges g = 2.
Proof. split; [cbn; intuition|vm_compute; split; reflexivity]. Qed.
Example C65_read_back_example : let g := fst (pyrun 10 (new_graph ZN 0 0) ex_session) in
  below (2 ^ 63) [3; 0] /\ snd (pystep 10 g (HasEdge 3 0)) = Truth false /\ same_set [7; 2; 7]%Z [2; 7] /\ below (2 ^ 64) [2; 7] /\ w_exceeds ZN 5%Z = false /\
  snd (pyrun 10 g [AddE 3 0 (Some (IdSet [7; 2; 7]%Z)) None 5 (Some 1%Z) (Some KEEP_ORIGINAL); GetEdgeData 0 3]) = [Done; @Data ZN [2; 7] 5%Z 1%Z].
Proof.
  split; [intros k [<-|[<-|[]]]; reflexivity|]. split; [vm_compute; reflexivity|]. split.
  - split; [repeat constructor|]. intros z. split; [intros [<-|[<-|[<-|[]]]]; [exists 7|exists 2|exists 7]; (split; [cbn; auto|reflexivity])|]. intros (k & [<-|[<-|[]]] & ->); cbn; auto.
  - split; [intros k [<-|[<-|[]]]; reflexivity|]. split; [reflexivity|vm_compute; reflexivity].
Qed.
Example C65_refuted_example : Z.of_nat 10 = 10%Z /\ snd (pyrun 10 (new_graph ZN 3 0) [SetBoundaryNodes (IdSet [2; 11]%Z); Boundary; SetBoundaryNodes (IdSet [2]%Z)]) = [Raised; Nodes [2; 11]; Undefined].
Proof. vm_compute. split; reflexivity. Qed.
