(** Specification of decoding a user graph with real weights. *)
From Coq Require Import Reals NArith List Bool Arith Permutation.
From Verif Require Import M_UserGraph M_Merge S_Spread.
Import ListNotations.
Local Open Scope nat_scope.

(** Number of ends of an edge at a node; a self-loop has two, the virtual boundary none. *)
Definition edge_ends (v : nat) (e : uedge RN) : nat :=
  (if node1 e =? v then 1 else 0) + match node2 e with Some x => if x =? v then 1 else 0 | None => 0 end.
Definition total_degree (v : nat) (F : list (uedge RN)) : nat := fold_right (fun e n => edge_ends v e + n) 0 F.
Definition total_weight (F : list (uedge RN)) : R := fold_right (fun (e : uedge RN) x => (weight e + x)%R) 0%R F.
(** Whether observable [k] is flipped by [F]. *)
Definition flips_observable (k : nat) (F : list (uedge RN)) : bool :=
  fold_right (fun e b => xorb (Nat.odd (count_occ Nat.eq_dec (obs e) k)) b) false F.

(** A correction is a set of edges.  It explains the detection events if the nodes that are not declared boundary nodes and have odd
    degree are those of the detection events. *)
Definition corrects (g : ugraph RN) (F : list (uedge RN)) (evs : list nat) : Prop :=
  NoDup F /\ incl F (edges g) /\ forall v, ~ In v (bnodes g) -> (Nat.odd (total_degree v F) = true <-> In v evs).

(** The boundary: the virtual one or a declared boundary node. *)
Definition at_boundary (g : ugraph RN) (x : option nat) : Prop := match x with None => True | Some v => In v (bnodes g) end.
(** An edge from [u], not a boundary node, to the boundary. *)
Definition boundary_edge_of (g : ugraph RN) (u : nat) (e : uedge RN) : Prop :=
  ~ In u (bnodes g) /\ ((node1 e = u /\ at_boundary g (node2 e)) \/ (node2 e = Some u /\ In (node1 e) (bnodes g))).
(** The conversion to a matching graph loses nothing of value: edges within the boundary have no negative weight, and no two
    edges from the same node to the boundary are worth using together.  True if no weight is negative, and true if no
    boundary nodes are declared. *)
Definition conversion_harmless (g : ugraph RN) : Prop :=
  (forall e, In e (edges g) -> In (node1 e) (bnodes g) -> at_boundary g (node2 e) -> (0 <= weight e)%R) /\
  forall e f u, In e (edges g) -> In f (edges g) -> e <> f -> boundary_edge_of g u e -> boundary_edge_of g u f -> (0 <= weight e + weight f)%R.

(** Half the distance between two representable weights, if no weight exceeds [M] in absolute value, and a millionth more for the
    rounding of doubles. *)
Definition half_step (M : R) : R := (M / IZR (2 * (2 ^ 24 - 1)) * (1 + / IZR (2 ^ 20)))%R.
(** The weights can be scaled: they are zero, or not all minute (2^-999 is about 10^-301). *)
Definition scalable (g : ugraph RN) : Prop :=
  (forall e, In e (edges g) -> weight e = 0%R) \/ exists e, In e (edges g) /\ (/ IZR (2 ^ 999) <= Rabs (weight e))%R.

(** The reported weight [w] is that of [F], up to half a step for every edge, and exactly if all weights are integers (and the
    sum is not so large that a double cannot represent it). *)
Definition weight_reported (g : ugraph RN) (w : R) (F : list (uedge RN)) : Prop :=
  (forall M, (forall e, In e (edges g) -> Rabs (weight e) <= M)%R -> Rabs (w - total_weight F) <= INR (length F) * half_step M)%R /\
  ((forall e, In e (edges g) -> exists z, weight e = IZR z) -> (Rabs (total_weight F) <= IZR (2 ^ 52))%R -> w = total_weight F).
(** No correction is lighter than [F], up to half a step for every edge of the two, and exactly if all weights are integers. *)
Definition near_best (g : ugraph RN) (F : list (uedge RN)) (evs : list nat) : Prop :=
  forall F', corrects g F' evs ->
    (forall M, (forall e, In e (edges g) -> Rabs (weight e) <= M)%R -> total_weight F <= total_weight F' + INR (length F + length F') * half_step M)%R /\
    ((forall e, In e (edges g) -> exists z, weight e = IZR z) -> total_weight F <= total_weight F')%R.
(** The pairs in [out] are the edges of [F], each once, in either orientation, with declared boundary nodes shown as the virtual
    boundary. *)
Definition shows (g : ugraph RN) (p : nat * option nat) (e : uedge RN) : Prop :=
  match snd p with
  | Some v => ~ In (fst p) (bnodes g) /\ ~ In v (bnodes g) /\ ((node1 e = fst p /\ node2 e = Some v) \/ (node1 e = v /\ node2 e = Some (fst p)))
  | None => boundary_edge_of g (fst p) e
  end.
Definition shows_edges (g : ugraph RN) (out : list (nat * option nat)) (F : list (uedge RN)) : Prop :=
  exists L, Permutation L F /\ Forall2 (shows g) out L.

(** What 32 bits allow: at most 64 edges, or integer weights of absolute values that sum to at most 2^29, ... *)
Definition integer_weights (g : ugraph RN) : Prop := forall e, In e (edges g) -> exists z, weight e = IZR z.
Definition absolute_weight (F : list (uedge RN)) : R := fold_right (fun (e : uedge RN) x => (Rabs (weight e) + x)%R) 0%R F.
Definition not_large (g : ugraph RN) (F : list (uedge RN)) : Prop := length F <= 64 \/ (integer_weights g /\ (absolute_weight F <= 2 ^ 29)%R).
(** ... these edges being those of [F] and all that have a negative weight, ... *)
Definition light_with_negatives (g : ugraph RN) (F : list (uedge RN)) : Prop :=
  exists N, (forall e, In e (edges g) -> (weight e < 0)%R -> In e N) /\ not_large g (F ++ N).
(** ... or, whatever the correction, those on the way from any node to any other that can be reached from it, or to the boundary. *)
Definition compact (g : ugraph RN) : Prop :=
  few_steps (fun p => exists e, In e (edges g) /\ shows g p e) \/
  (integer_weights g /\ close (fun p c => exists e, In e (edges g) /\ shows g p e /\ c = Rabs (weight e)) (2 ^ 29)).
Definition manageable (g : ugraph RN) (F : list (uedge RN)) : Prop := light_with_negatives g F \/ compact g.
