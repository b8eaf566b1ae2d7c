(** Specification of decoding to a list of edges. *)
From Coq Require Import ZArith NArith List Bool Arith Permutation.
From Verif Require Import M_Core M_Build S_Build S_Flip.
Import ListNotations.
Local Open Scope nat_scope.

(** The ends of an edge as given by the caller. *)
Definition s_pair (e : sedge) : nat * option nat := let '(u, x, _, _) := e in (u, x).
(** [out] lists the edges [F], each once, in some order and each in either orientation. *)
Definition lists_edges (out : list (nat * option nat)) (F : list sedge) : Prop :=
  exists L, Permutation L F /\ Forall2 (fun p e => same_edge p (s_pair e) = true) out L.
(** Self-loops of negative weight. *)
Definition negative_loop (e : sedge) : Prop := let '(u, x, w, _) := e in x = Some u /\ (w < 0)%Z.
(** FLIPPED is not set anywhere. *)
Definition unmarked (G : graph) (M : nat -> nat -> N) : Prop := forall u i, nth_error (nbrs G u) i <> None -> N.testbit (M u i) 0 = false.
