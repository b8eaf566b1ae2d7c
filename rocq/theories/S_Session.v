(** A decoder at rest. *)
From Coq Require Import ZArith NArith List Arith Permutation.
From Verif Require Import M_Tracker M_Core.
Import ListNotations.
Local Open Scope nat_scope.

(** No queue entry, every node of the graph unoccupied and not waiting, no region or tree node in use (the
    arenas hand out slots below [next]; [free] are those given back: here all of them, each once). *)
Record idle (G : graph) (s : state) : Prop := mkIdle {
  idle_queue : que (sc s) = [];
  idle_nodes : forall v, v < length G ->
    arr (nd s) v = None /\ top (nd s) v = None /\ wrp (nd s) v = 0%Z /\ src (nd s) v = None /\
    crs (nd s) v = 0%N /\ rar (nd s) v = 0%Z /\
    has_desired (ntr (sc s) v) = false /\ has_queued (ntr (sc s) v) = false;
  idle_regions : Permutation (free (ra s)) (seq 0 (next (ra s)));
  idle_trees : Permutation (free (ta s)) (seq 0 (next (ta s))) }.

(** The longest weight the interface accepts: 2 * (2^24 - 1). *)
Definition max_weight : Z := 33554430.
