(** Model of the two const functions of the event queue that look at all events: satisfies_invariants and to_vector
    (tracker/radix_heap_queue.h:109-118 and 166-180).  The first part of to_vector is in M_RadixHeap.v.

    Simplification: std::sort may put events of equal times in any order; here it is insertion. *)
From Coq Require Import ZArith List Bool.
From Verif Require Import M_Base M_Cyclic M_RadixHeap.
Import ListNotations.
Open Scope Z_scope.

Section QueueList.
Variables (w : Z) (D : Type).
(** radix_heap_queue.h:175-177: std::sort by the operator < of cyclic times *)
Fixpoint insert (e : event D) (l : list (event D)) : list (event D) :=
  match l with [] => [e] | x :: l' => if cyc_lt w (ev_time x) (ev_time e) then x :: insert e l' else e :: l end.
Definition sort (l : list (event D)) : list (event D) := fold_right insert [] l.
(** radix_heap_queue.h:170-180 *)
Definition to_vector (q : queue D) : list (event D) := sort (to_vector_unsorted w D q).
(** radix_heap_queue.h:109-118: the last bucket is not looked at *)
Definition satisfies_invariants (q : queue D) : bool :=
  forallb (fun b => forallb (fun e => Nat.eqb (bucket_for w (cur_time q) (ev_time e)) b) (buckets q b)) (seq 0 (Z.to_nat w)).
End QueueList.
