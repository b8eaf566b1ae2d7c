(** Specification for C52: a queue at rest. *)
From Coq Require Import ZArith List.
From Verif Require Import M_RadixHeap M_Core M_CoreHeap.
Import ListNotations.

(** Every bucket is empty, the heap knows it, and the clock is at zero. *)
Definition rested (h : heap) : Prop := (forall b, buckets h b = []) /\ num_enqueued h = 0%Z /\ cur_time h = 0%Z.
