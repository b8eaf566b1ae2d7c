(** Specification for C51: a decoder with nothing left in its queue. *)
From Coq Require Import ZArith List.
From Verif Require Import M_Base M_RadixHeap M_Tracker M_Core M_CoreHeap.
Import ListNotations.

(** Every bucket is empty, the heap knows it, and no node or region believes to have an entry in the queue.  The
    current time of the heap is arbitrary: decoding sets it to 0 first. *)
Record drained (s : state) (h : heap) : Prop := {
  drained_buckets : forall b, buckets h b = [];
  drained_count : num_enqueued h = 0%Z;
  drained_nodes : forall v, has_queued (ntr (sc s) v) = false;
  drained_regions : forall r, has_queued (rtr (sc s) r) = false }.
