(** Model of QueuedEventTracker (tracker/queued_event_tracker.h).
    The comparison of times is a parameter: [cyc_gt 32] gives the code as it is (cyclic 32-bit
    times); [Z.gtb] gives the same code over unbounded times (used by the flooder model, where the
    queue is abstract).  The calls queue.enqueue(ev) are returned as the list of enqueued times. *)
From Coq Require Import ZArith List Bool.
Import ListNotations.
Open Scope Z_scope.

(** queued_event_tracker.h:29-33 *)
Record tracker := mkT { desired_time : Z; queued_time : Z; has_desired : bool; has_queued : bool }.

(** queued_event_tracker.h:36-41 clear (also the initial state). *)
Definition tracker_clear : tracker := mkT 0 0 false false.

Section Gt.
Variable gt : Z -> Z -> bool.

(** queued_event_tracker.h:45-54 set_desired_event *)
Definition set_desired (tr : tracker) (t : Z) : tracker * list Z :=
  if negb (has_queued tr) || gt (queued_time tr) t
  then (mkT t t true true, [t])
  else (mkT t (queued_time tr) true (has_queued tr), []).

(** queued_event_tracker.h:57-59 set_no_desired_event *)
Definition set_no_desired (tr : tracker) : tracker :=
  mkT (desired_time tr) (queued_time tr) false (has_queued tr).

(** queued_event_tracker.h:67-93 dequeue_decision: (keep?, tracker, enqueued times) *)
Definition dequeue_decision (tr : tracker) (t : Z) : bool * tracker * list Z :=
  if negb (has_queued tr) || negb (t =? queued_time tr) then (false, tr, [])
  else if negb (has_desired tr) then (false, mkT (desired_time tr) (queued_time tr) false false, [])
  else if negb (t =? desired_time tr)
       then (false, mkT (desired_time tr) (desired_time tr) true true, [desired_time tr])
       else (true, mkT (desired_time tr) (queued_time tr) false false, []).
End Gt.
