(** C15, C16: the event queue is a monotone priority queue. *)
From Coq Require Import ZArith List Sorted.
From Verif Require Import M_Base M_Cyclic M_RadixHeap S_RadixHeap P_RadixHeap.
Import ListNotations.
Open Scope Z_scope.

(** For every sequence of operations in which every enqueued event is at the present or less than
    half a period in the future, the real queue (which sees only truncated times) never runs into
    undefined behaviour, and its results are those of an abstract priority queue with unbounded
    times: every dequeue returns a pending event of minimal time, removes exactly that event, and
    reports 'no event' exactly when none is pending; the reported size is the number pending. *)
Theorem C15_event_queue_is_priority_queue :
  forall (w : Z) (D : Type) (ops : list (op D)), 1 <= w ->
    contract w (2 ^ (w - 1)) (empty_queue D) ops ->
    exists outs q' s',
      exec w D (empty_queue D) ops = Ok (outs, q') /\
      pq_run (2 ^ (w - 1)) (mkPQ 0 []) ops outs s' /\
      cur_time q' = now s' /\ q_size D q' = Z.of_nat (length (pending s')).
Proof. exact (fun w D ops Hw => queue_correct w Hw D ops). Qed.
Print Assumptions C15_event_queue_is_priority_queue.

(** The times at which events are delivered never decrease (as long as the clock is not reset). *)
Theorem C15_delivery_times_monotone :
  forall (w : Z) (D : Type) (ops : list (op D)) outs q', 1 <= w ->
    contract w (2 ^ (w - 1)) (empty_queue D) ops -> ~ In Reset ops ->
    exec w D (empty_queue D) ops = Ok (outs, q') ->
    StronglySorted (fun a b => snd a <= snd b) outs.
Proof. exact (fun w D ops outs q' Hw => queue_monotone w Hw ops outs q'). Qed.
Print Assumptions C15_delivery_times_monotone.

(** C16: after any legal history, clear() terminates without running off the bucket array and leaves
    no event in any bucket; the clock is unchanged. *)
Theorem C16_clear_empties_queue :
  forall (w : Z) (D : Type) (ops : list (op D)), 1 <= w ->
    contract w (2 ^ (w - 1)) (empty_queue D) ops ->
    exists outs q' q'', exec w D (empty_queue D) ops = Ok (outs, q') /\ clear w D q' = Ok q'' /\
      q_size D q'' = 0 /\ (forall b, buckets q'' b = []) /\ cur_time q'' = cur_time q'.
Proof. exact (fun w D ops Hw => queue_clear_correct w Hw D ops). Qed.
Print Assumptions C16_clear_empties_queue.

(** A history on the 32-bit clock that crosses the wrap-around: the clock is first brought close to
    2^32, then events before and after the wrap are delivered in order. *)
Definition C15_ex_ops : list (op nat) :=
  [ Enq 2000000000 1%nat; Deq; Enq 4000000000 2%nat; Deq; Enq 4294967290 3%nat; Deq;
    Enq 4294967300 4%nat; Enq 4294967294 5%nat; Enq 4294967300 6%nat; Deq; Deq; Enq 4294967301 7%nat; Deq; Deq; Deq ].
Example C15_ex_contract : contract 32 (2 ^ (32 - 1)) (empty_queue nat) C15_ex_ops.
Proof. vm_compute. repeat split; discriminate. Qed.
Example C15_ex_result :
  match exec 32 nat (empty_queue nat) C15_ex_ops with
  | Ok (outs, _) => outs = [(Some 1%nat, 2000000000); (Some 2%nat, 4000000000); (Some 3%nat, 4294967290);
      (Some 5%nat, 4294967294); (Some 6%nat, 4294967300); (Some 4%nat, 4294967300); (Some 7%nat, 4294967301); (None, 4294967301)]
  | _ => False
  end.
Proof. vm_compute. reflexivity. Qed.
Example C16_ex :
  match exec 32 nat (empty_queue nat) [Enq 7 1%nat; Enq 2147483640 2%nat; Enq 0 3%nat] with
  | Ok (_, q) => match clear 32 nat q with Ok q' => q_size nat q = 3 /\ q_size nat q' = 0 | _ => False end
  | _ => False
  end.
Proof. vm_compute. split; reflexivity. Qed.
