(** C72: listing the event queue.

    to_vector is to list the events of the queue in order.  It does not look at the last bucket, where the events are whose times differ from the present
    in the highest bit: they are missing from the list.  (The comment at radix_heap_queue.h:62 says that no event is ever in that bucket; one is whenever the
    clock comes close to 2^31 or 2^32.)  Only tests call it; the decoder does not.  satisfies_invariants never fails. *)
From Coq Require Import ZArith List Permutation Sorted.
From Verif Require Import M_Base M_Cyclic M_RadixHeap S_RadixHeap P_RadixHeap M_QueueList P_QueueList.
Import ListNotations.
Open Scope Z_scope.

(** Full claim: after any legal history, to_vector gives the pending events, in order of time.  False: here one event is pending and none is listed. *)
Definition half_ops : list (op nat) := [Enq 2147483647 1%nat; Deq; Enq 2147483648 2%nat].
Theorem C72_listing_refuted :
  exists ops : list (op nat), contract 32 (2 ^ (32 - 1)) (empty_queue nat) ops /\
    exists outs q', exec 32 nat (empty_queue nat) ops = Ok (outs, q') /\ q_size nat q' = 1 /\ to_vector 32 nat q' = [] /\
      exists q'', dequeue 32 nat q' = Ok (Some (mkEv 2147483648 2%nat), q'').
Proof. exists half_ops. split; [vm_compute; repeat split; discriminate|]. eexists. eexists. split; [vm_compute; reflexivity|]. split; [vm_compute; reflexivity|]. split; [vm_compute; reflexivity|]. eexists. vm_compute. reflexivity. Qed.
Print Assumptions C72_listing_refuted.

(** What is missing: the events in the other half of the period.  What holds: the list has the pending events in the half of the period where the present is, each as
    often as it is pending, in order of their unbounded times; and satisfies_invariants() returns true. *)
Theorem C72_listing_partial :
  forall (w : Z) (D : Type) (ops : list (op D)), 1 <= w -> contract w (2 ^ (w - 1)) (empty_queue D) ops ->
    exists outs q' s', exec w D (empty_queue D) ops = Ok (outs, q') /\ pq_run (2 ^ (w - 1)) (mkPQ 0 []) ops outs s' /\ satisfies_invariants w D q' = true /\
      exists l, StronglySorted (fun a b => fst a <= fst b) l /\ Permutation l (filter (fun x => fst x / 2 ^ (w - 1) =? now s' / 2 ^ (w - 1)) (pending s')) /\
        to_vector w D q' = map (fun x => mkEv (fst x mod 2 ^ w) (snd x)) l.
Proof. exact (fun w D ops Hw => queue_listing w Hw D ops). Qed.
Print Assumptions C72_listing_partial.

(** satisfies_invariants "checks if all events are in the correct bucket".  It does so for all buckets but the last ... *)
Theorem C72_check_partial : forall (w : Z) (D : Type) (q : queue D),
  satisfies_invariants w D q = true <-> forall b e, Z.of_nat b < w -> In e (buckets q b) -> bucket_for w (cur_time q) (ev_time e) = b.
Proof. exact check_exact. Qed.
Print Assumptions C72_check_partial.

(** ... where an event in the wrong bucket goes unnoticed. *)
Theorem C72_check_refuted : exists (q : queue nat) e,
  In e (buckets q 32) /\ bucket_for 32 (cur_time q) (ev_time e) <> 32%nat /\ satisfies_invariants 32 nat q = true.
Proof. exists (mkQ (fun b => if Nat.eqb b 32 then [mkEv 5 1%nat] else []) 0 1), (mkEv 5 1%nat). split; [left; reflexivity|]. split; [vm_compute; discriminate|vm_compute; reflexivity]. Qed.
Print Assumptions C72_check_refuted.

(** A misplaced event in the first bucket is noticed. *)
Example C72_check_example : satisfies_invariants 32 nat (mkQ (fun b => if Nat.eqb b 0 then [mkEv 5 1%nat] else []) 0 1) = false.
Proof. vm_compute. reflexivity. Qed.

(** Three events before 2^31 and one after it. *)
Definition list_ops : list (op nat) := [Enq 2147483600 1%nat; Deq; Enq 2147483640 2%nat; Enq 2147483610 3%nat; Enq 2147483650 4%nat; Enq 2147483600 5%nat].
Example C72_example : contract 32 (2 ^ (32 - 1)) (empty_queue nat) list_ops /\
  match exec 32 nat (empty_queue nat) list_ops with Ok (_, q) => to_vector 32 nat q = [mkEv 2147483600 5%nat; mkEv 2147483610 3%nat; mkEv 2147483640 2%nat] /\ q_size nat q = 4 | _ => False end.
Proof. split; [vm_compute; repeat split; discriminate|]. vm_compute. split; reflexivity. Qed.
