(** Model of radix_heap_queue (tracker/radix_heap_queue.h) over a [w]-bit cyclic clock
    (w = 32 for cyclic_time_int).  [D] is the payload of an event (flood_check_event.h:
    the event type and the node / region pointer); it is never inspected by the queue. *)
From Coq Require Import ZArith List Bool.
From Verif Require Import M_Base M_Cyclic.
Import ListNotations.
Open Scope Z_scope.

Section Heap.
Variable w : Z.
Variable D : Type.

(** flood_check_event.h:33-60: an event carries a cyclic time and a payload. *)
Record event := mkEv { ev_time : Z; ev_data : D }.

(** radix_heap_queue.h:70-72.  A std::vector is modelled as a list stored back-first:
    push_back is cons, back() is the head, pop_back() is the tail.  The array has w+1 buckets. *)
Record queue := mkQ { buckets : nat -> list event; cur_time : Z; num_enqueued : Z }.

(** radix_heap_queue.h:74-75 default constructor. *)
Definition empty_queue : queue := mkQ (fun _ => []) 0 0.

(** radix_heap_queue.h:77-83. *)
Definition q_size (q : queue) : Z := num_enqueued q.
Definition q_empty (q : queue) : bool := num_enqueued q =? 0.

(** std::bit_width. *)
Definition bit_width (x : Z) : nat := if x =? 0 then 0%nat else S (Z.to_nat (Z.log2 x)).

(** radix_heap_queue.h:86-88 cur_bit_bucket_for, with the current time as an argument. *)
Definition bucket_for (now t : Z) : nat := bit_width (Z.lxor t (wrap w now)).

(** bit_buckets[b].push_back(e). *)
Definition push (bs : nat -> list event) (b : nat) (e : event) : nat -> list event := upd bs b (e :: bs b).

(** radix_heap_queue.h:93-106 enqueue (with use_validation = false, as in the shipped decoder).
    A bucket index beyond the array is undefined behaviour. *)
Definition enqueue (q : queue) (e : event) : outcome queue :=
  let b := bucket_for (cur_time q) (ev_time e) in
  if (Z.to_nat w <? b)%nat then UB
  else Ok (mkQ (push (buckets q) b e) (cur_time q) (num_enqueued q + 1)).

(** radix_heap_queue.h:131-134: the search for the first non-empty bucket, starting at bucket [b],
    with [k] buckets left in the array; running off the array is undefined behaviour. *)
Fixpoint first_nonempty (bs : nat -> list event) (b k : nat) : option nat :=
  match k with
  | O => None
  | S k' => match bs b with [] => first_nonempty bs (S b) k' | _ :: _ => Some b end
  end.

(** radix_heap_queue.h:143-147: minimum of the raw time values in a bucket. *)
Definition min_time (x : Z) (l : list event) : Z := fold_left (fun m e => Z.min m (ev_time e)) l x.

(** radix_heap_queue.h:150-155: redistribution of the events of a bucket (front to back). *)
Definition redistribute (now : Z) (l : list event) (bs : nat -> list event) : nat -> list event :=
  fold_left (fun bs e => push bs (bucket_for now (ev_time e)) e) l bs.

(** radix_heap_queue.h:125-157: refill bucket 0 if necessary. *)
Definition refill (q : queue) : outcome queue :=
  match buckets q 0%nat with
  | _ :: _ => Ok q
  | [] =>
    match first_nonempty (buckets q) 1 (Z.to_nat w) with
    | None => UB
    | Some b =>
      if (b =? 1)%nat then
        (* std::swap(bit_buckets[0], bit_buckets[1]); cur_time++ *)
        Ok (mkQ (upd (upd (buckets q) 0 (buckets q 1%nat)) 1 (buckets q 0%nat)) (cur_time q + 1) (num_enqueued q))
      else
        match rev (buckets q b) with
        | [] => UB
        | e0 :: rest =>
          let m := min_time (ev_time e0) rest in
          let now' := widen w m (cur_time q) in
          Ok (mkQ (upd (redistribute now' (e0 :: rest) (buckets q)) b []) now' (num_enqueued q))
        end
    end
  end.

(** radix_heap_queue.h:122-163 dequeue; [None] is the event of type NO_FLOOD_CHECK_EVENT. *)
Definition dequeue (q : queue) : outcome (option event * queue) :=
  if num_enqueued q =? 0 then Ok (None, q)
  else
    bindO (refill q) (fun q1 =>
    match buckets q1 0%nat with
    | [] => UB (* back() of an empty vector *)
    | e :: rest => Ok (Some e, mkQ (upd (buckets q1) 0 rest) (cur_time q1) (num_enqueued q1 - 1))
    end).

(** radix_heap_queue.h:216-224 clear: from bucket [b] on, with [k] buckets left in the array. *)
Fixpoint clear_from (q : queue) (b k : nat) : outcome queue :=
  if num_enqueued q =? 0 then Ok q
  else match k with
       | O => UB
       | S k' => clear_from (mkQ (upd (buckets q) b []) (cur_time q) (num_enqueued q - Z.of_nat (length (buckets q b)))) (S b) k'
       end.
Definition clear (q : queue) : outcome queue := clear_from q 0 (Z.to_nat w + 1).

(** radix_heap_queue.h:226-230 reset. *)
Definition reset (q : queue) : outcome queue :=
  bindO (clear q) (fun q1 => Ok (mkQ (buckets q1) 0 (num_enqueued q1))).

(** A client: a sequence of operations.  [Enq t d] enqueues an event for the unbounded time [t];
    the code sees only its truncation to [w] bits. *)
Inductive op := Enq (t : Z) (d : D) | Deq | Clear | Reset.

(** Runs a sequence of operations; the outputs are the results of the [Deq] operations, each with
    the (unbounded) value of cur_time after the operation. *)
Fixpoint exec (q : queue) (ops : list op) : outcome (list (option D * Z) * queue) :=
  match ops with
  | [] => Ok ([], q)
  | Enq t d :: ops' => bindO (enqueue q (mkEv (wrap w t) d)) (fun q' => exec q' ops')
  | Deq :: ops' =>
      bindO (dequeue q) (fun '(r, q') =>
      bindO (exec q' ops') (fun '(outs, q'') => Ok ((option_map ev_data r, cur_time q') :: outs, q'')))
  | Clear :: ops' => bindO (clear q) (fun q' => exec q' ops')
  | Reset :: ops' => bindO (reset q) (fun q' => exec q' ops')
  end.

(** radix_heap_queue.h:170-180 to_vector, before sorting.  The loop bound is size()-1, so the last
    bucket is not visited. *)
Definition to_vector_unsorted (q : queue) : list event :=
  flat_map (fun b => buckets q b) (seq 0 (Z.to_nat w)).

End Heap.
Arguments mkEv {D} _ _.
Arguments ev_time {D} _.
Arguments ev_data {D} _.
Arguments mkQ {D} _ _ _.
Arguments buckets {D} _ _.
Arguments cur_time {D} _.
Arguments num_enqueued {D} _.
Arguments Enq {D} _ _.
Arguments Deq {D}.
Arguments Clear {D}.
Arguments Reset {D}.
