(** The decoder on top of the radix heap it really uses: M_Core.v with the abstract queue and its oracle replaced
    by the queue of M_RadixHeap.v with 32-bit times (graph_flooder.h:40: radix_heap_queue<false>, ints.h:54).

    The functions of M_Core.v are used as they are; only the loops around [dequeue] are restated.  The field [que]
    of the state is kept as a list of what has been asked for and not yet been delivered, newest first.

    Simplification: the calls to queue.enqueue made between two calls to queue.dequeue are executed, in the order in
    which they were made, at the beginning of the second one ([push_new]).  This is the same because enqueue depends
    on the current time and on the bucket it appends to only, and cur_time changes in dequeue only.

    Times in trackers and in [que] are integers standing for their remainders modulo 2^32: every comparison below and
    in [cyclic_ints] looks at the remainders only. *)
From Coq Require Import ZArith NArith List Bool Arith.
From Verif Require Import M_Base M_Cyclic M_RadixHeap M_Varying M_Tracker M_Core.
Import ListNotations.
Local Open Scope outcome_scope.
Local Open Scope nat_scope.

(** The conversions and the comparison of the code (cyclic.h:82-84, operator>, in queued_event_tracker.h:47). *)
Definition cyclic_ints : ints := mkInts (to_i32 machine_ints) (to_time machine_ints) (cyc_gt 32).

(** graph_flooder.h:40 *)
Definition heap : Type := queue item.
Definition empty_heap : heap := empty_queue item.

(** radix_heap_queue.h:93-106 enqueue, for the requests that the heap has not seen yet, oldest first.  The event
    carries a cyclic_time_int: the time modulo 2^32. *)
Definition push_one (h : heap) (x : Z * item) : outcome heap := M_RadixHeap.enqueue 32 item h (mkEv (wrap 32 (fst x)) (snd x)).
Definition push_pending (h : heap) (q : list (Z * item)) : outcome heap :=
  fold_left (fun o x => bindO o (fun h => push_one h x)) (rev (firstn (length q - Z.to_nat (num_enqueued h)) q)) (Ok h).
Definition push_new (h : heap) (s : state) : outcome heap := push_pending h (que (sc s)).

(** radix_heap_queue.h:122-163 dequeue: the event, the state and the heap afterwards. *)
Definition heap_dequeue (s : state) (h : heap) : outcome (option (event item) * state * heap) :=
  h1 <-- push_new h s ;;
  x <-- M_RadixHeap.dequeue 32 item h1 ;;
  match x with
  | (None, h2) => Ok (None, s, h2)
  | (Some e, h2) =>
      let t := cur_time h2 in
      let i := ev_data e in
      Ok (Some e, set_sc s (M_Core.mkQ (ntr (sc s)) (rtr (sc s)) (remove_first t i (que (sc s))) t (S (tick (sc s)))), h2)
  end.

(** queued_event_tracker.h:67-93 dequeue_decision, as [dequeue_decision] in M_Tracker.v but with comparisons of
    cyclic times; [t] is the time carried by the event. *)
Definition decision_h (x : tracker) (t : Z) : bool * tracker * list Z :=
  if negb (has_queued x) || negb (t =? wrap 32 (queued_time x))%Z then (false, x, [])
  else if negb (has_desired x) then (false, M_Tracker.mkT (desired_time x) (queued_time x) false false, [])
  else if negb (t =? wrap 32 (desired_time x))%Z
       then (false, M_Tracker.mkT (desired_time x) (desired_time x) true true, [desired_time x])
       else (true, M_Tracker.mkT (desired_time x) (queued_time x) false false, []).
(** graph_flooder.cc:254-269 dequeue_decision *)
Definition decide_h (s : state) (e : event item) : bool * state :=
  match ev_data e with
  | INode v =>
      let '(keep, x, new) := decision_h (ntr (sc s) v) (ev_time e) in
      (keep, fold_left (fun s t => M_Core.enqueue s t (INode v)) new (set_sc s (set_ntr (sc s) v x)))
  | IRegion r =>
      let '(keep, x, new) := decision_h (rtr (sc s) r) (ev_time e) in
      (keep, fold_left (fun s t => M_Core.enqueue s t (IRegion r)) new (set_sc s (set_rtr (sc s) r x)))
  end.

Section Heap.
Variable G : graph.
Variable fuel : nat.
Variable A : ints.

(** graph_flooder.cc:271-278, 366-377: run_until_next_mwpm_notification *)
Fixpoint run_until_event_h (k : nat) (s : state) (h : heap) : outcome (state * heap * mevent) :=
  match k with
  | O => Fuel
  | S k' =>
      x <-- heap_dequeue s h ;;
      match x with
      | (None, s1, h1) => Ok (s1, h1, NoEvent)
      | (Some e, s1, h1) =>
          let (keep, s2) := decide_h s1 e in
          if keep then
            r <-- process_tentative G fuel A s2 (ev_data e) ;;
            match snd r with
            | NoEvent => run_until_event_h k' (fst r) h1
            | m => Ok (fst r, h1, m)
            end
          else run_until_event_h k' s2 h1
      end
  end.

(** mwpm_decoding.cc:128-133: the main loop. *)
Fixpoint main_loop_h (k : nat) (s : state) (h : heap) : outcome (state * heap) :=
  match k with
  | O => Fuel
  | S k' =>
      r <-- run_until_event_h fuel s h ;;
      match snd r with
      | NoEvent => Ok (fst r)
      | e => s' <-- process_event G fuel A (fst (fst r)) e ;; main_loop_h k' s' (snd (fst r))
      end
  end.

Variable I : neg_info.

(** mwpm_decoding.cc:82-146 process_timeline_until_completion *)
Definition process_timeline_h (s : state) (h : heap) (evs : list nat) : outcome (state * heap) :=
  if negb (q_empty item h) then Throw
  else
    let h0 := M_RadixHeap.mkQ (buckets h) 0%Z (num_enqueued h) in
    let s0 := set_sc s (M_Core.mkQ (ntr (sc s)) (rtr (sc s)) (que (sc s)) 0%Z (tick (sc s))) in
    s1 <-- add_events G A I s0 evs ;;
    x <-- main_loop_h fuel s1 h0 ;;
    if next (ta (fst x)) =? length (free (ta (fst x))) then Ok x else Throw.

(** mwpm_decoding.cc:167-194 and 250-257, as in [decode]. *)
Definition decode_h (s : state) (h : heap) (evs : list nat) : outcome (state * heap * result) :=
  y <-- process_timeline_h s h evs ;;
  let (s1, h1) := (y : state * heap) in
  x <-- extract_all fuel A s1 evs ;;
  y <-- (match neg_events I with [] => Ok (fst x, (0%N, 0%Z, [])) | _ => extract_all fuel A (fst x) (neg_events I) end) ;;
  let '(o, w, l) := res_add (snd x) (snd y) in
  Ok (fst y, h1, (N.lxor o (neg_obs I), (w + neg_sum I)%Z, l)).

(** Several syndromes, one after another, on the same decoder (user_graph.pybind.cc:296-333, the loop of decode_batch). *)
Fixpoint decode_several_h (s : state) (h : heap) (l : list (list nat)) : outcome (state * heap * list result) :=
  match l with
  | [] => Ok (s, h, [])
  | evs :: l' =>
      x <-- decode_h s h evs ;;
      y <-- decode_several_h (fst (fst x)) (snd (fst x)) l' ;;
      Ok (fst y, snd x :: snd y)
  end.
End Heap.
