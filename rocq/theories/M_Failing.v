(** What an exception leaves behind when the decoder runs on its radix heap: M_CoreHeap.v loses the state when an exception is
    thrown, here it is kept (driver/mwpm_decoding.cc:82-146, matcher/mwpm.cc:471-479).  The same for an abstract queue is in
    M_Session.v, whose [add_events_st] and [mwpm_reset] are used. *)
From Coq Require Import ZArith NArith List Bool Arith.
From Verif Require Import M_Base M_RadixHeap M_Varying M_Tracker M_Core M_Session M_CoreHeap.
Import ListNotations.
Local Open Scope outcome_scope.
Local Open Scope nat_scope.

Section Failing.
Variables (G : graph) (fuel : nat) (A : ints) (I : neg_info).

(** mwpm_decoding.cc:82-146 process_timeline_until_completion: the flooder when the function is left, whether by an exception or
    not.  An exception is thrown if the queue is not empty (nothing has changed), if an event is not a node of the graph (some
    events have been placed, and their requests are in the queue), or if trees are left at the end (Mwpm::reset has been called:
    every node is reset, queue.clear() and both arenas destroyed; this is the boolean).  Nothing else on the way throws: [UB]. *)
Definition left_h (s : state) (h : heap) (evs : list nat) : outcome (state * heap * bool) :=
  if negb (q_empty item h) then Ok (s, h, false)
  else
    let h0 := M_RadixHeap.mkQ (buckets h) 0%Z (num_enqueued h) in
    let s0 := set_sc s (M_Core.mkQ (ntr (sc s)) (rtr (sc s)) (que (sc s)) 0%Z (tick (sc s))) in
    let (s1, thrown) := add_events_st G A I s0 evs in
    if thrown then h1 <-- push_new h0 s1 ;; Ok (s1, h1, false)
    else
      match main_loop_h G fuel A fuel s1 h0 with
      | Ok (s2, h2) =>
          if next (ta s2) =? length (free (ta s2)) then Ok (s2, h2, false)
          else h3 <-- M_RadixHeap.clear 32 item h2 ;; Ok (mwpm_reset G s2, h3, true)
      | Throw => UB
      | UB => UB
      | Fuel => Fuel
      end.

(** One decode, by a decoder that goes on to be used: None stands for the exception. *)
Definition decode_keep_h (s : state) (h : heap) (evs : list nat) : outcome (state * heap * option result) :=
  match decode_h G fuel A I s h evs with
  | Ok (s', h', r) => Ok (s', h', Some r)
  | Throw => x <-- left_h s h evs ;; Ok (fst x, None)
  | UB => UB
  | Fuel => Fuel
  end.

(** Several syndromes, one after another, on the same decoder, the caller going on after an exception. *)
Fixpoint decode_each_h (s : state) (h : heap) (l : list (list nat)) : outcome (state * heap * list (option result)) :=
  match l with
  | [] => Ok (s, h, [])
  | evs :: l' =>
      x <-- decode_keep_h s h evs ;;
      y <-- decode_each_h (fst (fst x)) (snd (fst x)) l' ;;
      Ok (fst y, snd x :: snd y)
  end.
End Failing.
