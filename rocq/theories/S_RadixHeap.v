(** Specification of a monotone priority queue with unbounded integer times. *)
From Coq Require Import ZArith List Permutation.
From Verif Require Import M_RadixHeap.
Import ListNotations.
Open Scope Z_scope.

(** What an observer knows: the current time and the multiset of pending (time, payload) pairs. *)
Record pq (D : Type) := mkPQ { now : Z; pending : list (Z * D) }.
Arguments mkPQ {D} _ _.
Arguments now {D} _.
Arguments pending {D} _.

(** [pq_run horizon s ops outs s']: the abstract queue, started in [s], can perform [ops] with
    results [outs] and end in [s'].  An event may be enqueued only at a time in
    [now, now + horizon).  Each result is paired with the current time after the operation. *)
Inductive pq_run {D} (horizon : Z) : pq D -> list (op D) -> list (option D * Z) -> pq D -> Prop :=
| run_nil s : pq_run horizon s [] [] s
| run_enq s t d ops outs s' :
    now s <= t < now s + horizon ->
    pq_run horizon (mkPQ (now s) ((t, d) :: pending s)) ops outs s' ->
    pq_run horizon s (Enq t d :: ops) outs s'
| run_deq_none s ops outs s' :
    pending s = [] ->
    pq_run horizon s ops outs s' ->
    pq_run horizon s (Deq :: ops) ((None, now s) :: outs) s'
| run_deq_some s t d rest ops outs s' :
    Permutation (pending s) ((t, d) :: rest) ->
    (forall t' d', In (t', d') (pending s) -> t <= t') ->
    pq_run horizon (mkPQ t rest) ops outs s' ->
    pq_run horizon s (Deq :: ops) ((Some d, t) :: outs) s'
| run_clear s ops outs s' :
    pq_run horizon (mkPQ (now s) []) ops outs s' ->
    pq_run horizon s (Clear :: ops) outs s'
| run_reset s ops outs s' :
    pq_run horizon (mkPQ 0 []) ops outs s' ->
    pq_run horizon s (Reset :: ops) outs s'.

(** The documented contract, in terms of the observable current time of the real queue: every event
    enqueued by the client is not in the past and less than [horizon] in the future. *)
Fixpoint contract {D} (w horizon : Z) (q : queue D) (ops : list (op D)) : Prop :=
  match ops with
  | [] => True
  | Enq t d :: ops' =>
      cur_time q <= t < cur_time q + horizon /\
      match enqueue w D q (mkEv (t mod 2 ^ w) d) with M_Base.Ok q' => contract w horizon q' ops' | _ => True end
  | Deq :: ops' => match dequeue w D q with M_Base.Ok (_, q') => contract w horizon q' ops' | _ => True end
  | Clear :: ops' => match clear w D q with M_Base.Ok q' => contract w horizon q' ops' | _ => True end
  | Reset :: ops' => match reset w D q with M_Base.Ok q' => contract w horizon q' ops' | _ => True end
  end.
