(** One tracked object together with the event queue, as seen by a client.
    [Want t]: ask to be woken at time t; [Unwant]: withdraw the request; [Deliver t]: the queue
    delivers one of the pending events of this object, at time t; [Tick n]: time passes to n. *)
From Coq Require Import ZArith List Permutation.
From Verif Require Import M_Cyclic M_Tracker.
Import ListNotations.
Open Scope Z_scope.

Inductive action := Want (t : Z) | Unwant | Deliver (t : Z) | Tick (n : Z).

(** The client's current wish, computed from its own requests and the accepted deliveries only. *)
Definition wish_step (wish : option Z) (a : action) (accepted : bool) : option Z :=
  match a with
  | Want t => Some t
  | Unwant => None
  | Deliver _ => if accepted then None else wish
  | Tick _ => wish
  end.

Section Sys.
Variable w : Z.

(** Real system: clock, absolute times of the pending queue entries of this object, tracker.
    The tracker only sees times truncated to [w] bits; the queue interprets a truncated time as the
    unbounded time nearest to its clock (property C15). *)
Record sys := mkSys { s_now : Z; s_pending : list Z; s_tr : tracker }.

Definition enq (now : Z) (new : list Z) (pending : list Z) : list Z :=
  map (fun c => widen w c now) new ++ pending.

(** [sys_run s acts log s']: the system can perform [acts] from [s]; [log] records for each action
    the client's wish just before it and whether it was an accepted delivery.
    The queue delivers a pending entry only when it is minimal, and time never passes a pending entry. *)
Inductive sys_run : option Z -> sys -> list action -> list (option Z * bool) -> option Z -> sys -> Prop :=
| sr_nil wish s : sys_run wish s [] [] wish s
| sr_want wish s t tr new acts log wish' s' :
    s_now s <= t < s_now s + 2 ^ (w - 1) ->
    set_desired (cyc_gt w) (s_tr s) (wrap w t) = (tr, new) ->
    sys_run (Some t) (mkSys (s_now s) (enq (s_now s) new (s_pending s)) tr) acts log wish' s' ->
    sys_run wish s (Want t :: acts) ((wish, false) :: log) wish' s'
| sr_unwant wish s acts log wish' s' :
    sys_run None (mkSys (s_now s) (s_pending s) (set_no_desired (s_tr s))) acts log wish' s' ->
    sys_run wish s (Unwant :: acts) ((wish, false) :: log) wish' s'
| sr_deliver wish s t rest keep tr new acts log wish' s' :
    Permutation (s_pending s) (t :: rest) -> (forall p, In p rest -> t <= p) ->
    dequeue_decision (s_tr s) (wrap w t) = (keep, tr, new) ->
    sys_run (wish_step wish (Deliver t) keep) (mkSys t (enq t new rest) tr) acts log wish' s' ->
    sys_run wish s (Deliver t :: acts) ((wish, keep) :: log) wish' s'
| sr_tick wish s n acts log wish' s' :
    s_now s <= n -> (forall p, In p (s_pending s) -> n <= p) ->
    sys_run wish (mkSys n (s_pending s) (s_tr s)) acts log wish' s' ->
    sys_run wish s (Tick n :: acts) ((wish, false) :: log) wish' s'.

Definition sys_init (now : Z) : sys := mkSys now [] tracker_clear.
End Sys.

(** What the log must say: a delivery is accepted exactly when it comes at the wished time. *)
Definition log_entry_ok (a : action) (e : option Z * bool) : Prop :=
  match a with
  | Deliver t => snd e = true <-> fst e = Some t
  | _ => snd e = false
  end.
