(** C17: wake-ups are never lost and never delivered twice. *)
From Coq Require Import ZArith List Permutation.
From Verif Require Import M_Cyclic M_Tracker S_Tracker P_Tracker.
Import ListNotations.
Open Scope Z_scope.

(** In every history of requests, withdrawals, deliveries and passing time, a delivery is accepted
    exactly when it happens at the time wished last; after an accepted delivery the wish is gone, so
    no second delivery is accepted for the same request. *)
Theorem C17_wakeup_accepted_exactly_at_wished_time :
  forall w now acts log wish' s', 1 <= w ->
    sys_run w None (sys_init now) acts log wish' s' -> Forall2 log_entry_ok acts log.
Proof. exact (fun w now acts log wish' s' Hw => tracker_exact w Hw now acts log wish' s'). Qed.
Print Assumptions C17_wakeup_accepted_exactly_at_wished_time.

(** A wish is never lost: as long as a wake-up at [t] is wished and not yet delivered, the time [t] has
    not passed and the queue still holds an entry for the object at or before [t] (so the queue
    cannot run dry and time cannot pass [t] before the wake-up is delivered). *)
Theorem C17_wakeup_never_lost :
  forall w now acts log t s', 1 <= w ->
    sys_run w None (sys_init now) acts log (Some t) s' ->
    s_now s' <= t /\ exists p, In p (s_pending s') /\ s_now s' <= p <= t.
Proof. exact (fun w now acts log t s' Hw => tracker_not_lost w Hw now acts log t s'). Qed.
Print Assumptions C17_wakeup_never_lost.

(** A history on the 32-bit clock near its wrap-around: a later wish is postponed behind an earlier
    queue entry, the early entry is discarded and requeued, then accepted on time. *)
Example C17_ex : exists s',
  sys_run 32 None (sys_init (2 ^ 32 - 3)) [Want (2 ^ 32 - 1); Want (2 ^ 32 + 5); Deliver (2 ^ 32 - 1); Tick (2 ^ 32 + 2); Deliver (2 ^ 32 + 5)]
    [(None, false); (Some (2 ^ 32 - 1), false); (Some (2 ^ 32 + 5), false); (Some (2 ^ 32 + 5), false); (Some (2 ^ 32 + 5), true)]
    None s'.
Proof.
  eexists.
  eapply sr_want; [vm_compute; split; [discriminate|reflexivity]|vm_compute; reflexivity|].
  eapply sr_want; [vm_compute; split; [discriminate|reflexivity]|vm_compute; reflexivity|].
  eapply (sr_deliver 32 _ _ (2 ^ 32 - 1) []); [reflexivity|intros p []|vm_compute; reflexivity|].
  apply sr_tick; [vm_compute; discriminate|intros p [<-|[]]; vm_compute; discriminate|].
  eapply (sr_deliver 32 _ _ (2 ^ 32 + 5) []); [reflexivity|intros p []|vm_compute; reflexivity|].
  apply sr_nil.
Qed.
