(** C19: the object pool never hands out an object that is in use. *)
From Coq Require Import List Permutation.
From Verif Require Import M_Base M_Arena S_Arena P_Arena.
Import ListNotations.

(** After any sequence of allocations and releases of live objects: the live objects are pairwise
    distinct, the number in use is the number of blocks minus the number available, the next
    allocation succeeds with an object that is not live, and it obtains no new memory while a
    released object is available. *)
Theorem C19_pool_never_hands_out_live_object :
  forall ops a live, arena_run arena_new [] ops a live ->
    NoDup live /\ length (allocated a) = length (available a) + length live /\
    exists p a1, arena_alloc a = Ok (p, a1) /\ ~ In p live /\ (available a <> [] -> allocated a1 = allocated a).
Proof. exact pool_safe. Qed.
Print Assumptions C19_pool_never_hands_out_live_object.

(** Destroying the pool destructs exactly the live objects, each once, and frees every block exactly once. *)
Theorem C19_pool_destroys_exactly_live_objects :
  forall ops a live, arena_run arena_new [] ops a live ->
    Permutation (fst (arena_destroy a)) live /\
    Permutation (snd (arena_destroy a)) (allocated a) /\ NoDup (allocated a).
Proof. exact pool_destroy. Qed.
Print Assumptions C19_pool_destroys_exactly_live_objects.

Example C19_ex : exists a,
  arena_run arena_new [] [Alloc; Alloc; Alloc; Del 1; Del 0; Alloc] a [0; 2]
  /\ arena_destroy a = ([0; 2], [0; 1; 2]).
Proof.
  eexists. split.
  - do 3 (eapply ar_alloc; [reflexivity|]).
    eapply (ar_del _ _ 1 [2; 0]); [apply perm_swap|].
    eapply (ar_del _ _ 0 [2]); [apply perm_swap|].
    eapply ar_alloc; [reflexivity|]. apply ar_nil.
  - vm_compute. reflexivity.
Qed.
