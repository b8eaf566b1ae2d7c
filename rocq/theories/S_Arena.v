(** What a client of an object pool may rely on. [live] is the client's own list of objects. *)
From Coq Require Import List Permutation.
From Verif Require Import M_Base M_Arena.
Import ListNotations.

(** [arena_run a live ops a' live']: performing [ops] (releasing only live objects) takes the pool
    from [a] to [a'] and the client's live list from [live] to [live']. *)
Inductive arena_run : arena -> list nat -> list arena_op -> arena -> list nat -> Prop :=
| ar_nil a live : arena_run a live [] a live
| ar_alloc a live p a1 ops a' live' :
    arena_alloc a = Ok (p, a1) -> arena_run a1 (p :: live) ops a' live' ->
    arena_run a live (Alloc :: ops) a' live'
| ar_del a live p rest ops a' live' :
    Permutation live (p :: rest) -> arena_run (arena_del a p) rest ops a' live' ->
    arena_run a live (Del p :: ops) a' live'.
