(** Model of Arena<T> (arena.h).  Addresses are natural numbers; malloc is modelled by a counter that
    never returns an address handed out before (memory is only returned to the system by ~Arena). *)
From Coq Require Import List Arith Bool.
From Verif Require Import M_Base.
Import ListNotations.

(** arena.h:30-31; both vectors are stored back-first. [brk] is the state of malloc. *)
Record arena := mkA { allocated : list nat; available : list nat; brk : nat }.

(** arena.h:33-34 *)
Definition arena_new : arena := mkA [] [] 0.

(** arena.h:39-48 alloc_unconstructed *)
Definition arena_alloc (a : arena) : outcome (nat * arena) :=
  let a1 := match available a with
            | [] => mkA (brk a :: allocated a) [brk a] (S (brk a))
            | _ :: _ => a
            end in
  match available a1 with
  | [] => UB
  | p :: rest => Ok (p, mkA (allocated a1) rest (brk a1))
  end.

(** arena.h:56-59 del *)
Definition arena_del (a : arena) (p : nat) : arena := mkA (allocated a) (p :: available a) (brk a).

(** std::sort on addresses (insertion sort; the result of sorting is unique). *)
Fixpoint insert (x : nat) (l : list nat) : list nat :=
  match l with [] => [x] | y :: l' => if x <=? y then x :: l else y :: insert x l' end.
Definition sort (l : list nat) : list nat := fold_right insert [] l.

(** arena.h:68-77: the loop that destructs the objects still in use; returns them in order. *)
Fixpoint destroy_loop (to_free not_in_use : list nat) : list nat :=
  match to_free with
  | [] => []
  | f :: to_free' =>
      match not_in_use with
      | n :: not_in_use' => if n =? f then destroy_loop to_free' not_in_use' else f :: destroy_loop to_free' not_in_use
      | [] => f :: destroy_loop to_free' []
      end
  end.

(** arena.h:61-83 ~Arena: (objects destructed, blocks freed) *)
Definition arena_destroy (a : arena) : list nat * list nat :=
  (destroy_loop (sort (allocated a)) (sort (available a)), sort (allocated a)).

(** A client: allocate, or release the object at address [p]. *)
Inductive arena_op := Alloc | Del (p : nat).
