(** Specifications of the functions that look at the decoder's data. *)
From Coq Require Import ZArith List Arith.
From Verif Require Import M_Varying M_Core.
Import ListNotations.
Local Open Scope nat_scope.

(** [inside g a b]: region b is region a or a blossom around it. *)
Inductive inside (g : regionsM) : nat -> nat -> Prop :=
| inside_self : forall a, inside g a a
| inside_blossom : forall a b c, bpar g a = Some b -> inside g b c -> inside g a c.
(** A blossom around region a. *)
Definition around (g : regionsM) (b a : nat) : Prop := b <> a /\ inside g a b.
(** The radii of some regions at a time, added up. *)
Definition total_radius (g : regionsM) (time : Z) (l : list nat) : Z :=
  fold_right Z.add 0%Z (map (fun r => get_distance_at_time (rad g r) time) l).
