(** Undirected edges given by (node, neighbour or boundary). *)
From Coq Require Import List Bool Arith.
From Verif Require Import M_Core S_Reweight.
Import ListNotations.

Definition same_end (x y : option nat) : bool :=
  match x, y with None, None => true | Some a, Some b => a =? b | _, _ => false end.
(** The same edge, in either orientation. *)
Definition same_edge (a b : nat * option nat) : bool :=
  ((fst a =? fst b) && same_end (snd a) (snd b)) ||
  (same_end (snd a) (Some (fst b)) && same_end (snd b) (Some (fst a))).
Definition occurrences (e : nat * option nat) (l : list (nat * option nat)) : nat := length (filter (same_edge e) l).
(** The entry (node, neighbour) names the edge at the cell (node, neighbour index). *)
Definition cell_entry (G : graph) (c : nat * nat) (e : nat * option nat) : Prop :=
  fst e = fst c /\ at_index G (fst c) (snd e) (snd c).
