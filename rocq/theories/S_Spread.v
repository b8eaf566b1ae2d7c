(** Specification: nodes that are not far apart. *)
From Coq Require Import Reals.

(** [S p c]: something of cost [c] connects a node to a node or to the boundary; [p] is this pair, in either order.
    A chain leads from [a] to a node or to the boundary; its cost is the sum of the costs. *)
Inductive chain (S : nat * option nat -> R -> Prop) (a : nat) : option nat -> R -> Prop :=
| chain_here : chain S a (Some a) 0
| chain_step : forall v x c d, chain S a (Some v) c -> (S (v, x) d \/ exists u, x = Some u /\ S (u, Some v) d) -> chain S a x (c + d).
(** Whatever a chain leads to, one of cost at most [D] leads to. *)
Definition close (S : nat * option nat -> R -> Prop) (D : R) : Prop := forall a x c, chain S a x c -> exists c', chain S a x c' /\ (c' <= D)%R.
(** The same for connections that are merely counted. *)
Definition few_steps (S : nat * option nat -> Prop) : Prop := close (fun p c => S p /\ c = 1%R) 64.
