(** Specification: the user graph as a finite map from unordered pairs to attributes. *)
From Coq Require Import Arith List Bool.
From Verif Require Import M_UserGraph.
Import ListNotations.

Section Spec.
Context {N : numops}.

Definition attr : Type := list nat * num N * num N.   (* fault ids, weight, probability *)

(** The unordered pairs {u,v} and {x,y} are equal (None is the virtual boundary). *)
Definition same_pair (u : nat) (v : option nat) (x : nat) (y : option nat) : bool :=
  ((u =? x) && opt_eqb v y) || (opt_eqb y (Some u) && opt_eqb v (Some x)).

(** Documented effect of a merge strategy on an existing edge. *)
Definition merged (s : strategy) (old new : attr) : attr :=
  let '(o, w, p) := old in let '(o', w', p') := new in
  match s with
  | DISALLOW | KEEP_ORIGINAL => old
  | REPLACE => new
  | SMALLEST_WEIGHT => if w_ge N w' w then old else new
  | INDEPENDENT => (o, w_merge N w' w, if p_valid N p && p_valid N p' then p_xor N p' p else p_none N)
  end.

(** One call to add an edge: its pair, attributes and strategy. *)
Record call := mkCall { c_u : nat; c_v : option nat; c_obs : list nat; c_w : num N; c_p : num N; c_s : strategy }.

(** Attributes of the pair {x,y} after a sequence of calls, from attributes [a] (None: no such edge). *)
Definition effect (x : nat) (y : option nat) (a : option attr) (c : call) : option attr :=
  if same_pair (c_u c) (c_v c) x y then
    Some match a with None => (c_obs c, c_w c, c_p c) | Some old => merged (c_s c) old (c_obs c, c_w c, c_p c) end
  else a.

Definition effects (x : nat) (y : option nat) (a : option attr) (cs : list call) : option attr :=
  fold_left (effect x y) cs a.
(** The calls of an operation sequence that reach the graph (out-of-range weights are skipped). *)
Definition op_calls (ops : list (op N)) : list call :=
  flat_map (fun x => match x with OpAdd u v o w p s => if w_exceeds N w then [] else [mkCall u v o w p s] | _ => [] end) ops.
End Spec.
Arguments attr : clear implicits.
Arguments call : clear implicits.
