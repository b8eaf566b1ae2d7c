(** Corrections for graphs with signed weights and with declared boundary nodes.  An edge is (node, node or
    boundary, signed weight, observables); a correction is a list of edges. *)
From Coq Require Import ZArith NArith List Bool Arith.
From Verif Require Import M_Build.
Import ListNotations.
Local Open Scope nat_scope.

(** Number of ends at [v]; a self-loop has two. *)
Definition s_ends (v : nat) (e : sedge) : nat :=
  let '(u, x, _, _) := e in
  (if u =? v then 1 else 0) + match x with Some v' => if v' =? v then 1 else 0 | None => 0 end.
Definition s_degree (v : nat) (F : list sedge) : nat := fold_right (fun e n => s_ends v e + n) 0 F.
Definition s_weight (e : sedge) : Z := let '(_, _, w, _) := e in w.
Definition s_total (F : list sedge) : Z := fold_right (fun e z => (s_weight e + z)%Z) 0%Z F.
Definition s_abs (F : list sedge) : Z := fold_right (fun e z => (Z.abs (s_weight e) + z)%Z) 0%Z F.
(** Whether observable [k] is flipped by [F]. *)
Definition s_flips (k : nat) (F : list sedge) : bool :=
  fold_right (fun e b => xorb (let '(_, _, _, obs) := e in Nat.odd (count_occ Nat.eq_dec obs k)) b) false F.

(** A selection of the edges of a list, by position. *)
Fixpoint select (E : list sedge) (X : list bool) : list sedge :=
  match E, X with e :: E', b :: X' => if b then e :: select E' X' else select E' X' | _, _ => [] end.
(** The selection in which the choice is inverted for every edge of negative weight. *)
Fixpoint invert_negative (E : list sedge) (X : list bool) : list bool :=
  match E, X with e :: E', b :: X' => xorb b (s_weight e <? 0)%Z :: invert_negative E' X' | _, _ => [] end.

(** [F] explains [evs] where the nodes of [B] are unconstrained. *)
Definition u_explains (E : list sedge) (B : nat -> bool) (F : list sedge) (evs : list nat) : Prop :=
  (forall e, In e F -> In e E) /\ forall v, B v = false -> (Nat.odd (s_degree v F) = true <-> In v evs).
(** The observables of [F] as a mask. *)
Definition u_mask (nobs : nat) (F : list sedge) : N :=
  fold_right (fun e m => N.lxor (let '(_, _, _, obs) := e in mask_of nobs obs) m) 0%N F.

(** Two edges between the same pair of nodes, in either order. *)
Definition parallel (e f : sedge) : Prop :=
  let '(a, x, _, _) := e in let '(b, y, _, _) := f in
  (a = b /\ x = y) \/ (x = Some b /\ y = Some a).
(** Every edge's nodes are below [n]. *)
Definition nodes_below (n : nat) (E : list sedge) : Prop :=
  forall u x w o, In (u, x, w, o) E -> u < n /\ match x with Some v => v < n | None => True end.

(** Membership as a boolean. *)
Definition memb (x : nat) (l : list nat) : bool := existsb (Nat.eqb x) l.
(** Selections whose odd-degree nodes are given by [S]. *)
Definition solves (E : list sedge) (S : nat -> bool) (X : list bool) : Prop :=
  length X = length E /\ forall v, Nat.odd (s_degree v (select E X)) = S v.
(** The detection events to be explained: those given, except at declared boundary nodes. *)
Definition wanted (bnd : list bool) (evs : list nat) (v : nat) : bool := memb v evs && negb (nth v bnd false).
(** Declared boundary nodes have no edges. *)
Definition boundary_bare (bnd : list bool) (E : list sedge) : Prop := forall v, nth v bnd false = true -> forall e, In e E -> s_ends v e = 0.
