(** Specification of alternating forests and of cycles of regions, independent of the operations on them. *)
From Coq Require Import List Arith Bool.
From Verif Require Import M_Core.
Import ListNotations.

(** [q] is [b] or an ancestor of [b]. *)
Inductive anc (T : treesM) : nat -> nat -> Prop :=
| anc_refl : forall b, anc T b b
| anc_step : forall b q r, par T b = Some q -> anc T q r -> anc T b r.

(** A forest of alternating trees on the nodes [A]: parent and child lists agree, no cycles; roots have only
    an outer region, other nodes an inner and an outer one; inner regions are not shared. *)
Record forest (A : nat -> Prop) (T : treesM) : Prop := {
  f_acyclic : exists depth : nat -> nat, forall b q, A b -> par T b = Some q -> A q /\ depth q < depth b;
  f_child : forall b q, A b -> par T b = Some q -> In (b, rev_e (ped T b)) (kid T q);
  f_parent : forall a b e, A a -> In (b, e) (kid T a) -> A b /\ par T b = Some a /\ ped T b = rev_e e;
  f_nodup : forall a, A a -> NoDup (map fst (kid T a));
  f_outer : forall b, A b -> out T b <> None;
  f_inner : forall b, A b -> (inn T b = None <-> par T b = None);
  f_distinct : forall b b' i, A b -> A b' -> inn T b = Some i -> inn T b' = Some i -> b = b' }.

(** The connections of a forest: inner region, outer region, edge from the first to the second. *)
Definition connection (A : nat -> Prop) (T : treesM) (i o : nat) (e : cedge) : Prop :=
  exists b q, A b /\ par T b = Some q /\ inn T b = Some i /\
    ((out T b = Some o /\ i2o T b = e) \/ (out T q = Some o /\ ped T b = e)).

(** A cycle of regions is a list of (region, edge to the next region). *)
Definition region_at (cyc : list (nat * cedge)) (i : nat) : nat := fst (nth (i mod length cyc) cyc dflt).
Definition edge_at (cyc : list (nat * cedge)) (i : nat) : cedge := snd (nth (i mod length cyc) cyc dflt).
(** [e] connects [x] to [y] and these are neighbours on the cycle. *)
Definition cyc_link (cyc : list (nat * cedge)) (x y : nat) (e : cedge) : Prop :=
  exists i, i < length cyc /\
    ((x = region_at cyc i /\ y = region_at cyc (S i) /\ e = edge_at cyc i) \/
     (y = region_at cyc i /\ x = region_at cyc (S i) /\ e = rev_e (edge_at cyc i))).
(** An alternating path along the cycle: (inner, outer, edge between them, edge to the next inner or to the end). *)
Fixpoint seg_path (cyc : list (nat * cedge)) (start : nat) (seg : list (nat * nat * cedge * cedge)) (stop : nat) : Prop :=
  match seg with
  | [] => start = stop
  | (i, o, e, e') :: seg' =>
      i = start /\ cyc_link cyc i o e /\ exists next, cyc_link cyc o next e' /\ seg_path cyc next seg' stop
  end.
Definition pair_regions (l : list (nat * nat * cedge)) : list nat := flat_map (fun x => [fst (fst x); snd (fst x)]) l.
Definition seg_regions (l : list (nat * nat * cedge * cedge)) : list nat :=
  flat_map (fun x => [fst (fst (fst x)); snd (fst (fst x))]) l.
