(** Specification of what the reported weights may depend on. *)
From Coq Require Import Reals ZArith List Bool Arith Permutation.
From Verif Require Import M_Bits M_Merge M_UserGraph S_UserGraph S_Pipeline M_Matching S_Matching.
Import ListNotations.
Local Open Scope nat_scope.

(** The graph after a series of calls. *)
Definition graph_after (g : ugraph RN) (cs : list mcall) : ugraph RN := fold_left after cs g.

(** [f] gives every node a new number. *)
Definition numbering (f : nat -> nat) : Prop := exists h, (forall v, h (f v) = v) /\ forall v, f (h v) = v.
(** [e2] is [e1] with the new numbers, in either orientation, and with the same weight; and also with the same fault ids. *)
Definition renamed (f : nat -> nat) (e1 e2 : uedge RN) : Prop :=
  weight e2 = weight e1 /\
  ((node1 e2 = f (node1 e1) /\ node2 e2 = option_map f (node2 e1)) \/
   exists v, node2 e1 = Some v /\ node1 e2 = f v /\ node2 e2 = Some (f (node1 e1))).
Definition renamed_with_ids (f : nat -> nat) (e1 e2 : uedge RN) : Prop := renamed f e1 e2 /\ Permutation (obs e1) (obs e2).
(** The edges of the one graph, in some order, are like those of the other, and the boundary nodes have the new numbers. *)
Definition same_up_to (like : uedge RN -> uedge RN -> Prop) (f : nat -> nat) (g1 g2 : ugraph RN) : Prop :=
  (exists L, Permutation L (edges g2) /\ Forall2 like (edges g1) L) /\ forall v, In v (bnodes g1) <-> In (f v) (bnodes g2).
(** The same events, except at boundary nodes, where events do not matter. *)
Definition same_events (f : nat -> nat) (g1 : ugraph RN) (P1 P2 : nat -> Prop) : Prop := forall v, ~ In v (bnodes g1) -> (P1 v <-> P2 (f v)).

(** A call that has weights in its reply, with the events of every shot. *)
Definition asks_weights (g : ugraph RN) (c : mcall) (Ps : list (nat -> Prop)) : Prop :=
  match c with
  | AskDecode z => accepted g z /\ Ps = [event_at z]
  | AskBatch packed _ (Syn2 ncols shots) => accepted_batch g packed (Syn2 ncols shots) /\ Ps = map (shot_event packed) shots
  | _ => False
  end.
(** The weights in a reply, if it is not an exception. *)
Definition weights_told (r : mreply) : option (list R) :=
  match r with Row _ w => Some [w] | Rows l => Some (map snd l) | _ => None end.
(** Corrections that are as light as any flip the same observables. *)
Definition clear_cut (g : ugraph RN) (P : nat -> Prop) : Prop :=
  forall evs F F', (forall v, In v evs <-> P v) -> corrects g F evs -> near_best g F evs -> corrects g F' evs -> near_best g F' evs ->
    forall k, flips_observable k F = flips_observable k F'.

(** Additions of edges that all join different pairs. *)
Definition addition (x : op RN) : Prop := match x with OpAdd _ _ _ w _ _ => w_exceeds RN w = false | _ => False end.
Definition different_pairs (x y : op RN) : Prop :=
  match x, y with OpAdd u v _ _ _ _, OpAdd u' v' _ _ _ _ => ~ ((u = u' /\ v = v') \/ (v = Some u' /\ v' = Some u)) | _, _ => True end.
Definition different_edges (ops : list (op RN)) : Prop := Forall addition ops /\ ForallOrdPairs different_pairs ops.
