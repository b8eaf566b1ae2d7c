(** Asking a graph with negative weights for the matched detection events. *)
From Coq Require Import Reals ZArith List Bool Arith.
From Verif Require Import M_Base M_Core M_Bits M_Merge M_Matching S_Matching M_UserGraph S_UserGraph S_Pipeline.
Import ListNotations.
Local Open Scope nat_scope.

(** decode_to_matched_dets_array and decode_to_matched_dets_dict *)
Definition asks_pairs (c : mcall) : Prop := match c with AskPairs _ | AskDict _ => True | _ => False end.
(** An edge has a weight which is negative, and not so small that it is taken for zero: weights are only told apart up to half a step,
    unless all of them are integers. *)
Definition negative_weights (g : ugraph RN) : Prop :=
  exists e, In e (edges g) /\
    ((integer_weights g /\ (weight e < 0)%R) \/
     exists M, (forall f, In f (edges g) -> (Rabs (weight f) <= M)%R) /\ (weight e < - half_step M)%R).
(** Weights may be negative, but only if they are so small beside the weight of some other edge that they are taken for zero.  (An edge
    whose weight is not negative can itself be that edge.) *)
Definition small_negatives (g : ugraph RN) : Prop :=
  forall e, In e (edges g) -> exists f, In f (edges g) /\ (- (Rabs (weight f) / IZR (2 ^ 25)) <= weight e)%R.
(** Calls as before, except that graphs with negative weights are asked for the matched detection events. *)
Definition fair_signed (g : ugraph RN) (c : mcall) : Prop :=
  match c with
  | AskPairs z | AskDict z => accepted g z -> usable g /\ (negative_weights g \/ (small_negatives g /\ askable g (event_at z)))
  | _ => fair g c
  end.
(** They have to be answered as before, except that an exception is raised if there are negative weights. *)
Definition right_signed (g : ugraph RN) (c : mcall) (r : mreply) : Prop :=
  (asks_pairs c -> negative_weights g -> r = Raised) /\ ((asks_pairs c -> small_negatives g) -> right g c r).
(** Every call with its reply, judged on the graph at that time. *)
Fixpoint each (J : ugraph RN -> mcall -> mreply -> Prop) (g : ugraph RN) (cs : list mcall) (rs : list mreply) : Prop :=
  match cs, rs with
  | [], [] => True
  | c :: cs', r :: rs' => J g c r /\ each J (after g c) cs' rs'
  | _, _ => False
  end.
