(** Specification for C08 on the Matching object: padding bits of packed shots. *)
From Coq Require Import Reals ZArith List.
From Verif Require Import M_Bits M_Merge M_UserGraph M_Matching.
Import ListNotations.

(** The node has an edge other than a loop. *)
Definition has_neighbour (g : ugraph RN) (v : nat) : Prop :=
  exists e, In e (edges g) /\ ((node1 e = v /\ node2 e <> Some v) \/ (node2 e = Some v /\ node1 e <> v)).
(** Requests for predictions, weights or pairs; batches are not empty. *)
Definition request (c : mcall) : Prop :=
  match c with
  | AskDecode _ | AskPairs _ | AskDict _ => True
  | AskBatch _ _ (Syn2 _ []) => False
  | AskBatch _ _ _ => True
  | _ => False
  end.
