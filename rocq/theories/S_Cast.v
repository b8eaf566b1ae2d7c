(** Specification of arrays of integers given as detection events. *)
From Coq Require Import Reals ZArith List Bool Arith.
From Verif Require Import M_Bits S_Bits M_Merge M_UserGraph M_Matching.
Import ListNotations.
Local Open Scope nat_scope.

(** The entries of an array, and one array that differs from another by multiples of 256. *)
Definition array_entries (z : syndrome) : list Z := match z with Syn1 l => l | Syn2 _ rows => concat rows | SynOther => [] end.
Definition array_of (c : mcall) : syndrome := match c with Modify _ => SynOther | AskDecode z | AskBatch _ _ z | AskEdges z | AskPairs z | AskDict z => z end.
Definition congruent (x y : Z) : Prop := (256 | x - y)%Z.
Definition same_modulo (z z' : syndrome) : Prop :=
  match z, z' with
  | Syn1 l, Syn1 l' => Forall2 congruent l l'
  | Syn2 n rows, Syn2 n' rows' => n = n' /\ Forall2 (Forall2 congruent) rows rows'
  | SynOther, SynOther => True
  | _, _ => False
  end.
Definition same_call_modulo (c c' : mcall) : Prop :=
  match c, c' with
  | Modify x, Modify x' => x = x'
  | AskDecode z, AskDecode z' | AskEdges z, AskEdges z' | AskPairs z, AskPairs z' | AskDict z, AskDict z' => same_modulo z z'
  | AskBatch ps pp z, AskBatch ps' pp' z' => ps = ps' /\ pp = pp' /\ same_modulo z z'
  | _, _ => False
  end.
(** The arrays are arrays of bytes, for example binary arrays. *)
Definition byte_array (z : syndrome) : Prop := forall x, In x (array_entries z) -> (0 <= x < 256)%Z.
(** The node has an entry that is no multiple of 256. *)
Definition counted_at (z : syndrome) (v : nat) : Prop :=
  match z with
  | Syn1 l => ~ (256 | nth v l 0)%Z
  | Syn2 ncols rows => exists t c, (t < ncols /\ c < length rows /\ v = t * length rows + c) /\ ~ (256 | nth t (nth c rows []) 0)%Z
  | SynOther => False
  end.
Definition counted_in_shot (packed : bool) (shot : list Z) (v : nat) : Prop := if packed then packed_bit shot v = true else ~ (256 | nth v shot 0)%Z.
