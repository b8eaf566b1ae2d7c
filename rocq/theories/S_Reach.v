(** Specification: how far apart nodes are. *)
From Coq Require Import ZArith NArith List.
From Verif Require Import M_Base M_Core S_Core M_Build.
Import ListNotations.
Local Open Scope Z_scope.

(** Any two of the events that are joined by a path are joined by one shorter than [D], and any event joined to the boundary is joined
    to it by a path shorter than [D]. *)
Definition within (G : graph) (ev : list nat) (D : Z) : Prop :=
  forall s x l o, In s ev -> match x with Some s' => In s' ev | None => True end -> path G s x l o -> exists l' o', path G s x l' o' /\ l' < D.

(** Any node joined by a path to another node, or to the boundary, is joined to it by one shorter than [D]. *)
Definition joined_within (G : graph) (D : Z) : Prop := forall a x l o, path G a x l o -> exists l' o', path G a x l' o' /\ l' < D.

(** The same for the edges given by the caller: a path, its length being the sum of the absolute values of the weights, ... *)
Inductive s_path (E : list sedge) (a : nat) : option nat -> Z -> Prop :=
| s_path_here : s_path E a (Some a) 0
| s_path_step : forall v l x u y w o, s_path E a (Some v) l -> In (u, y, w, o) E -> (u = v /\ y = x) \/ (y = Some v /\ x = Some u) -> s_path E a x (l + Z.abs w).
(** ... and any two nodes. *)
Definition s_within (E : list sedge) (D : Z) : Prop := forall a x l, s_path E a x l -> exists l', s_path E a x l' /\ l' < D.

(** The machine's integers are wide enough: some correction has weight [w] below 2^31, or no two nodes joined by a path are further
    apart than that. *)
Definition wide_enough (E : list sedge) (w : Z) : Prop := w < 2147483648 \/ s_within E 2147483648.
