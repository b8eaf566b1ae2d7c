(** Model of the part of decode_detection_events_to_edges that turns paths into a set of edges:
    driver/mwpm_decoding.cc:259-266 (flip_edge) and 281-325.

    [M] holds neighbor_markers: a byte for each cell (node, neighbour index).  The vector [edges] of int64
    pairs is a list of pairs (node1, node2), node2 = None for -1. *)
From Coq Require Import ZArith NArith List Bool Arith.
From Verif Require Import M_Base M_Core.
Import ListNotations.
Local Open Scope outcome_scope.

Definition marks : Type := nat -> nat -> N.
Definition set_mark (M : marks) (u i : nat) (x : N) : marks :=
  fun u' i' => if (u' =? u) && (i' =? i) then x else M u' i'.
Definition flip_cell (M : marks) (u i : nat) : marks := set_mark M u i (N.lxor (M u i) 1).

(** 259-266 *)
Definition flip_edge (G : graph) (M : marks) (u i : nat) : outcome marks :=
  match nth_error (nbrs G u) i with
  | None => UB
  | Some (None, _, _) => Ok (flip_cell M u i)
  | Some (Some v, _, _) => k <-- index_of_neighbor G v (Some u) ;; Ok (flip_cell (flip_cell M u i) v k)
  end.

(** 293-305: every path edge (node, neighbour index) is flipped and appended. *)
Fixpoint collect (G : graph) (M : marks) (path : list (nat * nat)) (edges : list (nat * option nat))
  : outcome (marks * list (nat * option nat)) :=
  match path with
  | [] => Ok (M, edges)
  | (u, i) :: rest =>
      M' <-- flip_edge G M u i ;;
      match nth_error (nbrs G u) i with
      | None => UB
      | Some (x, _, _) => collect G M' rest (edges ++ [(u, x)])
      end
  end.

(** 306-325: [done] are the entries before position i, [rest] those from i on.  An entry whose edge is not
    marked is overwritten by the last one, which is removed; otherwise the edge is unmarked. *)
Fixpoint cancel (fuel : nat) (G : graph) (M : marks) (done rest : list (nat * option nat))
  : outcome (marks * list (nat * option nat)) :=
  match fuel with
  | O => Fuel
  | S fuel' =>
      match rest with
      | [] => Ok (M, done)
      | (u, v) :: tl =>
          idx <-- (match v with None => Ok 0 | Some _ => index_of_neighbor G u v end) ;;
          if negb (N.testbit (M u idx) 0) then
            cancel fuel' G M done (match rev tl with [] => [] | y :: _ => y :: removelast tl end)
          else
            M' <-- flip_edge G M u idx ;;
            cancel fuel' G M' (done ++ [(u, v)]) tl
      end
  end.
Definition edges_of_paths (G : graph) (M : marks) (path : list (nat * nat)) : outcome (marks * list (nat * option nat)) :=
  st <-- collect G M path [] ;;
  cancel (S (length (snd st))) G (fst st) [] (snd st).
