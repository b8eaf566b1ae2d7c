(** Model of the functions that look at the decoder's data without changing it: the order and equality of regions
    (flooder/graph_fill_region.cc:40-57, 100-125), the radius of a node within a region
    (flooder/detector_node.cc:66-100) and the functions that walk over an alternating tree
    (matcher/alternating_tree.cc:76-82, 109-136).  They serve the drawings of the decoder's state and the tests.

    Not modelled: compute_stitch_radius_at_time_bounded_by_region_towards_neighbor, which only draws. *)
From Coq Require Import ZArith NArith List Bool Arith.
From Verif Require Import M_Base M_Varying M_Core.
Import ListNotations.
Local Open Scope outcome_scope.
Local Open Scope nat_scope.

(** compressed_edge.cc:17-19 operator== *)
Definition cedge_equal (e f : cedge) : bool :=
  same_opt (efrom e) (efrom f) && same_opt (eto e) (eto f) && (eobs e =? eobs f)%N.
(** std::vector's operator==, on shell areas *)
Fixpoint nodes_equal (l m : list nat) : bool :=
  match l, m with
  | [], [] => true
  | x :: l', y :: m' => (x =? y) && nodes_equal l' m'
  | _, _ => false
  end.
(** The loops of the two tree_equal functions over children, graph_fill_region.cc:47-52, alternating_tree.cc:116-121 *)
Fixpoint children_equal (eq : nat -> nat -> outcome bool) (l m : list (nat * cedge)) : outcome bool :=
  match l, m with
  | (a, e) :: l', (b, f) :: m' =>
      if negb (cedge_equal e f) then Ok false
      else x <-- eq a b ;; if negb x then Ok false else children_equal eq l' m'
  | _, _ => Ok true
  end.

(** graph_fill_region.cc:100-106 operator<= *)
Fixpoint le_loop (k : nat) (g : regionsM) (r : option nat) (rhs : nat) : outcome bool :=
  match k with
  | O => Fuel
  | S k' => match r with None => Ok false | Some x => if x =? rhs then Ok true else le_loop k' g (bpar g x) rhs end
  end.
Section Inspect.
Variable fuel : nat.
Variable s : state.
Definition region_le (a b : nat) : outcome bool := le_loop fuel (rg s) (Some a) b.
(** graph_fill_region.cc:108-118 operators <, > and >= *)
Definition region_lt (a b : nat) : outcome bool := if negb (a =? b) then region_le a b else Ok false.
Definition region_gt (a b : nat) : outcome bool := region_lt b a.
Definition region_ge (a b : nat) : outcome bool := region_le b a.

(** graph_fill_region.cc:40-57 tree_equal, operator== *)
Fixpoint region_equal_loop (k : nat) (a b : nat) : outcome bool :=
  match k with
  | O => Fuel
  | S k' =>
      let g := rg s in
      if negb (same_opt (alt (ma s) a) (alt (ma s) b)) || negb (rad g a =? rad g b)%Z ||
         negb (length (chl g a) =? length (chl g b)) || negb (nodes_equal (shl g a) (shl g b)) then Ok false
      else children_equal (region_equal_loop k') (chl g a) (chl g b)
  end.
Definition region_equal (a b : nat) : outcome bool := region_equal_loop fuel a b.

(** detector_node.cc:66-100 compute_local_radius_at_time_bounded_by_region.  Overflow of the 64-bit sum is not modelled. *)
Fixpoint radius_loop (k : nat) (time : Z) (bounding : nat) (container : option nat) (container_radius : Z) : outcome Z :=
  match k with
  | O => Fuel
  | S k' =>
      match container with
      | None => Ok container_radius
      | Some c =>
          above <-- region_gt c bounding ;;
          if above : bool then Ok container_radius
          else
            let sum := (container_radius + get_distance_at_time (rad (rg s) c) time)%Z in
            last <-- region_equal c bounding ;;
            if last : bool then Ok sum else radius_loop k' time bounding (bpar (rg s) c) sum
      end
  end.
Definition bounded_radius (v : nat) (time : Z) (bounding : nat) : outcome Z :=
  match arr (nd s) v with
  | None => Ok 0%Z
  | Some r =>
      above <-- region_gt r bounding ;;
      if above : bool then Ok 0%Z
      else x <-- radius_loop fuel time bounding (Some r) 0%Z ;; Ok (x - rar (nd s) v)%Z
  end.

(** alternating_tree.cc:76-82 find_root *)
Fixpoint root_loop (k : nat) (current : nat) : outcome nat :=
  match k with
  | O => Fuel
  | S k' => match par (tr s) current with Some p => root_loop k' p | None => Ok current end
  end.
Definition find_root (a : nat) : outcome nat := root_loop fuel a.

(** alternating_tree.cc:109-123 tree_equal, operator== *)
Fixpoint tree_equal_loop (k : nat) (a b : nat) : outcome bool :=
  match k with
  | O => Fuel
  | S k' =>
      let t := tr s in
      if negb (same_opt (inn t a) (inn t b)) || negb (same_opt (out t a) (out t b)) ||
         negb (cedge_equal (i2o t a) (i2o t b)) || negb (length (kid t a) =? length (kid t b)) then Ok false
      else children_equal (tree_equal_loop k') (kid t a) (kid t b)
  end.
Definition tree_equal (a b : nat) : outcome bool := tree_equal_loop fuel a b.

(** alternating_tree.cc:125-136 all_nodes_in_tree *)
Fixpoint all_loop (n : nat) (all_nodes : list nat) (k : nat) : outcome (list nat) :=
  match n with
  | O => Fuel
  | S n' =>
      match nth_error all_nodes k with
      | None => Ok all_nodes
      | Some x => all_loop n' (all_nodes ++ map fst (kid (tr s) x)) (S k)
      end
  end.
Definition all_nodes_in_tree (a : nat) : outcome (list nat) := all_loop fuel [a] 0.
End Inspect.
