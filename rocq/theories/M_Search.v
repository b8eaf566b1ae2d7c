(** Model of the shortest-path search: search/search_flooder.cc, search/search_flooder.h,
    search/search_detector_node.cc.

    The search graph has the shape of the matching graph (M_Core.graph): for each node the list of
    (neighbour or boundary, weight, observables).  Simplification: the observables of an edge are a bit mask
    (neighbor_observable_indices is a list of indices).

    [fuel], [orc] and [A] are as in M_Core.v: bound on loop iterations, choice among queue entries of equal
    time, integer conversions. *)
From Coq Require Import ZArith NArith List Bool Arith.
From Verif Require Import M_Base M_Tracker M_Core.
Import ListNotations.
Local Open Scope outcome_scope.
Local Open Scope nat_scope.

(** search_flooder.h:27-36 and the temporary fields of search_detector_node.h:31-45.  SIZE_MAX as
    index_of_predecessor is None.  target_type is only ever compared with BOUNDARY: a boolean here. *)
Record search := mkSearch {
  sfrom : nat -> option nat;           (* reached_from_source *)
  spre : nat -> option nat;            (* index_of_predecessor *)
  sdist : nat -> Z;                    (* distance_from_source *)
  strk : nat -> tracker;               (* node_event_tracker *)
  sque : list (Z * item);              (* queue; only INode entries *)
  snow : Z;                            (* queue.cur_time *)
  stick : nat;                         (* number of dequeues so far, indexes the oracle *)
  sreached : list nat;                 (* reached_nodes, last first *)
  sbnd : bool }.                       (* target_type == BOUNDARY *)

(** search_flooder.cc:19-23 and search_detector_node.h:28-29: a new flooder. *)
Definition search_init : search :=
  mkSearch (fun _ => None) (fun _ => None) (fun _ => 0%Z) (fun _ => tracker_clear) [] 0%Z 0 [] false.

Definition set_strk (s : search) v x := mkSearch (sfrom s) (spre s) (sdist s) (upd (strk s) v x) (sque s) (snow s) (stick s) (sreached s) (sbnd s).
Definition set_sque (s : search) q := mkSearch (sfrom s) (spre s) (sdist s) (strk s) q (snow s) (stick s) (sreached s) (sbnd s).
(** 78-82 and 87-93: a node becomes reached. *)
Definition reach (s : search) (v : nat) (a p : option nat) (d : Z) : search :=
  mkSearch (upd (sfrom s) v a) (upd (spre s) v p) (upd (sdist s) v d) (strk s) (sque s) (snow s) (stick s) (v :: sreached s) (sbnd s).

Section Search.
Variable G : graph.
Variable fuel : nat.
Variable orc : nat -> nat.
Variable A : ints.

(** search_flooder.cc:41-66, one neighbour: the time at which the search crosses the edge.  The division is
    C++'s, which rounds towards zero. *)
Definition crossing (s : search) (v : nat) (x : nbr) : option Z :=
  match x with
  | (None, _, _) => None
  | (Some u, w, _) =>
      if same_opt (sfrom s u) (sfrom s v) then None
      else match sfrom s u with
           | None => Some (snow s + w - (snow s - sdist s v))%Z
           | Some _ => Some (snow s + Z.quot (w - (snow s - sdist s v) - (snow s - sdist s u)) 2)%Z
           end
  end.
(** search_flooder.cc:25-68 find_next_event_at_node_returning_neighbor_index_and_time; None is SIZE_MAX.  A
    null neighbour at an index other than 0 would be dereferenced. *)
Definition find_next (s : search) (v : nat) : outcome (option (nat * Z)) :=
  let '(first, start, rest) :=
    match nbrs G v with
    | (None, w, _) :: l => ((if sbnd s then Some (0, (snow s + w - (snow s - sdist s v))%Z) else None), 1, l)
    | l => (None, 0, l)
    end in
  if forallb (fun x : nbr => match x with (None, _, _) => false | _ => true end) rest
  then Ok (scan (crossing s v) start rest first)
  else UB.

Definition wake (s : search) (v : nat) (t : Z) : search :=
  let (x, new) := set_desired (later A) (strk s v) (to_time A (snow s) t) in
  fold_left (fun s t => set_sque s ((t, INode v) :: sque s)) new (set_strk s v x).

(** search_flooder.cc:70-77 reschedule_events_at_search_detector_node *)
Definition sreschedule (s : search) (v : nat) : outcome search :=
  x <-- find_next s v ;;
  match x with
  | None => Ok (set_strk s v (set_no_desired (strk s v)))
  | Some (_, t) => Ok (wake s v t)
  end.

(** search_flooder.cc:79-85 do_search_starting_at_empty_search_detector_node *)
Definition start_at (s : search) (v : nat) : outcome search := sreschedule (reach s v (Some v) None 0%Z) v.

(** search_flooder.cc:87-96 do_search_exploring_empty_detector_node *)
Definition explore (s : search) (v i : nat) : outcome search :=
  match nth_error (nbrs G v) i with
  | Some (Some u, w, _) => sreschedule (reach s v (sfrom s u) (Some i) (w + sdist s u)%Z) v
  | _ => UB
  end.

(** search_flooder.cc:98-129 do_look_at_node_event; the result is the collision edge, if any. *)
Definition slook (s : search) (v : nat) : outcome (search * option (nat * nat)) :=
  x <-- find_next s v ;;
  match x with
  | None => Ok (s, None)
  | Some (k, t) =>
      if (t =? snow s)%Z then
        match nth_error (nbrs G v) k with
        | None => UB
        | Some (None, _, _) => Ok (s, Some (v, k))
        | Some (Some u, _, _) =>
            match sfrom s v, sfrom s u with
            | Some _, None =>
                i <-- index_of_neighbor G u (Some v) ;;
                s1 <-- explore s u i ;;
                Ok (wake s1 v (snow s1), None)
            | _, _ => Ok (s, Some (v, k))
            end
        end
      else Ok (wake s v t, None)
  end.

(** radix_heap_queue.h dequeue, abstractly as in M_Core.dequeue. *)
Definition sdequeue (s : search) : option (Z * item * search) :=
  match sque s with
  | [] => None
  | (t0, _) :: q' =>
      let m := min_time t0 q' in
      let cands := filter (fun e => (fst e =? m)%Z) (sque s) in
      match nth_error cands (orc (stick s) mod length cands) with
      | None => None
      | Some (t, i) =>
          Some (t, i, mkSearch (sfrom s) (spre s) (sdist s) (strk s) (remove_first t i (sque s)) t (S (stick s)) (sreached s) (sbnd s))
      end
  end.

(** search_flooder.cc:140-149: the loop of run_until_collision. *)
Fixpoint srun (k : nat) (s : search) : outcome (search * option (nat * nat)) :=
  match k with
  | O => Fuel
  | S k' =>
      match sdequeue s with
      | None => Ok (s, None)
      | Some (_, IRegion _, _) => UB
      | Some (t, INode v, s1) =>
          let '(keep, x, new) := dequeue_decision (strk s1 v) t in
          let s2 := fold_left (fun s t => set_sque s ((t, INode v) :: sque s)) new (set_strk s1 v x) in
          if keep then
            r <-- slook s2 v ;;
            match snd r with None => srun k' (fst r) | Some c => Ok (fst r, Some c) end
          else srun k' s2
      end
  end.

Definition set_target (s : search) (b : bool) : search :=
  mkSearch (sfrom s) (spre s) (sdist s) (strk s) (sque s) (snow s) (stick s) (sreached s) b.

(** search_flooder.cc:131-150 run_until_collision *)
Definition run_until_collision (s : search) (a : nat) (b : option nat) : outcome (search * option (nat * nat)) :=
  s1 <-- match b with None => Ok (set_target s true) | Some d => start_at (set_target s false) d end ;;
  s2 <-- start_at s1 a ;;
  srun fuel s2.

(** search_flooder.cc:152-161, search_detector_node.cc:26-30; radix_heap_queue.h reset. *)
Definition sreset_node (s : search) (v : nat) : search :=
  mkSearch (upd (sfrom s) v None) (upd (spre s) v None) (sdist s) (upd (strk s) v tracker_clear) (sque s) (snow s) (stick s) (sreached s) (sbnd s).
Definition sreset (s : search) : search :=
  let s1 := fold_left sreset_node (rev (sreached s)) s in
  mkSearch (sfrom s1) (spre s1) (sdist s1) (strk s1) [] 0%Z (stick s1) [] (sbnd s1).

(** search_flooder.h:64-72 iter_edges_on_path_traced_back_from_node: the edges (node, neighbour index) in the
    order in which they are handled. *)
Fixpoint trace (k : nat) (s : search) (v : nat) : outcome (list (nat * nat)) :=
  match k with
  | O => Fuel
  | S k' =>
      match spre s v with
      | None => Ok []
      | Some i =>
          match nth_error (nbrs G v) i with
          | Some (Some u, _, _) => l <-- trace k' s u ;; Ok ((v, i) :: l)
          | _ => UB
          end
      end
  end.
(** The neighbour at the other end of an edge; an index out of range is undefined. *)
Definition other_end (c : nat * nat) : outcome (option nat) :=
  match nth_error (nbrs G (fst c)) (snd c) with None => UB | Some (x, _, _) => Ok x end.

(** search_flooder.h:74-82 iter_edges_tracing_back_from_collision_edge; the collision edge must not be null. *)
Definition trace_collision (s : search) (c : option (nat * nat)) : outcome (list (nat * nat)) :=
  match c with
  | None => UB
  | Some c =>
      l1 <-- trace fuel s (fst c) ;;
      x <-- other_end c ;;
      l2 <-- match x with None => Ok [] | Some u => trace fuel s u end ;;
      Ok (l1 ++ l2 ++ [c])
  end.

(** graph.nodes[i] *)
Definition in_nodes (v : nat) : bool := v <? length G.
Definition ends_ok (a : nat) (b : option nat) : bool := in_nodes a && match b with None => true | Some d => in_nodes d end.

(** search_flooder.h:84-90 iter_edges_on_shortest_path_from_middle *)
Definition path_from_middle (s : search) (a : nat) (b : option nat) : outcome (search * list (nat * nat)) :=
  if ends_ok a b then
    r <-- run_until_collision s a b ;;
    l <-- trace_collision (fst r) (snd r) ;;
    Ok (sreset (fst r), l)
  else UB.

(** search_flooder.h:92-101 reverse_path_and_handle_edges *)
Definition reverse_edge (c : nat * nat) : outcome (nat * nat) :=
  x <-- other_end c ;;
  u <-- deref x ;;
  i <-- index_of_neighbor G u (Some (fst c)) ;;
  Ok (u, i).
Fixpoint mapO {X Y} (f : X -> outcome Y) (l : list X) : outcome (list Y) :=
  match l with
  | [] => Ok []
  | x :: l' => y <-- f x ;; ys <-- mapO f l' ;; Ok (y :: ys)
  end.
Definition reverse_path (l : list (nat * nat)) : outcome (list (nat * nat)) := mapO reverse_edge (rev l).

(** search_flooder.h:103-137 iter_edges_on_shortest_path_from_source *)
Definition path_from_source (s : search) (a : nat) (b : option nat) : outcome (search * list (nat * nat)) :=
  if ends_ok a b then
    r <-- run_until_collision s a b ;;
    match snd r with
    | None => UB
    | Some c =>
        l1 <-- trace fuel (fst r) (fst c) ;;
        x <-- other_end c ;;
        l2' <-- match x with None => Ok [] | Some u => trace fuel (fst r) u end ;;
        let l2 := c :: l2' in
        z <-- other_end (last l2 c) ;;
        l <-- (if same_opt z (Some a)
               then l2r <-- reverse_path l2 ;; Ok (l2r ++ l1)
               else l1r <-- reverse_path l1 ;; Ok (l1r ++ l2)) ;;
        Ok (sreset (fst r), l)
    end
  else UB.
End Search.
