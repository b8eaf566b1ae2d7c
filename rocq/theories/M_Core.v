(** Model of the decoder's core: detector nodes, fill regions, alternating trees, the flooder and the
    matcher (flooder/detector_node.cc, flooder/graph_fill_region.cc, flooder/graph_flooder.cc,
    matcher/alternating_tree.cc, matcher/mwpm.cc).

    Conventions.
    - Pointers to nodes, regions and tree nodes are natural numbers, null is [None]; dereferencing null is
      [UB].  Memory is one total function per field ("struct of arrays"); a destroyed object keeps its last
      field values until its slot is reused.
    - The event queue is a multiset of (time, item) over unbounded times.  [dequeue] delivers an entry of
      minimal time; which one, if there are several, is decided by an arbitrary oracle [orc].  T_RadixHeap.v
      proves that radix_heap_queue delivers an entry of minimal time.
    - Integers are unbounded, except for the conversions named in [ints] below.
    - obs_int masks are [N] with bitwise xor.
    - Loops without evident bound use [fuel] and return [Fuel] when it runs out.
    - std::vector used as a stack (shell_area, Arena::available) is stored back first. *)
From Coq Require Import ZArith NArith List Bool Arith.
From Verif Require Import M_Base M_Varying M_Tracker.
Import ListNotations.
Local Open Scope outcome_scope.
Local Open Scope nat_scope.

(** flooder_matcher_interop/compressed_edge.h: loc_from, loc_to, obs_mask *)
Record cedge := mkE { efrom : option nat; eto : option nat; eobs : N }.
Definition cedge_null : cedge := mkE None None 0.
(** compressed_edge.cc reversed *)
Definition rev_e (e : cedge) : cedge := mkE (eto e) (efrom e) (eobs e).

(** One entry of DetectorNode::neighbors / neighbor_weights / neighbor_observables (detector_node.h:64-66);
    neighbor [None] is the boundary. *)
Definition nbr : Type := option nat * Z * N.
Definition graph : Type := list (list nbr).
Definition nbrs (G : graph) (v : nat) : list nbr := nth v G [].

(** detector_node.h:42-60, ephemeral fields except the tracker *)
Record nodesM := mkN {
  arr : nat -> option nat;   (* region_that_arrived *)
  top : nat -> option nat;   (* region_that_arrived_top *)
  wrp : nat -> Z;            (* wrapped_radius_cached *)
  src : nat -> option nat;   (* reached_from_source *)
  crs : nat -> N;            (* observables_crossed_from_source *)
  rar : nat -> Z }.          (* radius_of_arrival *)

(** graph_fill_region.h:35-67 *)
Record regionsM := mkR {
  bpar : nat -> option nat;            (* blossom_parent *)
  btop : nat -> option nat;            (* blossom_parent_top *)
  rad : nat -> Z;                      (* radius (packed) *)
  chl : nat -> list (nat * cedge);     (* blossom_children *)
  shl : nat -> list nat }.             (* shell_area, back first *)
Record matchM := mkM {
  alt : nat -> option nat;             (* alt_tree_node *)
  mreg : nat -> option nat;            (* match.region *)
  medge : nat -> cedge }.              (* match.edge *)

(** alternating_tree.h:83-95 *)
Record treesM := mkT {
  inn : nat -> option nat;             (* inner_region *)
  out : nat -> option nat;             (* outer_region *)
  i2o : nat -> cedge;                  (* inner_to_outer_edge *)
  par : nat -> option nat;             (* parent.alt_tree_node *)
  ped : nat -> cedge;                  (* parent.edge *)
  kid : nat -> list (nat * cedge);     (* children *)
  vis : nat -> bool }.                 (* visited *)

(** arena.h: [free] = available (back first); the slots ever allocated are 0, ..., [next]-1. *)
Record slots := mkS { free : list nat; next : nat }.

(** tracker/flood_check_event.h *)
Inductive item := INode (v : nat) | IRegion (r : nat).
Definition item_eqb (a b : item) : bool :=
  match a, b with INode x, INode y => x =? y | IRegion x, IRegion y => x =? y | _, _ => false end.

Record schedM := mkQ {
  ntr : nat -> tracker;                (* node_event_tracker *)
  rtr : nat -> tracker;                (* shrink_event_tracker *)
  que : list (Z * item);               (* queue *)
  now : Z;                             (* queue.cur_time *)
  tick : nat }.                        (* number of dequeues so far, indexes the oracle *)

Record state := mkState { nd : nodesM; rg : regionsM; ma : matchM; tr : treesM; ra : slots; ta : slots; sc : schedM }.

(** Setters. *)
Definition set_nd (s : state) x := mkState x (rg s) (ma s) (tr s) (ra s) (ta s) (sc s).
Definition set_rg (s : state) x := mkState (nd s) x (ma s) (tr s) (ra s) (ta s) (sc s).
Definition set_ma (s : state) x := mkState (nd s) (rg s) x (tr s) (ra s) (ta s) (sc s).
Definition set_tr (s : state) x := mkState (nd s) (rg s) (ma s) x (ra s) (ta s) (sc s).
Definition set_ra (s : state) x := mkState (nd s) (rg s) (ma s) (tr s) x (ta s) (sc s).
Definition set_ta (s : state) x := mkState (nd s) (rg s) (ma s) (tr s) (ra s) x (sc s).
Definition set_sc (s : state) x := mkState (nd s) (rg s) (ma s) (tr s) (ra s) (ta s) x.

Definition set_arr n v x := mkN (upd (arr n) v x) (top n) (wrp n) (src n) (crs n) (rar n).
Definition set_top n v x := mkN (arr n) (upd (top n) v x) (wrp n) (src n) (crs n) (rar n).
Definition set_wrp n v x := mkN (arr n) (top n) (upd (wrp n) v x) (src n) (crs n) (rar n).
Definition set_src n v x := mkN (arr n) (top n) (wrp n) (upd (src n) v x) (crs n) (rar n).
Definition set_crs n v x := mkN (arr n) (top n) (wrp n) (src n) (upd (crs n) v x) (rar n).
Definition set_rar n v x := mkN (arr n) (top n) (wrp n) (src n) (crs n) (upd (rar n) v x).

Definition set_bpar g r x := mkR (upd (bpar g) r x) (btop g) (rad g) (chl g) (shl g).
Definition set_btop g r x := mkR (bpar g) (upd (btop g) r x) (rad g) (chl g) (shl g).
Definition set_rad g r x := mkR (bpar g) (btop g) (upd (rad g) r x) (chl g) (shl g).
Definition set_chl g r x := mkR (bpar g) (btop g) (rad g) (upd (chl g) r x) (shl g).
Definition set_shl g r x := mkR (bpar g) (btop g) (rad g) (chl g) (upd (shl g) r x).

Definition set_alt m r x := mkM (upd (alt m) r x) (mreg m) (medge m).
Definition set_match m r x e := mkM (alt m) (upd (mreg m) r x) (upd (medge m) r e).
Definition set_mreg m r x := mkM (alt m) (upd (mreg m) r x) (medge m).

Definition set_inn t a x := mkT (upd (inn t) a x) (out t) (i2o t) (par t) (ped t) (kid t) (vis t).
Definition set_out t a x := mkT (inn t) (upd (out t) a x) (i2o t) (par t) (ped t) (kid t) (vis t).
Definition set_i2o t a x := mkT (inn t) (out t) (upd (i2o t) a x) (par t) (ped t) (kid t) (vis t).
Definition set_parent t a x e := mkT (inn t) (out t) (i2o t) (upd (par t) a x) (upd (ped t) a e) (kid t) (vis t).
Definition set_kid t a x := mkT (inn t) (out t) (i2o t) (par t) (ped t) (upd (kid t) a x) (vis t).
Definition set_vis t a x := mkT (inn t) (out t) (i2o t) (par t) (ped t) (kid t) (upd (vis t) a x).

Definition set_ntr q v x := mkQ (upd (ntr q) v x) (rtr q) (que q) (now q) (tick q).
Definition set_rtr q v x := mkQ (ntr q) (upd (rtr q) v x) (que q) (now q) (tick q).
Definition set_que q x := mkQ (ntr q) (rtr q) x (now q) (tick q).

(** Dereference of a pointer. *)
Definition deref (p : option nat) : outcome nat := match p with Some x => Ok x | None => UB end.

Definition foldS {A} (f : state -> A -> outcome state) (l : list A) (s : state) : outcome state :=
  fold_left (fun o a => bindO o (fun s => f s a)) l (Ok s).

(** ** Arenas (arena.h:39-59, see also M_Arena.v) *)
Definition alloc (a : slots) : nat * slots :=
  match free a with
  | [] => (next a, mkS [] (S (next a)))
  | p :: rest => (p, mkS rest (next a))
  end.
Definition del (a : slots) (p : nat) : slots := mkS (p :: free a) (next a).

(** graph_fill_region.cc:22-29 GraphFillRegion(): everything but match, which is left uninitialised. *)
Definition new_region (s : state) : nat * state :=
  let (r, a) := alloc (ra s) in
  (r, mkState (nd s)
        (mkR (upd (bpar (rg s)) r None) (upd (btop (rg s)) r (Some r)) (upd (rad (rg s)) r 1%Z)
             (upd (chl (rg s)) r []) (upd (shl (rg s)) r []))
        (set_alt (ma s) r None) (tr s) a (ta s) (set_rtr (sc s) r tracker_clear)).
Definition del_region (s : state) (r : nat) : state := set_ra s (del (ra s) r).

(** alternating_tree.cc:43-66 AltTreeNode(outer) and AltTreeNode(inner, outer, edge) *)
Definition new_tree_node (s : state) (i : option nat) (o : nat) (e : cedge) : nat * state :=
  let (a, sl) := alloc (ta s) in
  let m1 := match i with Some r => set_alt (ma s) r (Some a) | None => ma s end in
  (a, mkState (nd s) (rg s) (set_alt m1 o (Some a))
        (mkT (upd (inn (tr s)) a i) (upd (out (tr s)) a (Some o)) (upd (i2o (tr s)) a e)
             (upd (par (tr s)) a None) (upd (ped (tr s)) a cedge_null) (upd (kid (tr s)) a []) (upd (vis (tr s)) a false))
        (ra s) sl (sc s)).
Definition del_tree_node (s : state) (a : nat) : state := set_ta s (del (ta s) a).

(** ** The event queue (radix_heap_queue.h:80-150, abstractly) *)
Definition enqueue (s : state) (t : Z) (i : item) : state := set_sc s (set_que (sc s) ((t, i) :: que (sc s))).

Fixpoint min_time (m : Z) (q : list (Z * item)) : Z :=
  match q with [] => m | (t, _) :: q' => min_time (Z.min m t) q' end.
Fixpoint remove_first (t : Z) (i : item) (q : list (Z * item)) : list (Z * item) :=
  match q with
  | [] => []
  | (t', i') :: q' => if (t =? t')%Z && item_eqb i i' then q' else (t', i') :: remove_first t i q'
  end.

(** mwpm_event.h *)
Inductive mevent :=
| NoEvent
| HitRegion (r1 r2 : option nat) (e : cedge)
| HitBoundary (r : option nat) (e : cedge)
| BlossomShatter (b inparent inchild : nat).

(** Operations on integer types.  [to_i32] is the conversion to int32_t in compute_wrapped_radius;
    [to_time now t] stands for cyclic_time_int{t} (ints.h:54): the time congruent to t that lies in the window
    of 2^32 steps starting at the current time.  [later] is the comparison of cyclic times made by the trackers.
    [exact_ints] ignores all three, [machine_ints] has the conversions of the code but compares representatives;
    M_CoreHeap.v has the comparison of the code as well. *)
Record ints := mkInts { to_i32 : Z -> Z; to_time : Z -> Z -> Z; later : Z -> Z -> bool }.
Definition exact_ints : ints := mkInts (fun x => x) (fun _ t => t) Z.gtb.
Definition machine_ints : ints :=
  mkInts (fun x => ((x + 2147483648) mod 4294967296 - 2147483648)%Z) (fun now t => (now + (t - now) mod 4294967296)%Z) Z.gtb.

Section Core.
Variable G : graph.
Variable fuel : nat.
Variable orc : nat -> nat.
Variable A : ints.

(** Requests to be woken go through the trackers (tracker/queued_event_tracker.h, M_Tracker.v).  The time is
    first converted to a cyclic_time_int, here its representative. *)
Definition want_node (s : state) (v : nat) (t : Z) : state :=
  let (x, new) := set_desired (later A) (ntr (sc s) v) (to_time A (now (sc s)) t) in
  fold_left (fun s t => enqueue s t (INode v)) new (set_sc s (set_ntr (sc s) v x)).
Definition unwant_node (s : state) (v : nat) : state :=
  set_sc s (set_ntr (sc s) v (set_no_desired (ntr (sc s) v))).
Definition want_region (s : state) (r : nat) (t : Z) : state :=
  let (x, new) := set_desired (later A) (rtr (sc s) r) (to_time A (now (sc s)) t) in
  fold_left (fun s t => enqueue s t (IRegion r)) new (set_sc s (set_rtr (sc s) r x)).
Definition unwant_region (s : state) (r : nat) : state :=
  set_sc s (set_rtr (sc s) r (set_no_desired (rtr (sc s) r))).

(** ** Detector nodes *)

(** detector_node.h:69-74 local_radius *)
Definition local_radius (s : state) (v : nat) : Z :=
  match top (nd s) v with
  | None => 0%Z
  | Some T => v_add (rad (rg s) T) (wrp (nd s) v)
  end.

(** detector_node.cc:23-34 compute_wrapped_radius *)
Fixpoint wrapped_loop (k : nat) (g : regionsM) (r stop : option nat) (total : Z) : outcome Z :=
  match k with
  | O => Fuel
  | S k' =>
      match r, stop with
      | None, None => Ok total
      | None, Some _ => UB
      | Some x, _ =>
          if match stop with Some y => x =? y | None => false end then Ok total
          else wrapped_loop k' g (bpar g x) stop (to_i32 A (total + y_intercept (rad g x))%Z)
      end
  end.
Definition compute_wrapped_radius (s : state) (v : nat) : outcome Z :=
  match src (nd s) v with
  | None => Ok 0%Z
  | Some _ =>
      t <-- wrapped_loop fuel (rg s) (arr (nd s) v) (top (nd s) v) 0%Z ;;
      Ok (to_i32 A (t - rar (nd s) v)%Z)
  end.

(** detector_node.cc:36-44 reset *)
Definition reset_node (s : state) (v : nat) : state :=
  let n := nd s in
  mkState (mkN (upd (arr n) v None) (upd (top n) v None) (upd (wrp n) v 0%Z) (upd (src n) v None)
               (upd (crs n) v 0%N) (upd (rar n) v 0%Z))
          (rg s) (ma s) (tr s) (ra s) (ta s) (set_ntr (sc s) v tracker_clear).

(** detector_node.cc:46-53 index_of_neighbor *)
Fixpoint index_of (l : list nbr) (target : option nat) (k : nat) : outcome nat :=
  match l with
  | [] => Throw
  | (n, _, _) :: l' =>
      if match n, target with None, None => true | Some a, Some b => a =? b | _, _ => false end
      then Ok k else index_of l' target (S k)
  end.
Definition index_of_neighbor (u : nat) (v : option nat) : outcome nat := index_of (nbrs G u) v 0.

(** detector_node.cc:55-64 heir_region_on_shatter *)
Fixpoint heir_loop (k : nat) (g : regionsM) (r : nat) (stop : option nat) : outcome nat :=
  match k with
  | O => Fuel
  | S k' =>
      match bpar g r, stop with
      | None, None => Ok r
      | None, Some _ => UB
      | Some p, _ => if match stop with Some y => p =? y | None => false end then Ok r else heir_loop k' g p stop
      end
  end.
Definition heir_region_on_shatter (s : state) (v : nat) : outcome nat :=
  r <-- deref (arr (nd s) v) ;; heir_loop fuel (rg s) r (top (nd s) v).

(** ** Fill regions *)

(** graph_fill_region.h:93-99 do_op_for_each_descendant_and_self: the regions visited, in order.  (No
    operation passed to it changes blossom_children or shell_area, so the regions can be listed first.) *)
Fixpoint descendants (k : nat) (g : regionsM) (r : nat) : outcome (list nat) :=
  match k with
  | O => Fuel
  | S k' =>
      fold_left (fun acc c => l <-- acc ;; l' <-- descendants k' g (fst c) ;; Ok (l ++ l')) (chl g r) (Ok [r])
  end.
(** graph_fill_region.h:83-91 do_op_for_each_node_in_total_area: the nodes visited, in order. *)
Definition total_area (s : state) (r : nat) : outcome (list nat) :=
  l <-- descendants fuel (rg s) r ;; Ok (flat_map (shl (rg s)) l).

(** graph_fill_region.cc:58-61 add_match *)
Definition add_match (s : state) (r1 r2 : nat) (e : cedge) : state :=
  set_ma s (set_match (set_match (ma s) r1 (Some r2) e) r2 (Some r1) (rev_e e)).

(** graph_fill_region.cc:63-67 cleanup_shell_area *)
Definition cleanup_shell_area (s : state) (r : nat) : state :=
  fold_left reset_node (rev (shl (rg s) r)) s.

(** graph_fill_region.cc:69-78, 80-88, 90-99: set blossom_parent, then the top pointers of all descendants
    and of their nodes, recomputing the wrapped radius unless [ignore]. *)
Definition set_node_top (t : nat) (ignore : bool) (s : state) (v : nat) : outcome state :=
  let s1 := set_nd s (set_top (nd s) v (Some t)) in
  if ignore then Ok s1
  else w <-- compute_wrapped_radius s1 v ;; Ok (set_nd s1 (set_wrp (nd s1) v w)).
Definition set_region_top (t : nat) (ignore : bool) (s : state) (d : nat) : outcome state :=
  foldS (set_node_top t ignore) (rev (shl (rg s) d)) (set_rg s (set_btop (rg s) d (Some t))).
Definition set_tops (s : state) (r t : nat) (p : option nat) (ignore : bool) : outcome state :=
  let s1 := set_rg s (set_bpar (rg s) r p) in
  l <-- descendants fuel (rg s1) r ;;
  foldS (set_region_top t ignore) l s1.
Definition clear_blossom_parent (s : state) (r : nat) : outcome state := set_tops s r r None false.
Definition clear_blossom_parent_ignoring_wrapped_radius (s : state) (r : nat) : outcome state := set_tops s r r None true.
Definition wrap_into_blossom (s : state) (r b : nat) : outcome state := set_tops s r b (Some b) false.

(** ** Flooder *)

(** The scan shared by the two find_next_event functions: smallest time, first index. *)
Fixpoint scan (f : nbr -> option Z) (i : nat) (l : list nbr) (best : option (nat * Z)) : option (nat * Z) :=
  match l with
  | [] => best
  | x :: l' =>
      scan f (S i) l'
        match f x, best with
        | None, _ => best
        | Some t, None => Some (i, t)
        | Some t, Some (_, tb) => if (t <? tb)%Z then Some (i, t) else best
        end
  end.

Definition same_opt (a b : option nat) : bool :=
  match a, b with Some x, Some y => x =? y | None, None => true | _, _ => false end.

(** graph_flooder.cc:49-75 *)
Definition next_event_not_growing (s : state) (v : nat) (rad1 : Z) : option (nat * Z) :=
  scan (fun x => match x with
    | (None, _, _) => None
    | (Some u, w, _) =>
        let rad2 := local_radius s u in
        if is_growing rad2 then Some (w - y_intercept rad1 - y_intercept rad2)%Z else None
    end) 0 (nbrs G v) None.

(** graph_flooder.cc:77-116 *)
Definition next_event_growing (s : state) (v : nat) (rad1 : Z) : option (nat * Z) :=
  scan (fun x => match x with
    | (None, w, _) => Some (w - y_intercept rad1)%Z
    | (Some u, w, _) =>
        if same_opt (top (nd s) v) (top (nd s) u) then None
        else
          let rad2 := local_radius s u in
          if is_shrinking rad2 then None
          else
            let c := (w - y_intercept rad1 - y_intercept rad2)%Z in
            Some (if is_growing rad2 then Z.shiftr c 1 else c)
    end) 0 (nbrs G v) None.
(** Simplification in the two scans: the code treats the boundary specially at index 0 only; in this model a
    boundary entry at any index is treated alike (add_boundary_edge always inserts it at index 0). *)

(** graph_flooder.cc:118-127 *)
Definition next_event (s : state) (v : nat) : option (nat * Z) :=
  let rad1 := local_radius s v in
  if is_growing rad1 then next_event_growing s v rad1 else next_event_not_growing s v rad1.

(** graph_flooder.cc:129-141 reschedule_events_at_detector_node *)
Definition reschedule (s : state) (v : nat) : state :=
  match next_event s v with
  | None => unwant_node s v
  | Some (_, t) => want_node s v t
  end.
Definition reschedule_all (s : state) (l : list nat) : state := fold_left reschedule l s.

(** graph_flooder.cc:39-47 do_region_created_at_empty_detector_node *)
Definition region_created (s : state) (r v : nat) : state :=
  let n := nd s in
  let s1 := set_nd s (mkN (upd (arr n) v (Some r)) (upd (top n) v (Some r)) (upd (wrp n) v 0%Z)
                          (upd (src n) v (Some v)) (crs n) (upd (rar n) v 0%Z)) in
  reschedule (set_rg s1 (set_shl (rg s1) r (v :: shl (rg s1) r))) v.

(** graph_flooder.cc:143-156 schedule_tentative_shrink_event *)
Definition schedule_shrink (s : state) (r : nat) : state :=
  let t := match shl (rg s) r with
           | [] => time_of_x_intercept_for_shrinking (rad (rg s) r)
           | v :: _ => time_of_x_intercept_for_shrinking (local_radius s v)
           end in
  want_region s r t.

(** graph_flooder.cc:158-169 do_region_arriving_at_empty_detector_node *)
Definition region_arriving (s : state) (r v u idx : nat) : outcome state :=
  match nth_error (nbrs G u) idx with
  | None => UB
  | Some (_, _, o) =>
      let n := nd s in
      let s1 := set_nd s (mkN (upd (arr n) v (Some r)) (upd (top n) v (btop (rg s) r)) (wrp n)
                              (upd (src n) v (src n u)) (upd (crs n) v (N.lxor (crs n u) o))
                              (upd (rar n) v (get_distance_at_time (rad (rg s) r) (now (sc s))))) in
      w <-- compute_wrapped_radius s1 v ;;
      let s2 := set_nd s1 (set_wrp (nd s1) v w) in
      Ok (reschedule (set_rg s2 (set_shl (rg s2) r (v :: shl (rg s2) r))) v)
  end.

(** graph_flooder.cc:220-228 do_degenerate_implosion *)
Definition degenerate_implosion (s : state) (r : nat) : outcome mevent :=
  a <-- deref (alt (ma s) r) ;;
  p <-- deref (par (tr s) a) ;;
  Ok (HitRegion (out (tr s) p) (out (tr s) a)
        (mkE (eto (ped (tr s) a)) (eto (i2o (tr s) a)) (N.lxor (eobs (i2o (tr s) a)) (eobs (ped (tr s) a))))).

(** graph_flooder.cc:230-235 do_blossom_shattering *)
Definition blossom_shattering (s : state) (r : nat) : outcome mevent :=
  a <-- deref (alt (ma s) r) ;;
  u <-- deref (efrom (ped (tr s) a)) ;;
  v <-- deref (efrom (i2o (tr s) a)) ;;
  x <-- heir_region_on_shatter s u ;;
  y <-- heir_region_on_shatter s v ;;
  Ok (BlossomShatter r x y).

(** graph_flooder.cc:171-189 do_region_shrinking *)
Definition region_shrinking (s : state) (r : nat) : outcome (state * mevent) :=
  match shl (rg s) r, chl (rg s) r with
  | [], _ => e <-- blossom_shattering s r ;; Ok (s, e)
  | [_], [] => e <-- degenerate_implosion s r ;; Ok (s, e)
  | v :: rest, _ =>
      let n := nd s in
      let s1 := set_rg s (set_shl (rg s) r rest) in
      let s2 := set_nd s1 (mkN (upd (arr n) v None) (upd (top n) v None) (upd (wrp n) v 0%Z) (upd (src n) v None)
                               (upd (crs n) v 0%N) (upd (rar n) v 0%Z)) in
      Ok (schedule_shrink (reschedule s2 v) r, NoEvent)
  end.

(** graph_flooder.cc:191-211 do_neighbor_interaction *)
Definition neighbor_interaction (s : state) (u idx v : nat) : outcome (state * mevent) :=
  match arr (nd s) u, arr (nd s) v with
  | Some _, None =>
      T <-- deref (top (nd s) u) ;; s' <-- region_arriving s T v u idx ;; Ok (s', NoEvent)
  | None, Some _ =>
      T <-- deref (top (nd s) v) ;; k <-- index_of_neighbor v (Some u) ;;
      s' <-- region_arriving s T u v k ;; Ok (s', NoEvent)
  | _, _ =>
      match nth_error (nbrs G u) idx with
      | None => UB
      | Some (_, _, o) =>
          Ok (s, HitRegion (top (nd s) u) (top (nd s) v)
                   (mkE (src (nd s) u) (src (nd s) v) (N.lxor (N.lxor (crs (nd s) u) (crs (nd s) v)) o)))
      end
  end.

(** graph_flooder.cc:213-218 do_region_hit_boundary_interaction *)
Definition hit_boundary (s : state) (v : nat) : outcome mevent :=
  match nbrs G v with
  | [] => UB
  | (_, _, o) :: _ => Ok (HitBoundary (top (nd s) v) (mkE (src (nd s) v) None (N.lxor (crs (nd s) v) o)))
  end.

(** graph_flooder.cc:237-252 create_blossom *)
Definition absorb_child (b : nat) (s : state) (c : nat) : outcome state :=
  let s1 := set_rg s (set_rad (rg s) c (then_frozen_at_time (rad (rg s) c) (now (sc s)))) in
  s2 <-- wrap_into_blossom s1 c b ;; Ok (unwant_region s2 c).
Definition create_blossom (s : state) (cycle : list (nat * cedge)) : outcome (nat * state) :=
  let (b, s1) := new_region s in
  let s2 := set_rg s1 (set_rad (rg s1) b (growing_varying_with_zero_distance_at_time (now (sc s1)))) in
  let s3 := set_rg s2 (set_chl (rg s2) b cycle) in
  s4 <-- foldS (absorb_child b) (map fst cycle) s3 ;;
  l <-- total_area s4 b ;;
  Ok (b, reschedule_all s4 l).

(** graph_flooder.cc:254-278 dequeue_decision and dequeue_valid; radix_heap_queue.h dequeue. *)
Definition dequeue (s : state) : option (Z * item * state) :=
  match que (sc s) with
  | [] => None
  | (t0, _) :: q' =>
      let m := min_time t0 q' in
      let cands := filter (fun e => (fst e =? m)%Z) (que (sc s)) in
      match nth_error cands (orc (tick (sc s)) mod length cands) with
      | None => None
      | Some (t, i) =>
          Some (t, i, set_sc s (mkQ (ntr (sc s)) (rtr (sc s)) (remove_first t i (que (sc s))) t (S (tick (sc s)))))
      end
  end.
Definition decide (s : state) (t : Z) (i : item) : bool * state :=
  match i with
  | INode v =>
      let '(keep, x, new) := dequeue_decision (ntr (sc s) v) t in
      (keep, fold_left (fun s t => enqueue s t i) new (set_sc s (set_ntr (sc s) v x)))
  | IRegion r =>
      let '(keep, x, new) := dequeue_decision (rtr (sc s) r) t in
      (keep, fold_left (fun s t => enqueue s t i) new (set_sc s (set_rtr (sc s) r x)))
  end.

(** graph_flooder.cc:280-291 set_region_growing *)
Definition set_region_growing (s : state) (r : nat) : outcome state :=
  let s1 := set_rg s (set_rad (rg s) r (then_growing_at_time (rad (rg s) r) (now (sc s)))) in
  let s2 := unwant_region s1 r in
  l <-- total_area s2 r ;; Ok (reschedule_all s2 l).

(** graph_flooder.cc:293-308 set_region_frozen *)
Definition set_region_frozen (s : state) (r : nat) : outcome state :=
  let was_shrinking := is_shrinking (rad (rg s) r) in
  let s1 := set_rg s (set_rad (rg s) r (then_frozen_at_time (rad (rg s) r) (now (sc s)))) in
  let s2 := unwant_region s1 r in
  if was_shrinking then l <-- total_area s2 r ;; Ok (reschedule_all s2 l) else Ok s2.

(** graph_flooder.cc:310-320 set_region_shrinking *)
Definition set_region_shrinking (s : state) (r : nat) : outcome state :=
  let s1 := set_rg s (set_rad (rg s) r (then_shrinking_at_time (rad (rg s) r) (now (sc s)))) in
  let s2 := schedule_shrink s1 r in
  l <-- total_area s2 r ;; Ok (fold_left unwant_node l s2).

(** graph_flooder.cc:322-351 do_look_at_node_event *)
Definition look_at_node (s : state) (v : nat) : outcome (state * mevent) :=
  match next_event s v with
  | None => Ok (s, NoEvent)
  | Some (k, t) =>
      if (t =? now (sc s))%Z then
        let s1 := want_node s v (now (sc s)) in
        match nth_error (nbrs G v) k with
        | None => UB
        | Some (None, _, _) => e <-- hit_boundary s1 v ;; Ok (s1, e)
        | Some (Some u, _, _) => neighbor_interaction s1 v k u
        end
      else Ok (want_node s v t, NoEvent)
  end.

(** graph_flooder.cc:353-364 process_tentative_event_returning_mwpm_event *)
Definition process_tentative (s : state) (i : item) : outcome (state * mevent) :=
  match i with
  | INode v => look_at_node s v
  | IRegion r => region_shrinking s r
  end.

(** graph_flooder.cc:271-278, 366-377: the loop of run_until_next_mwpm_notification, one queue entry per
    iteration ([NoEvent] is returned when the queue is empty). *)
Fixpoint run_until_event (k : nat) (s : state) : outcome (state * mevent) :=
  match k with
  | O => Fuel
  | S k' =>
      match dequeue s with
      | None => Ok (s, NoEvent)
      | Some (t, i, s1) =>
          let (keep, s2) := decide s1 t i in
          if keep then
            r <-- process_tentative s2 i ;;
            match snd r with
            | NoEvent => run_until_event k' (fst r)
            | _ => Ok r
            end
          else run_until_event k' s2
      end
  end.

(** ** Alternating trees *)

(** alternating_tree.cc:34-37 add_child *)
Definition add_child (s : state) (a c : nat) (e : cedge) : state :=
  set_tr s (set_parent (set_kid (tr s) a (kid (tr s) a ++ [(c, e)])) c (Some a) (rev_e e)).

(** alternating_tree.h:44-56 unstable_erase with the predicate "is the node c" *)
Fixpoint replace_first (c : nat) (x : nat * cedge) (l : list (nat * cedge)) : list (nat * cedge) :=
  match l with
  | [] => []
  | (b, e) :: l' => if b =? c then x :: l' else (b, e) :: replace_first c x l'
  end.
Definition unstable_erase (c : nat) (l : list (nat * cedge)) : list (nat * cedge) :=
  if existsb (fun x => fst x =? c) l
  then match rev l with
       | [] => []
       | x :: _ => if 1 <? length l then removelast (replace_first c x l) else []
       end
  else l.

(** alternating_tree.cc:90-95: the part of become_root that removes [a] from its parent [p]. *)
Definition detach (t : treesM) (a p : nat) : treesM :=
  let t1 := set_inn t p (inn t a) in
  let t2 := set_i2o t1 p (ped t1 a) in
  let t3 := set_inn t2 a None in
  let t4 := set_kid t3 p (unstable_erase a (kid t3 p)) in
  set_parent t4 a None cedge_null.
(** alternating_tree.cc:84-99 become_root *)
Fixpoint become_root (k : nat) (s : state) (a : nat) : outcome state :=
  match k with
  | O => Fuel
  | S k' =>
      match par (tr s) a with
      | None => Ok s
      | Some p =>
          s1 <-- become_root k' s p ;;
          p1 <-- deref (par (tr s1) a) ;;
          let s2 := set_tr s1 (detach (tr s1) a p1) in
          let s3 := add_child s2 a p (rev_e (i2o (tr s2) a)) in
          Ok (set_tr s3 (set_i2o (tr s3) a cedge_null))
      end
  end.

(** alternating_tree.cc:138-178 most_recent_common_ancestor: the climbing loop ... *)
Fixpoint mrca_climb (k : nat) (t : treesM) (a b : nat) : outcome (treesM * option nat) :=
  match k with
  | O => Fuel
  | S k' =>
      match par t a, par t b with
      | None, None => Ok (t, None)
      | pa, pb =>
          let step2 (t : treesM) (a : nat) :=
            match pb with
            | None => mrca_climb k' t a b
            | Some b' => if vis t b' then Ok (t, Some b') else mrca_climb k' (set_vis t b' true) a b'
            end in
          match pa with
          | None => step2 t a
          | Some a' => if vis t a' then Ok (t, Some a') else step2 (set_vis t a' true) a'
          end
      end
  end.
(** ... and the loop that clears the marks of the ancestor's ancestors. *)
Fixpoint mrca_clean (k : nat) (t : treesM) (p : option nat) : outcome treesM :=
  match k with
  | O => Fuel
  | S k' =>
      match p with
      | None => Ok t
      | Some a => if vis t a then mrca_clean k' (set_vis t a false) (par t a) else Ok t
      end
  end.
Definition most_recent_common_ancestor (s : state) (a b : nat) : outcome (state * option nat) :=
  let t := set_vis (set_vis (tr s) a true) b true in
  r <-- mrca_climb fuel t a b ;;
  match snd r with
  | None => Ok (set_tr s (fst r), None)
  | Some c =>
      let t1 := set_vis (fst r) c false in
      t2 <-- mrca_clean fuel t1 (par t1 c) ;;
      Ok (set_tr s t2, Some c)
  end.

(** alternating_tree.cc:185-214 prune_upward_path_stopping_before *)
Fixpoint prune (k : nat) (s : state) (cur stop : nat) (back : bool) (orphans path : list (nat * cedge))
  : outcome (state * (list (nat * cedge) * list (nat * cedge))) :=
  match k with
  | O => Fuel
  | S k' =>
      if cur =? stop then Ok (s, (orphans, path))
      else
        let t := tr s in
        let orphans' := orphans ++ kid t cur in
        let t1 := set_kid t cur [] in
        i <-- deref (inn t1 cur) ;;
        o <-- deref (out t1 cur) ;;
        p <-- deref (par t1 cur) ;;
        po <-- (if back then deref (out t1 p) else Ok 0) ;;
        let path' := if back
          then path ++ [(i, i2o t1 cur); (po, rev_e (ped t1 cur))]
          else path ++ [(o, rev_e (i2o t1 cur)); (i, ped t1 cur)] in
        let t2 := set_kid t1 p (unstable_erase cur (kid t1 p)) in
        let m := set_alt (set_alt (ma s) o None) i None in
        prune k' (del_tree_node (set_ma (set_tr s t2) m) cur) p stop back orphans' path'
  end.

(** ** Matcher *)

(** mwpm.cc:45-61 shatter_descendants_into_matches_and_freeze *)
Definition shatter_one (s : state) (a : nat) : outcome state :=
  s1 <-- match inn (tr s) a with
         | None => Ok s
         | Some i =>
             let s1 := set_tr s (set_parent (tr s) a None cedge_null) in
             o <-- deref (out (tr s1) a) ;;
             let s2 := add_match s1 i o (i2o (tr s1) a) in
             s3 <-- set_region_frozen s2 i ;;
             s4 <-- set_region_frozen s3 o ;;
             Ok (set_ma s4 (set_alt (set_alt (ma s4) i None) o None))
         end ;;
  let s2 := match out (tr s1) a with None => s1 | Some o => set_ma s1 (set_alt (ma s1) o None) end in
  Ok (del_tree_node s2 a).
Fixpoint shatter_descendants (k : nat) (s : state) (a : nat) : outcome state :=
  match k with
  | O => Fuel
  | S k' =>
      s1 <-- foldS (fun s c => shatter_descendants k' s (fst c)) (kid (tr s) a) s ;;
      shatter_one s1 a
  end.

(** mwpm.cc:63-72 handle_tree_hitting_boundary *)
Definition tree_hits_boundary (s : state) (r : option nat) (e : cedge) : outcome state :=
  r <-- deref r ;;
  a <-- deref (alt (ma s) r) ;;
  s1 <-- become_root fuel s a ;;
  s2 <-- shatter_descendants fuel s1 a ;;
  set_region_frozen (set_ma s2 (set_match (ma s2) r None e)) r.

(** mwpm.cc:74-83 handle_tree_hitting_boundary_match *)
Definition tree_hits_boundary_match (s : state) (r1 r2 : nat) (e : cedge) : outcome state :=
  a <-- deref (alt (ma s) r1) ;;
  s1 <-- set_region_frozen (add_match s r1 r2 e) r1 ;;
  s2 <-- become_root fuel s1 a ;;
  shatter_descendants fuel s2 a.

(** mwpm.cc:85-98 handle_tree_hitting_other_tree *)
Definition tree_hits_other_tree (s : state) (r1 r2 : nat) (e : cedge) : outcome state :=
  a1 <-- deref (alt (ma s) r1) ;;
  a2 <-- deref (alt (ma s) r2) ;;
  s1 <-- become_root fuel s a1 ;;
  s2 <-- become_root fuel s1 a2 ;;
  s3 <-- shatter_descendants fuel s2 a1 ;;
  s4 <-- shatter_descendants fuel s3 a2 ;;
  s5 <-- set_region_frozen (add_match s4 r1 r2 e) r1 ;;
  set_region_frozen s5 r2.

(** mwpm.cc:100-111 make_child *)
Definition make_child (s : state) (p i o : nat) (e ce : cedge) : nat * state :=
  let (c, s1) := new_tree_node s (Some i) o e in (c, add_child s1 p c ce).

(** mwpm.cc:113-130 handle_tree_hitting_match *)
Definition tree_hits_match (s : state) (r1 r2 : nat) (e : cedge) : outcome state :=
  a <-- deref (alt (ma s) r1) ;;
  o <-- deref (mreg (ma s) r2) ;;
  let (_, s1) := make_child s a r2 o (medge (ma s) r2) e in
  o2 <-- deref (mreg (ma s1) r2) ;;
  let s2 := set_ma s1 (set_match (set_match (ma s1) o2 None cedge_null) r2 None cedge_null) in
  s3 <-- set_region_shrinking s2 r2 ;;
  set_region_growing s3 o2.

(** mwpm.cc:132-158 handle_tree_hitting_self *)
Definition tree_hits_self (s : state) (r1 r2 : nat) (e : cedge) (c : nat) : outcome state :=
  a1 <-- deref (alt (ma s) r1) ;;
  a2 <-- deref (alt (ma s) r2) ;;
  p1 <-- prune fuel s a1 c true [] [] ;;
  let '(s1, (orph1, path1)) := p1 in
  p2 <-- prune fuel s1 a2 c false [] [] ;;
  let '(s2, (orph2, path2)) := p2 in
  let cycle := path2 ++ rev path1 ++ [(r1, e)] in
  o <-- deref (out (tr s2) c) ;;
  let s3 := set_ma s2 (set_alt (ma s2) o None) in
  bs <-- create_blossom s3 cycle ;;
  let (b, s4) := (bs : nat * state) in
  let s5 := set_tr s4 (set_out (tr s4) c (Some b)) in
  let s6 := set_ma s5 (set_alt (ma s5) b (Some c)) in
  Ok (fold_left (fun s x => add_child s c (fst x) (snd x)) (orph1 ++ orph2) s6).

(** mwpm.cc:160-255 handle_blossom_shattering *)
Definition dflt : nat * cedge := (0, cedge_null).
Fixpoint last_index (r : nat) (i : nat) (l : list (nat * cedge)) (found : nat) : nat :=
  match l with
  | [] => found
  | x :: l' => last_index r (S i) l' (if fst x =? r then i else found)
  end.
(** 196-209 and 216-229: the odd path becomes part of the tree; [segment] lists, for each new tree node,
    inner region, outer region, inner-to-outer edge and the edge leading on from the outer region. *)
Definition grow_path (s : state) (cur : nat) (ce : cedge) (segment : list (nat * nat * cedge * cedge))
  : outcome (state * (nat * cedge)) :=
  fold_left (fun acc x =>
    st <-- acc ;;
    let '(s, (cur, ce)) := (st : state * (nat * cedge)) in
    let '(i, o, e, ce') := (x : nat * nat * cedge * cedge) in
    let (c, s1) := make_child s cur i o e ce in
    s2 <-- set_region_shrinking s1 i ;;
    s3 <-- set_region_growing s2 o ;;
    Ok (s3, (c, ce'))) segment (Ok (s, (cur, ce))).
Definition match_pair (s : state) (x : nat * nat * cedge) : outcome state :=
  let '(i, o, e) := x in
  let s1 := add_match s i o e in
  l1 <-- total_area s1 i ;;
  let s2 := reschedule_all s1 l1 in
  l2 <-- total_area s2 o ;;
  Ok (reschedule_all s2 l2).
(** 176-214: the way the cycle is split: (pairs to match, tree segment). *)
Definition split_cycle (cyc : list (nat * cedge)) (pi ci : nat)
  : list (nat * nat * cedge) * list (nat * nat * cedge * cedge) :=
  let n := length cyc in
  let at_ i := nth (i mod n) cyc dflt in
  let gap := (ci + n - pi) mod n in
  let pairs st en := map (fun k => let j := st + 2 * k in (fst (at_ j), fst (at_ (j + 1)), snd (at_ j)))
                         (seq 0 ((en - st + 1) / 2)) in
  if gap mod 2 =? 0 then
    (pairs (ci + 1) (ci + n - gap),
     map (fun k => let i := pi + 2 * k in
                   (fst (at_ i), fst (at_ (i + 1)), snd (at_ i), snd (at_ (i + 1)))) (seq 0 ((gap + 1) / 2)))
  else
    (pairs (pi + 1) (pi + gap),
     map (fun k => let i := 2 * k in
                   let k1 := pi + n - i in let k2 := pi + n - i - 1 in let k3 := pi + n - i - 2 in
                   (fst (at_ k1), fst (at_ k2), rev_e (snd (at_ k2)), rev_e (snd (at_ k3)))) (seq 0 ((n - gap + 1) / 2))).
Definition shatter_blossom (s : state) (b inparent inchild : nat) : outcome state :=
  s1 <-- foldS clear_blossom_parent (map fst (chl (rg s) b)) s ;;
  let cyc := chl (rg s1) b in
  ba <-- deref (alt (ma s1) b) ;;
  let pi := last_index inparent 0 cyc 0 in
  let ci := last_index inchild 0 cyc 0 in
  p <-- deref (par (tr s1) ba) ;;
  let s2 := set_tr s1 (set_kid (tr s1) p (unstable_erase ba (kid (tr s1) p))) in
  let ce := rev_e (ped (tr s2) ba) in
  let '(pairs, segment) := split_cycle cyc pi ci in
  g <-- grow_path s2 p ce segment ;;
  let '(s3, (cur, ce')) := (g : state * (nat * cedge)) in
  s4 <-- foldS match_pair pairs s3 ;;
  let ic := fst (nth ci cyc dflt) in
  let s5 := set_tr s4 (set_inn (tr s4) ba (Some ic)) in
  s6 <-- set_region_shrinking s5 ic ;;
  let s7 := set_ma s6 (set_alt (ma s6) ic (Some ba)) in
  Ok (del_region (add_child s7 cur ba ce') b).

(** mwpm.cc:257-283 handle_region_hit_region *)
Definition region_hits_region (s : state) (r1 r2 : option nat) (e : cedge) : outcome state :=
  r1 <-- deref r1 ;;
  r2 <-- deref r2 ;;
  match alt (ma s) r1, alt (ma s) r2 with
  | Some a1, Some a2 =>
      m <-- most_recent_common_ancestor s a1 a2 ;;
      match snd m with
      | None => tree_hits_other_tree (fst m) r1 r2 e
      | Some c => tree_hits_self (fst m) r1 r2 e c
      end
  | Some _, None =>
      match mreg (ma s) r2 with
      | Some _ => tree_hits_match s r1 r2 e
      | None => tree_hits_boundary_match s r1 r2 e
      end
  | None, _ =>
      match mreg (ma s) r1 with
      | Some _ => tree_hits_match s r2 r1 (rev_e e)
      | None => tree_hits_boundary_match s r2 r1 (rev_e e)
      end
  end.

(** mwpm.cc:284-301 process_event *)
Definition process_event (s : state) (e : mevent) : outcome state :=
  match e with
  | NoEvent => Ok s
  | HitRegion r1 r2 e => region_hits_region s r1 r2 e
  | HitBoundary r e => tree_hits_boundary s r e
  | BlossomShatter b x y => shatter_blossom s b x y
  end.

(** mwpm.cc:417-423 create_detection_event *)
Definition create_detection_event (s : state) (v : nat) : state :=
  let (r, s1) := new_region s in
  let (_, s2) := new_tree_node s1 None r cedge_null in
  region_created s2 r v.

(** ** Extraction of the matching (mwpm.cc:303-359 and 361-415) *)

(** Both variants (obs mask and weight, match edges) run the same code; the model returns all three
    results: obs mask, weight, match edges. *)
Definition result : Type := N * Z * list cedge.
Definition res_add (x y : result) : result :=
  let '(o1, w1, l1) := x in let '(o2, w2, l2) := y in (N.lxor o1 o2, (w1 + w2)%Z, l1 ++ l2).

Fixpoint find_child (r : nat) (i : nat) (l : list (nat * cedge)) : nat :=
  match l with [] => i | x :: l' => if fst x =? r then i else find_child r (S i) l' end.

(** 315-322: the children of the cycle other than number [idx], in the pairs in which they are matched. *)
Definition child_pairs (cyc : list (nat * cedge)) (idx : nat) : list (nat * nat * cedge) :=
  let n := length cyc in
  map (fun k => let c1 := nth ((idx + 2 * k + 1) mod n) cyc dflt in
                let c2 := nth ((idx + 2 * k + 2) mod n) cyc dflt in
                (fst c1, fst c2, snd c1)) (seq 0 (n / 2)).
(** 303-326; [extract] is the recursive call to shatter_blossom_and_extract_matches. *)
Definition pair_and_shatter (extract : state -> nat -> outcome (state * result)) (s : state) (r : nat)
  : outcome (state * result * nat) :=
  s1 <-- foldS clear_blossom_parent_ignoring_wrapped_radius (map fst (chl (rg s) r)) s ;;
  v <-- deref (efrom (medge (ma s1) r)) ;;
  sub <-- deref (top (nd s1) v) ;;
  let m := set_match (ma s1) sub (mreg (ma s1) r) (medge (ma s1) r) in
  let m' := match mreg m sub with Some q => set_mreg m q (Some sub) | None => m end in
  let s2 := set_ma s1 m' in
  let cyc := chl (rg s2) r in
  let idx := find_child sub 0 cyc in
  x <-- fold_left (fun acc p =>
      st <-- acc ;;
      let '(s, res) := (st : state * result) in
      let '(r1, r2, e) := (p : nat * nat * cedge) in
      y <-- extract (add_match s r1 r2 e) r1 ;;
      Ok (fst y, res_add res (snd y)))
    (child_pairs cyc idx) (Ok (s2, (0%N, y_intercept (rad (rg s2) r), []))) ;;
  Ok (del_region (fst x) r, snd x, sub).

(** 328-359 shatter_blossom_and_extract_matches *)
Fixpoint extract (k : nat) (s : state) (r : nat) : outcome (state * result) :=
  match k with
  | O => Fuel
  | S k' =>
      let s1 := cleanup_shell_area s r in
      let s2 := match mreg (ma s1) r with None => s1 | Some q => cleanup_shell_area s1 q end in
      let y x := y_intercept (rad (rg s2) x) in
      match mreg (ma s2) r, chl (rg s2) r with
      | None, [] => Ok (del_region s2 r, (eobs (medge (ma s2) r), y r, [medge (ma s2) r]))
      | m, c =>
          match m with
          | Some q =>
              match c, chl (rg s2) q with
              | [], [] => Ok (del_region (del_region s2 q) r, (eobs (medge (ma s2) r), (y r + y q)%Z, [medge (ma s2) r]))
              | _, _ =>
                  x <-- (match c with
                         | [] => Ok (s2, (0%N, 0%Z, []), r)
                         | _ => pair_and_shatter (extract k') s2 r
                         end) ;;
                  let '(s3, res, r3) := (x : state * result * nat) in
                  x2 <-- (match mreg (ma s3) r3 with
                          | None => Ok (s3, res)
                          | Some q =>
                              match chl (rg s3) q with
                              | [] => Ok (s3, res)
                              | _ => y <-- pair_and_shatter (extract k') s3 q ;;
                                     Ok (fst (fst y), res_add res (snd (fst y)))
                              end
                          end) ;;
                  z <-- extract k' (fst x2) r3 ;;
                  Ok (fst z, res_add (snd x2) (snd z))
              end
          | None =>
              x <-- pair_and_shatter (extract k') s2 r ;;
              let '(s3, res, r3) := (x : state * result * nat) in
              x2 <-- (match mreg (ma s3) r3 with
                      | None => Ok (s3, res)
                      | Some q =>
                          match chl (rg s3) q with
                          | [] => Ok (s3, res)
                          | _ => y <-- pair_and_shatter (extract k') s3 q ;;
                                 Ok (fst (fst y), res_add res (snd (fst y)))
                          end
                      end) ;;
              z <-- extract k' (fst x2) r3 ;;
              Ok (fst z, res_add (snd x2) (snd z))
          end
      end
  end.

(** ** Decoding (driver/mwpm_decoding.cc) *)

(** mwpm_decoding.cc:128-133: the main loop. *)
Fixpoint main_loop (k : nat) (s : state) : outcome state :=
  match k with
  | O => Fuel
  | S k' =>
      r <-- run_until_event fuel s ;;
      match snd r with
      | NoEvent => Ok (fst r)
      | e => s' <-- process_event (fst r) e ;; main_loop k' s'
      end
  end.

(** The matching graph's other data used here (graph.h:60-75, graph_flooder.h:36-42). *)
Record neg_info := mkNeg {
  neg_events : list nat;               (* negative_weight_detection_events *)
  neg_obs : N;                         (* negative_weight_obs_mask *)
  neg_sum : Z;                         (* negative_weight_sum *)
  is_bnd : list bool }.                (* is_user_graph_boundary_node *)
Variable I : neg_info.

(** mwpm_decoding.cc:96-98 and 116-118 *)
Definition maybe_create (s : state) (v : nat) : state :=
  if nth v (is_bnd I) false then s else create_detection_event s v.
(** 91-99: no negative weights *)
Definition add_plain (s : state) (v : nat) : outcome state :=
  if length G <=? v then Throw else Ok (maybe_create s v).
(** 101-126: negative weights; radius_of_arrival serves as a mark *)
Definition set_mark (s : state) (v : nat) (x : Z) : state := set_nd s (set_rar (nd s) v x).
Definition add_marked (s : state) (v : nat) : outcome state :=
  if length G <=? v then Throw
  else if (rar (nd s) v =? 0)%Z then Ok (maybe_create s v)
  else Ok (set_mark s v 0%Z).
Definition add_left (s : state) (v : nat) : state :=
  if (rar (nd s) v =? 0)%Z then s else create_detection_event (set_mark s v 0%Z) v.
Definition add_events (s : state) (evs : list nat) : outcome state :=
  match neg_events I with
  | [] => foldS add_plain evs s
  | _ =>
      let s1 := fold_left (fun s v => set_mark s v 1%Z) (neg_events I) s in
      s2 <-- foldS add_marked evs s1 ;;
      Ok (fold_left add_left (neg_events I) s2)
  end.

(** mwpm_decoding.cc:82-146 process_timeline_until_completion.  The first test throws if the queue is not
    empty; the last one if tree nodes remain (node_arena.allocated.size() != available.size()). *)
Definition process_timeline (s : state) (evs : list nat) : outcome state :=
  match que (sc s) with
  | _ :: _ => Throw
  | [] =>
      let s0 := set_sc s (mkQ (ntr (sc s)) (rtr (sc s)) [] 0%Z (tick (sc s))) in
      s1 <-- add_events s0 evs ;;
      s2 <-- main_loop fuel s1 ;;
      if next (ta s2) =? length (free (ta s2)) then Ok s2 else Throw
  end.

(** mwpm_decoding.cc:148-165 *)
Definition extract_all (s : state) (evs : list nat) : outcome (state * result) :=
  fold_left (fun acc v =>
    st <-- acc ;;
    let '(s, res) := (st : state * result) in
    match arr (nd s) v with
    | None => Ok (s, res)
    | Some _ =>
        r <-- deref (top (nd s) v) ;;
        y <-- extract fuel s r ;;
        Ok (fst y, res_add res (snd y))
    end) evs (Ok (s, (0%N, 0%Z, []))).

(** mwpm_decoding.cc:167-194 decode_detection_events_for_up_to_64_observables and 250-257
    decode_detection_events_to_match_edges, without edge correlations; the common part. *)
Definition decode (s : state) (evs : list nat) : outcome (state * result) :=
  s1 <-- process_timeline s evs ;;
  x <-- extract_all s1 evs ;;
  y <-- (match neg_events I with [] => Ok (fst x, (0%N, 0%Z, [])) | _ => extract_all (fst x) (neg_events I) end) ;;
  let '(o, w, l) := res_add (snd x) (snd y) in
  Ok (fst y, (N.lxor o (neg_obs I), (w + neg_sum I)%Z, l)).
End Core.

(** The state of a new Mwpm object.  [match] fields are unspecified; null here. *)
Definition init_state : state :=
  mkState (mkN (fun _ => None) (fun _ => None) (fun _ => 0%Z) (fun _ => None) (fun _ => 0%N) (fun _ => 0%Z))
          (mkR (fun _ => None) (fun _ => None) (fun _ => 0%Z) (fun _ => []) (fun _ => []))
          (mkM (fun _ => None) (fun _ => None) (fun _ => cedge_null))
          (mkT (fun _ => None) (fun _ => None) (fun _ => cedge_null) (fun _ => None) (fun _ => cedge_null)
               (fun _ => []) (fun _ => false))
          (mkS [] 0) (mkS [] 0)
          (mkQ (fun _ => tracker_clear) (fun _ => tracker_clear) [] 0%Z 0).
