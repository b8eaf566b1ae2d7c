(** The shortest-path search on top of the radix heap it really uses: M_Search.v and the functions of M_ToEdges.v around
    it, with the abstract queue and its oracle replaced by the queue of M_RadixHeap.v with 32-bit times
    (search_flooder.h:31: radix_heap_queue<false>).  As in M_CoreHeap.v, the requests made between two calls to
    queue.dequeue (or before queue.reset) are pushed, in order, when the second one begins, and times in trackers and in
    [sque] stand for their remainders modulo 2^32. *)
From Coq Require Import ZArith NArith List Bool Arith.
From Verif Require Import M_Base M_Cyclic M_RadixHeap M_Tracker M_Core M_CoreHeap M_Build M_Flip M_Search M_ToEdges.
Import ListNotations.
Local Open Scope outcome_scope.
Local Open Scope nat_scope.

(** radix_heap_queue.h:122-163 dequeue *)
Definition sheap_dequeue (s : search) (h : heap) : outcome (option (event item) * search * heap) :=
  h1 <-- push_pending h (sque s) ;;
  x <-- M_RadixHeap.dequeue 32 item h1 ;;
  match x with
  | (None, h2) => Ok (None, s, h2)
  | (Some e, h2) =>
      let t := cur_time h2 in
      let i := ev_data e in
      Ok (Some e, mkSearch (sfrom s) (spre s) (sdist s) (strk s) (remove_first t i (sque s)) t (S (stick s)) (sreached s) (sbnd s), h2)
  end.

Section Search.
Variable G : graph.
Variable fuel : nat.
Variable A : ints.

(** search_flooder.cc:140-149: the loop of run_until_collision. *)
Fixpoint srun_h (k : nat) (s : search) (h : heap) : outcome (search * heap * option (nat * nat)) :=
  match k with
  | O => Fuel
  | S k' =>
      x <-- sheap_dequeue s h ;;
      match x with
      | (None, s1, h1) => Ok (s1, h1, None)
      | (Some e, s1, h1) =>
          match ev_data e with
          | IRegion _ => UB
          | INode v =>
              let '(keep, x, new) := decision_h (strk s1 v) (ev_time e) in
              let s2 := fold_left (fun s t => set_sque s ((t, INode v) :: sque s)) new (set_strk s1 v x) in
              if keep then
                r <-- slook G A s2 v ;;
                match snd r with None => srun_h k' (fst r) h1 | Some c => Ok (fst r, h1, Some c) end
              else srun_h k' s2 h1
          end
      end
  end.

(** search_flooder.cc:131-150 run_until_collision *)
Definition run_until_collision_h (s : search) (h : heap) (a : nat) (b : option nat) : outcome (search * heap * option (nat * nat)) :=
  s1 <-- match b with None => Ok (set_target s true) | Some d => start_at G A (set_target s false) d end ;;
  s2 <-- start_at G A s1 a ;;
  srun_h fuel s2 h.

(** search_flooder.cc:152-161; radix_heap_queue.h:226-230 reset. *)
Definition sreset_h (s : search) (h : heap) : outcome (search * heap) :=
  h1 <-- push_pending h (sque s) ;;
  h2 <-- M_RadixHeap.reset 32 item h1 ;;
  Ok (sreset s, h2).

(** search_flooder.h:84-90 iter_edges_on_shortest_path_from_middle *)
Definition path_from_middle_h (s : search) (h : heap) (a : nat) (b : option nat) : outcome (search * heap * list (nat * nat)) :=
  if ends_ok G a b then
    r <-- run_until_collision_h s h a b ;;
    let '(s1, h1, c) := r in
    l <-- trace_collision G fuel s1 c ;;
    x <-- sreset_h s1 h1 ;;
    Ok (fst x, snd x, l)
  else UB.

(** search_flooder.h:103-137 iter_edges_on_shortest_path_from_source *)
Definition path_from_source_h (s : search) (h : heap) (a : nat) (b : option nat) : outcome (search * heap * list (nat * nat)) :=
  if ends_ok G a b then
    r <-- run_until_collision_h s h a b ;;
    let '(s1, h1, c) := r in
    match c with
    | None => UB
    | Some c =>
        l1 <-- trace G fuel s1 (fst c) ;;
        x <-- other_end G c ;;
        l2' <-- match x with None => Ok [] | Some u => trace G fuel s1 u end ;;
        let l2 := c :: l2' in
        z <-- other_end G (last l2 c) ;;
        l <-- (if same_opt z (Some a)
               then l2r <-- reverse_path G l2 ;; Ok (l2r ++ l1)
               else l1r <-- reverse_path G l1 ;; Ok (l1r ++ l2)) ;;
        x <-- sreset_h s1 h1 ;;
        Ok (fst x, snd x, l)
    end
  else UB.

(** mwpm_decoding.cc:293-305 *)
Fixpoint collect_paths_h (l : list cedge) (q : search) (h : heap) (M : marks) (edges : list (nat * option nat))
  : outcome (search * heap * marks * list (nat * option nat)) :=
  match l with
  | [] => Ok (q, h, M, edges)
  | e :: rest =>
      a <-- deref (efrom e) ;;
      r <-- path_from_middle_h q h a (eto e) ;;
      let '(q1, h1, p) := r in
      st <-- collect G M p edges ;;
      collect_paths_h rest q1 h1 (fst st) (snd st)
  end.
(** matcher/mwpm.cc:454-468 *)
Fixpoint extract_paths_h (l : list cedge) (q : search) (h : heap) (acc : N * Z) : outcome (search * heap * (N * Z)) :=
  match l with
  | [] => Ok (q, h, acc)
  | e :: rest =>
      a <-- deref (efrom e) ;;
      r <-- path_from_middle_h q h a (eto e) ;;
      let '(q1, h1, p) := r in
      acc' <-- fold_left (fun o c => x <-- o ;; add_cell G x c) p (Ok acc) ;;
      extract_paths_h rest q1 h1 acc'
  end.
End Search.

(** Both flooders, each with its own heap: [h] belongs to the matching graph [G], [hq] to the search graph [SG]. *)
Section Both.
Variables (G SG : graph) (fuel : nat) (A : ints).

(** mwpm_decoding.cc:268-326 *)
Definition decode_to_edges_h (I : neg_info) (NE : list (nat * option nat)) (s : state) (h : heap) (q : search) (hq : heap) (M : marks) (evs : list nat)
  : outcome (state * heap * search * heap * marks * list (nat * option nat)) :=
  if negb (length G =? length SG) then Throw
  else
    r <-- decode_h G fuel A I s h evs ;;
    let '(s', h', (_, _, l)) := r in
    st <-- collect_negative SG M NE [] ;;
    x <-- collect_paths_h SG fuel A l q hq (fst st) (snd st) ;;
    let '(q', hq', M', edges) := x in
    y <-- cancel (S (length edges)) SG M' [] edges ;;
    Ok (s', h', q', hq', fst y, snd y).

(** mwpm_decoding.cc:213-229, for more than 64 observables *)
Definition decode_many_observables_h (I : neg_info) (negobs : list nat) (s : state) (h : heap) (q : search) (hq : heap) (evs : list nat)
  : outcome (state * heap * search * heap * (N * Z)) :=
  r <-- decode_h G fuel A I s h evs ;;
  let '(s', h', (_, _, l)) := r in
  x <-- extract_paths_h SG fuel A l q hq (0%N, 0%Z) ;;
  let '(q', hq', (o, w)) := x in
  Ok (s', h', q', hq', (N.lxor o (full_mask negobs), (w + neg_sum I)%Z)).
End Both.
