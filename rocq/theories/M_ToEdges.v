(** Model of the search graph's construction and of decoding through shortest paths:
    search/search_graph.cc:33-100, driver/mwpm_decoding.cc:196-233 (more than 64 observables) and 268-326
    (decode_detection_events_to_edges), matcher/mwpm.cc:454-468 (extract_paths_from_match_edges).

    Implied weights (correlations) are not part of this model, see M_Reweight.v. *)
From Coq Require Import ZArith NArith List Bool Arith.
From Verif Require Import M_Base M_Core M_Build M_Flip M_Search.
Import ListNotations.
Local Open Scope outcome_scope.
Local Open Scope nat_scope.

(** search_graph.h:31-39.  Observables of an edge are a mask of any width instead of a list of indices. *)
Record sgraph := mkSG {
  sadj : graph;                       (* neighbors, neighbor_weights, neighbor_observable_indices *)
  smark : list (list N);              (* neighbor_markers *)
  sneg : list (nat * option nat) }.   (* negative_weight_edges *)

Definition full_mask (obs : list nat) : N := fold_left (fun m o => N.lxor m (N.shiftl 1 (N.of_nat o))) obs 0%N.
Definition upd_row (M : list (list N)) (u : nat) (f : list N -> list N) : list (list N) :=
  firstn u M ++ match skipn u M with [] => [] | l :: r => f l :: r end.
(** search_detector_node.h:23-24: FLIPPED = 1, WEIGHT_SIGN = 2. *)
Definition sign_mark (w : Z) : N := if (w <? 0)%Z then 2%N else 0%N.
Definition note_neg_edge (l : list (nat * option nat)) (w : Z) (e : nat * option nat) : list (nat * option nat) :=
  if (w <? 0)%Z then l ++ [e] else l.

(** search_graph.cc:33-72 *)
Definition sadd_edge (g : sgraph) (u v : nat) (w : Z) (obs : list nat) : outcome sgraph :=
  if length (sadj g) <=? Nat.max u v then Throw
  else if u =? v then Ok g
  else
    let m := full_mask obs in
    let a1 := upd_node (sadj g) u (fun l => l ++ [(Some v, Z.abs w, m)]) in
    let a2 := upd_node a1 v (fun l => l ++ [(Some u, Z.abs w, m)]) in
    let m1 := upd_row (smark g) u (fun l => l ++ [sign_mark w]) in
    let m2 := upd_row m1 v (fun l => l ++ [sign_mark w]) in
    Ok (mkSG a2 m2 (note_neg_edge (sneg g) w (u, Some v))).
(** search_graph.cc:74-100 *)
Definition sadd_boundary_edge (g : sgraph) (u : nat) (w : Z) (obs : list nat) : outcome sgraph :=
  if length (sadj g) <=? u then Throw
  else Ok (mkSG (upd_node (sadj g) u (fun l => (None, Z.abs w, full_mask obs) :: l)) (upd_row (smark g) u (fun l => sign_mark w :: l))
                (note_neg_edge (sneg g) w (u, None))).
Definition sadd_any (g : sgraph) (e : sedge) : outcome sgraph :=
  let '(u, x, w, obs) := e in match x with Some v => sadd_edge g u v w obs | None => sadd_boundary_edge g u w obs end.
Definition sbuild (n : nat) (es : list sedge) : outcome sgraph :=
  fold_left (fun o e => g <-- o ;; sadd_any g e) es (Ok (mkSG (repeat [] n) (repeat [] n) [])).
(** user_graph.cc:299-321 *)
Definition to_search_graph (n : nat) (B : nat -> bool) (es : list sedge) : outcome sgraph := sbuild n (convert_all n B es).

(** neighbor_markers as read and written by M_Flip. *)
Definition marks_of (g : sgraph) : marks := fun u i => nth i (nth u (smark g) []) 0%N.

Section ToEdges.
Variables (G SG : graph) (fuel fuel2 : nat) (orc orc2 : nat -> nat) (A : ints).

(** mwpm_decoding.cc:281-291: each negative edge is flipped and appended. *)
Fixpoint collect_negative (M : marks) (ne : list (nat * option nat)) (edges : list (nat * option nat)) : outcome (marks * list (nat * option nat)) :=
  match ne with
  | [] => Ok (M, edges)
  | (u, x) :: rest =>
      if in_nodes SG u && match x with None => true | Some v => in_nodes SG v end then
        i <-- index_of_neighbor SG u x ;;
        M' <-- flip_edge SG M u i ;;
        collect_negative M' rest (edges ++ [(u, x)])
      else UB
  end.
(** mwpm_decoding.cc:293-305: each match edge's shortest path is flipped and appended; loc_from must not be null. *)
Fixpoint collect_paths (l : list cedge) (q : search) (M : marks) (edges : list (nat * option nat)) : outcome (search * marks * list (nat * option nat)) :=
  match l with
  | [] => Ok (q, M, edges)
  | e :: rest =>
      a <-- deref (efrom e) ;;
      r <-- path_from_middle SG fuel2 orc2 A q a (eto e) ;;
      st <-- collect SG M (snd r) edges ;;
      collect_paths rest (fst r) (fst st) (snd st)
  end.
(** mwpm_decoding.cc:268-326; [edges] is empty at the start.  Lines 306-325 are M_Flip.cancel. *)
Definition decode_to_edges (I : neg_info) (NE : list (nat * option nat)) (s : state) (q : search) (M : marks) (evs : list nat)
  : outcome (state * search * marks * list (nat * option nat)) :=
  if negb (length G =? length SG) then Throw
  else
    r <-- decode G fuel orc A I s evs ;;
    let '(s', (_, _, l)) := r in
    st <-- collect_negative M NE [] ;;
    x <-- collect_paths l q (fst st) (snd st) ;;
    let '(q', M', edges) := x in
    y <-- cancel (S (length edges)) SG M' [] edges ;;
    Ok (s', q', fst y, snd y).

(** matcher/mwpm.cc:454-468: observables and weights of the path edges are added up. *)
Definition add_cell (acc : N * Z) (c : nat * nat) : outcome (N * Z) :=
  match nth_error (nbrs SG (fst c)) (snd c) with
  | None => UB
  | Some (_, w, o) => Ok (N.lxor (fst acc) o, (snd acc + w)%Z)
  end.
Fixpoint extract_paths (l : list cedge) (q : search) (acc : N * Z) : outcome (search * (N * Z)) :=
  match l with
  | [] => Ok (q, acc)
  | e :: rest =>
      a <-- deref (efrom e) ;;
      r <-- path_from_middle SG fuel2 orc2 A q a (eto e) ;;
      acc' <-- fold_left (fun o c => x <-- o ;; add_cell x c) (snd r) (Ok acc) ;;
      extract_paths rest (fst r) acc'
  end.
(** mwpm_decoding.cc:213-229, for more than 64 observables; [negobs] are negative_weight_observables.  The caller passes zeroed
    observables and weight. *)
Definition decode_many_observables (I : neg_info) (negobs : list nat) (s : state) (q : search) (evs : list nat)
  : outcome (state * search * (N * Z)) :=
  r <-- decode G fuel orc A I s evs ;;
  let '(s', (_, _, l)) := r in
  x <-- extract_paths l q (0%N, 0%Z) ;;
  Ok (s', fst x, (N.lxor (fst (snd x)) (full_mask negobs), (snd (snd x) + neg_sum I)%Z)).
End ToEdges.
