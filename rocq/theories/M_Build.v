(** Model of building the matching graph: flooder/graph.cc:27-162 (add_edge, add_boundary_edge, negative
    weights), flooder/graph_flooder.cc:379-398 (sync of the negative-weight data) and
    driver/user_graph.h:138-201 (conversion of a user graph, weights already discretised).

    Implied weights (correlations) are not part of this model, see M_Reweight.v. *)
From Coq Require Import ZArith NArith List Bool Arith.
From Verif Require Import M_Base M_Core.
Import ListNotations.
Local Open Scope outcome_scope.
Local Open Scope nat_scope.

(** An edge as passed to add_edge / add_boundary_edge: node, node or boundary, signed weight, observables. *)
Definition sedge : Type := nat * option nat * Z * list nat.

Record mgraph := mkG {
  adj : graph;              (* nodes[u].neighbors, neighbor_weights, neighbor_observables *)
  neg_dets : list nat;      (* negative_weight_detection_events_set, in increasing order *)
  neg_obss : list nat;      (* negative_weight_observables_set *)
  neg_total : Z }.          (* negative_weight_sum *)

(** graph.cc:144-162: toggling membership in a std::set *)
Fixpoint toggle (x : nat) (l : list nat) : list nat :=
  match l with
  | [] => [x]
  | y :: l' => if x =? y then l' else if x <? y then x :: l else y :: toggle x l'
  end.

(** graph.cc:57-61, 90-94: the mask is only computed for at most 64 observables *)
Definition mask_of (nobs : nat) (obs : list nat) : N :=
  if nobs <=? 64 then fold_left (fun m o => N.lxor m (N.shiftl 1 (N.of_nat o))) obs 0%N else 0%N.

Definition upd_node (G : graph) (u : nat) (f : list nbr -> list nbr) : graph :=
  firstn u G ++ match skipn u G with [] => [] | l :: r => f l :: r end.

(** graph.cc:41-46 and 96-100 *)
Definition note_negative (g : mgraph) (ends : list nat) (w : Z) (obs : list nat) : mgraph :=
  if (w <? 0)%Z then
    mkG (adj g) (fold_left (fun l u => toggle u l) ends (neg_dets g))
        (fold_left (fun l o => toggle o l) obs (neg_obss g)) (neg_total g + w)%Z
  else g.

(** graph.cc:27-75 *)
Definition add_edge (nobs : nat) (g : mgraph) (u v : nat) (w : Z) (obs : list nat) : outcome mgraph :=
  if length (adj g) <=? Nat.max u v then Throw
  else
    let g1 := note_negative g [u; v] w obs in
    if u =? v then Ok g1
    else
      let m := mask_of nobs obs in
      let a1 := upd_node (adj g1) u (fun l => l ++ [(Some v, Z.abs w, m)]) in
      let a2 := upd_node a1 v (fun l => l ++ [(Some u, Z.abs w, m)]) in
      Ok (mkG a2 (neg_dets g1) (neg_obss g1) (neg_total g1)).

(** graph.cc:77-112 *)
Definition add_boundary_edge (nobs : nat) (g : mgraph) (u : nat) (w : Z) (obs : list nat) : outcome mgraph :=
  if length (adj g) <=? u then Throw
  else
    let m := mask_of nobs obs in
    let g1 := note_negative g [u] w obs in
    match nth u (adj g1) [] with
    | (None, _, _) :: _ => Throw
    | _ => Ok (mkG (upd_node (adj g1) u (fun l => (None, Z.abs w, m) :: l)) (neg_dets g1) (neg_obss g1) (neg_total g1))
    end.

Definition add_any (nobs : nat) (g : mgraph) (e : sedge) : outcome mgraph :=
  let '(u, x, w, obs) := e in
  match x with Some v => add_edge nobs g u v w obs | None => add_boundary_edge nobs g u w obs end.
Definition empty_graph (n : nat) : mgraph := mkG (repeat [] n) [] [] 0%Z.
Definition build (nobs n : nat) (es : list sedge) : outcome mgraph :=
  fold_left (fun o e => g <-- o ;; add_any nobs g e) es (Ok (empty_graph n)).

(** graph_flooder.cc:379-398 *)
Definition neg_info_of (nobs : nat) (g : mgraph) (bnd : list bool) : neg_info :=
  mkNeg (neg_dets g) (mask_of nobs (neg_obss g)) (neg_total g) bnd.

(** user_graph.h:138-201.  A user edge has the same type; node2 = SIZE_MAX is None; [B] is is_boundary.  Edges
    between two boundary nodes are dropped; of the boundary edges at a node the first one of least weight is
    kept. *)
Definition is_bnd_node (B : nat -> bool) (x : option nat) : bool := match x with None => true | Some v => B v end.
Inductive converted := Edge (e : sedge) | BoundaryEdge (u : nat) (w : Z) (obs : list nat) | Dropped.
Definition convert_edge (B : nat -> bool) (e : sedge) : converted :=
  let '(u, x, w, obs) := e in
  if is_bnd_node B x && negb (B u) then BoundaryEdge u w obs
  else match x with
       | Some v => if B u && negb (B v) then BoundaryEdge v w obs
                   else if negb (B u) then Edge (u, Some v, w, obs) else Dropped
       | None => Dropped
       end.
Definition table : Type := nat -> option (Z * list nat).
Definition keep_best (t : table) (u : nat) (w : Z) (obs : list nat) : table :=
  match t u with
  | None => upd t u (Some (w, obs))
  | Some (w0, _) => if (w <? w0)%Z then upd t u (Some (w, obs)) else t
  end.
Fixpoint convert (B : nat -> bool) (es : list sedge) (t : table) : list sedge * table :=
  match es with
  | [] => ([], t)
  | e :: es' =>
      match convert_edge B e with
      | Edge e' => let (l, t') := convert B es' t in (e' :: l, t')
      | BoundaryEdge u w obs => convert B es' (keep_best t u w obs)
      | Dropped => convert B es' t
      end
  end.
Definition boundary_list (n : nat) (t : table) : list sedge :=
  flat_map (fun u => match t u with Some (w, obs) => [(u, None, w, obs)] | None => [] end) (seq 0 n).
Definition convert_all (n : nat) (B : nat -> bool) (es : list sedge) : list sedge :=
  let (l, t) := convert B es (fun _ => None) in l ++ boundary_list n t.
Definition to_matching_graph (nobs n : nat) (B : nat -> bool) (es : list sedge) : outcome mgraph :=
  build nobs n (convert_all n B es).
