(** Model of correlated reweighting: flooder/graph.cc:164-231, flooder/graph.h:95-114,
    driver/implied_weights.h; search/search_graph.cc:102-168 and search_graph.h:62 contain the same code for
    the search graph, so one model serves both graphs.

    A weight_int* into some neighbor_weights vector is a cell (node, index).  The rounding
    round(implied_weight * constant / 2) is not modelled: a rule carries its integer result. *)
From Coq Require Import ZArith NArith List Bool Arith.
From Verif Require Import M_Base M_Core.
Import ListNotations.
Local Open Scope outcome_scope.
Local Open Scope Z_scope.

Definition cell : Type := nat * nat.
Definition cell_eqb (a b : cell) : bool := Nat.eqb (fst a) (fst b) && Nat.eqb (snd a) (snd b).
Definition weights : Type := cell -> Z.
Definition setw (W : weights) (c : cell) (w : Z) : weights := fun d => if cell_eqb d c then w else W d.

(** implied_weights.h:32-36 ImpliedWeight *)
Record rule := mkRule { e0 : cell; e1 : option cell; iw : Z }.
(** implied_weights.h:22-30 ImpliedWeightUnconverted: node1, node2 (None for SIZE_MAX), rounded half weight *)
Definition urule : Type := nat * option nat * Z.

(** The weights and previous_weights (back last). *)
Definition wstate : Type := weights * list (cell * Z).

(** graph.h:95-110 apply_reweights *)
Definition apply_rule (st : wstate) (r : rule) : wstate :=
  let (W, p) := st in
  if iw r <? W (e0 r) then
    let p1 := p ++ [(e0 r, W (e0 r))] in
    let W1 := setw W (e0 r) (iw r) in
    match e1 r with
    | Some c => (setw W1 c (iw r), p1 ++ [(c, W1 c)])
    | None => (W1, p1)
    end
  else st.
Definition apply_reweights (rules : list rule) (st : wstate) : wstate := fold_left apply_rule rules st.

(** graph.cc:166-183 convert_rule *)
Definition convert_rule (G : graph) (r : urule) : outcome rule :=
  let '(i, j, half) := r in
  ki <-- index_of_neighbor G i j ;;
  match j with
  | None => Ok (mkRule (i, ki) None (Z.abs (2 * half)))
  | Some v => kj <-- index_of_neighbor G v (Some i) ;; Ok (mkRule (i, ki) (Some (v, kj)) (Z.abs (2 * half)))
  end.
Fixpoint mapO {A B} (f : A -> outcome B) (l : list A) : outcome (list B) :=
  match l with [] => Ok [] | x :: l' => y <-- f x ;; ys <-- mapO f l' ;; Ok (y :: ys) end.
(** graph.cc:186-197 convert_implied_weights; [U] is edges_to_implied_weights_unconverted: for each node,
    for each neighbour, the rules. *)
Definition convert_implied_weights (G : graph) (U : list (list (list urule))) : outcome (list (list (list rule))) :=
  mapO (mapO (mapO (convert_rule G))) U.

(** graph.cc:201-204 reweight_for_edge.  Indices that are not nodes are undefined behaviour. *)
Definition node_of (G : graph) (v : Z) : outcome nat :=
  if (0 <=? v) && (v <? Z.of_nat (length G)) then Ok (Z.to_nat v) else UB.
Definition neighbor_of (G : graph) (v : Z) : outcome (option nat) :=
  if v =? -1 then Ok None else n <-- node_of G v ;; Ok (Some n).
Definition rules_for_edge (G : graph) (T : list (list (list rule))) (u v : Z) : outcome (list rule) :=
  a <-- node_of G u ;; b <-- neighbor_of G v ;; k <-- index_of_neighbor G a b ;;
  Ok (nth k (nth a T []) []).
(** graph.cc:206-219 reweight_for_edges: the loop over pairs of entries.  The state is returned also if an
    exception ends the loop. *)
Fixpoint reweight_for_edges (G : graph) (T : list (list (list rule))) (edges : list Z) (st : wstate)
  : wstate * outcome unit :=
  match edges with
  | u :: v :: rest =>
      match rules_for_edge G T u v with
      | Ok rules => reweight_for_edges G T rest (apply_reweights rules st)
      | Throw => (st, Throw)
      | UB => (st, UB)
      | Fuel => (st, Fuel)
      end
  | _ => (st, Ok tt)
  end.
(** 207-213: the check at the start *)
Definition reweight_checked (without_correlations : bool) G T edges st : wstate * outcome unit :=
  if without_correlations then (st, Throw) else reweight_for_edges G T edges st.

(** graph.cc:221-231 undo_reweights *)
Definition undo_reweights (st : wstate) : wstate :=
  (fold_left (fun W p => setw W (fst p) (snd p)) (rev (snd st)) (fst st), []).

(** The weights stored in a graph, and a graph with other weights. *)
Definition weights_of (G : graph) : weights := fun c => snd (fst (nth (snd c) (nbrs G (fst c)) (None, 0, 0%N))).
Fixpoint reweigh_row (W : weights) (u i : nat) (l : list nbr) : list nbr :=
  match l with [] => [] | (x, _, o) :: l' => (x, W (u, i), o) :: reweigh_row W u (S i) l' end.
Fixpoint reweigh (W : weights) (u : nat) (G : graph) : graph :=
  match G with [] => [] | l :: G' => reweigh_row W u 0 l :: reweigh W (S u) G' end.
Definition with_weights (W : weights) (G : graph) : graph := reweigh W 0 G.
