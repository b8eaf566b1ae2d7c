(** Model of decoding with edge correlations (two passes): driver/mwpm_decoding.cc:167-194, 196-248 and 328-340; loading of
    the implied weights: flooder/graph.cc:63-74 and 107-111, search/search_graph.cc:57-72 and 93-99,
    driver/user_graph.cc:267-321 (conversion at the end).

    Conversion of implied weights and reweighting are M_Reweight.v, the two decoders M_Core.v and M_ToEdges.v. *)
From Coq Require Import ZArith NArith List Bool Arith.
From Verif Require Import M_Base M_Core M_Build M_Flip M_Search M_ToEdges M_Reweight.
Import ListNotations.
Local Open Scope outcome_scope.
Local Open Scope nat_scope.

(** An edge and its implied_weights_for_other_edges. *)
Notation redge := (sedge * list urule)%type (only parsing).
Notation rtable := (list (list (list urule))) (only parsing).

Definition upd_at {A} (U : list (list A)) (u : nat) (f : list A -> list A) : list (list A) :=
  firstn u U ++ match skipn u U with [] => [] | l :: r => f l :: r end.
(** graph.cc:63-74 and 107-111, the lines about edges_to_implied_weights_unconverted; the same code is in search_graph.cc.
    The other lines of add_edge and add_boundary_edge are M_Build.v and M_ToEdges.v: the edges are added there first and the
    rules here afterwards, which is the same because neither reads what the other writes. *)
Definition add_rules (U : rtable) (e : redge) : rtable :=
  let '((u, x, _, _), rs) := e in
  match x with
  | Some v => if u =? v then U else upd_at (upd_at U u (fun l => l ++ [rs])) v (fun l => l ++ [rs])
  | None => upd_at U u (fun l => rs :: l)
  end.
Definition rules_table (n : nat) (R : list redge) : rtable := fold_left add_rules R (repeat [] n).

(** A matching graph and a search graph with converted implied weights. *)
Record loaded := mkL {
  lg : mgraph; lsg : sgraph;
  lt : list (list (list rule));     (* neighbor_implied_weights of the matching graph *)
  lst : list (list (list rule)) }.  (* ... of the search graph *)
(** user_graph.cc:267-321: both graphs from the same edges, conversion at the end. *)
Definition load (nobs n : nat) (R : list redge) : outcome loaded :=
  g <-- build nobs n (map fst R) ;;
  T <-- convert_implied_weights (adj g) (rules_table n R) ;;
  sg <-- sbuild n (map fst R) ;;
  TS <-- convert_implied_weights (sadj sg) (rules_table n R) ;;
  Ok (mkL g sg T TS).

(** A graph (with its current weights) and its previous_weights. *)
Definition dgraph : Type := graph * list (cell * Z).
(** graph.cc:206-219 on such a pair *)
Definition reweight_graph (without_correlations : bool) (T : list (list (list rule))) (edges : list Z) (d : dgraph) : dgraph * outcome unit :=
  let (st, o) := reweight_checked without_correlations (fst d) T edges (weights_of (fst d), snd d) in
  ((with_weights (fst st) (fst d), snd st), o).
(** graph.cc:221-231 *)
Definition undo_graph (d : dgraph) : dgraph :=
  let st := undo_reweights (weights_of (fst d), snd d) in (with_weights (fst st) (fst d), snd st).

(** The vector of solution edges: pairs of node indices, -1 for the boundary. *)
Definition flatten (l : list (nat * option nat)) : list Z :=
  flat_map (fun p => [Z.of_nat (fst p); match snd p with Some v => Z.of_nat v | None => (-1)%Z end]) l.

Section TwoPass.
Variables (wc : bool)                                  (* loaded_from_dem_without_correlations *)
          (T TS : list (list (list rule))) (fuel : nat) (orc orc2 : nat -> nat) (A : ints) (I : neg_info) (NE : list (nat * option nat)).

(** mwpm_decoding.cc:167-176, 188-191 (and the same lines of the other two functions); [second] is the decode in between, given
    the graphs as reweighted.  The graphs are returned whatever the outcome: an exception leaves them as they are then. *)
Definition two_pass {X} (second : graph -> graph -> state -> search -> marks -> outcome (state * search * marks * X))
  (d ds : dgraph) (s : state) (q : search) (M : marks) (evs : list nat) : dgraph * dgraph * outcome (state * search * marks * X) :=
  match decode_to_edges (fst d) (fst ds) fuel fuel orc orc2 A I NE s q M evs with
  | Ok (s1, q1, M1, edges) =>
      let (d1, o) := reweight_graph wc T (flatten edges) d in
      match o with
      | Ok tt =>
          let (ds1, o1) := reweight_graph false TS (flatten edges) ds in
          match o1 with
          | Ok tt =>
              match second (fst d1) (fst ds1) s1 q1 M1 with
              | Ok r => (undo_graph d1, undo_graph ds1, Ok r)
              | Throw => (d1, ds1, Throw) | UB => (d1, ds1, UB) | Fuel => (d1, ds1, Fuel)
              end
          | Throw => (d1, ds1, Throw) | UB => (d1, ds1, UB) | Fuel => (d1, ds1, Fuel)
          end
      | Throw => (d1, ds, Throw) | UB => (d1, ds, UB) | Fuel => (d1, ds, Fuel)
      end
  | Throw => (d, ds, Throw) | UB => (d, ds, UB) | Fuel => (d, ds, Fuel)
  end.

(** The queues of the second pass may break ties differently. *)
Variables (orcb orc2b : nat -> nat) (evs : list nat).
(** mwpm_decoding.cc:167-194, and 196-248 with at most 64 observables *)
Definition correlated_mask (d ds : dgraph) (s : state) (q : search) (M : marks) := two_pass (fun G _ s q M =>
  r <-- decode G fuel orcb A I s evs ;; let '(s', (o, w, _)) := r in Ok (s', q, M, (o, w))) d ds s q M evs.
(** mwpm_decoding.cc:196-248 with more than 64 observables *)
Definition correlated_many (negobs : list nat) (d ds : dgraph) (s : state) (q : search) (M : marks) := two_pass (fun G SG s q M =>
  r <-- decode_many_observables G SG fuel fuel orcb orc2b A I negobs s q evs ;; let '(s', q', x) := r in Ok (s', q', M, x)) d ds s q M evs.
(** mwpm_decoding.cc:328-340 *)
Definition correlated_edges (d ds : dgraph) (s : state) (q : search) (M : marks) :=
  two_pass (fun G SG s q M => decode_to_edges G SG fuel fuel orcb orc2b A I NE s q M evs) d ds s q M evs.
End TwoPass.

(** driver/user_graph.pybind.cc:288-333 decode_batch: the shots one after the other on the same decoder; an exception ends the
    batch.  [f] decodes one shot. *)
Fixpoint correlated_batch {X} (f : list nat -> dgraph -> dgraph -> state -> search -> marks -> dgraph * dgraph * outcome (state * search * marks * X))
  (shots : list (list nat)) (d ds : dgraph) (s : state) (q : search) (M : marks) : dgraph * dgraph * outcome (list X) :=
  match shots with
  | [] => (d, ds, Ok [])
  | evs :: rest =>
      match f evs d ds s q M with
      | (d1, ds1, Ok (s1, q1, M1, x)) => let '(d2, ds2, o) := correlated_batch f rest d1 ds1 s1 q1 M1 in (d2, ds2, xs <-- o ;; Ok (x :: xs))
      | (d1, ds1, Throw) => (d1, ds1, Throw) | (d1, ds1, UB) => (d1, ds1, UB) | (d1, ds1, Fuel) => (d1, ds1, Fuel)
      end
  end.
