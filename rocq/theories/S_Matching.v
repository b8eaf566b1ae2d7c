(** Specification of the Matching object: what a reply to a call has to be, given the graph that the user's changes have made. *)
From Coq Require Import Reals ZArith List Bool Arith Permutation.
From Verif Require Import M_Bits S_Bits M_Merge M_UserGraph S_UserGraph S_Pipeline M_Matching.
Import ListNotations.
Local Open Scope nat_scope.

(** The graph after a call. *)
Definition after (g : ugraph RN) (c : mcall) : ugraph RN := match c with Modify x => apply_op g x | _ => g end.

(** ** Arrays *)
(** Shapes that are accepted as one syndrome: an entry for every detector, and possibly for boundary nodes; or rounds of
    equally many checks, for every detector. *)
Definition accepted (g : ugraph RN) (z : syndrome) : Prop :=
  match z with
  | Syn1 l => num_detectors g <= length l <= num_detectors g + length (bnodes g)
  | Syn2 ncols rows => length rows * ncols = num_detectors g
  | SynOther => False
  end.
(** The node has a detection event in the array. *)
Definition event_at (z : syndrome) (v : nat) : Prop :=
  match z with
  | Syn1 l => nth v l 0%Z <> 0%Z
  | Syn2 ncols rows => exists t c, (t < ncols /\ c < length rows /\ v = t * length rows + c) /\ nth t (nth c rows []) 0%Z <> 0%Z
  | SynOther => False
  end.
(** Shapes that are accepted as a batch, and the events of a shot. *)
Definition accepted_batch (g : ugraph RN) (packed : bool) (z : syndrome) : Prop :=
  match z with
  | Syn2 ncols _ => let size n := if packed then packed_len n else n in size (num_detectors g) <= ncols <= size (num_nodes g)
  | _ => False
  end.
Definition shot_event (packed : bool) (shot : list Z) (v : nat) : Prop :=
  if packed then packed_bit shot v = true else nth v shot 0%Z <> 0%Z.

(** ** What can be asked *)
(** The graph can be handed to the decoder. *)
Definition usable (g : ugraph RN) : Prop := fault_ids_in_range g /\ scalable g /\ conversion_harmless g.
(** Some small set of edges explains the events. *)
Definition explainable (g : ugraph RN) (P : nat -> Prop) : Prop :=
  exists evs F, (forall v, In v evs <-> P v) /\ corrects g F evs /\ manageable g F.
(** Some set of edges explains the events, whether small or not. *)
Definition solvable (g : ugraph RN) (P : nat -> Prop) : Prop :=
  exists evs F, (forall v, In v evs <-> P v) /\ corrects g F evs.
(** What 32 bits allow to ask: events that a small set of edges explains; or, if no two nodes are far apart, any events. *)
Definition askable (g : ugraph RN) (P : nat -> Prop) : Prop :=
  explainable g P \/ (compact g /\ forall v, P v -> v < num_nodes g).
Definition no_negative_loop (g : ugraph RN) : Prop := forall e, In e (edges g) -> node2 e = Some (node1 e) -> (0 <= weight e)%R.
Definition fair (g : ugraph RN) (c : mcall) : Prop :=
  match c with
  | Modify _ => True
  | AskDecode z => accepted g z -> usable g /\ askable g (event_at z)
  | AskBatch packed _ z => accepted_batch g packed z ->
      usable g /\ match z with Syn2 _ shots => Forall (fun shot => askable g (shot_event packed shot)) shots | _ => True end
  | AskEdges z => accepted g z -> usable g /\ no_negative_loop g /\ askable g (event_at z)
  | AskPairs z | AskDict z => accepted g z -> usable g /\ (forall e, In e (edges g) -> (0 <= weight e)%R) /\ askable g (event_at z)
  end.
(** The same without a word about which events can be explained: the graph can be handed to the decoder, and no shot has an event past the
    last node, which only padding bits of packed shots could give.  (Boundary nodes are given as a set, here a list without repeats.) *)
Definition in_range (g : ugraph RN) (c : mcall) : Prop :=
  match c with
  | Modify (OpSetBoundary b) => NoDup b
  | Modify _ => True
  | AskDecode _ => usable g
  | AskBatch packed _ z => usable g /\ match z with Syn2 _ shots => Forall (fun shot => forall v, shot_event packed shot v -> v < num_nodes g) shots | _ => True end
  | AskEdges _ => usable g /\ no_negative_loop g
  | AskPairs _ | AskDict _ => usable g /\ forall e, In e (edges g) -> (0 <= weight e)%R
  end.

Definition asks (c : mcall) : Prop := match c with Modify _ => False | _ => True end.

(** ** What has to be replied *)
(** The row and the weight are those of an edge set that explains the events and is as light as any. *)
Definition right_row (g : ugraph RN) (P : nat -> Prop) (row : list Z) (w : R) : Prop :=
  exists evs F, (forall v, In v evs <-> P v) /\ row = map (fun i => Z.b2z (flips_observable i F)) (seq 0 (nobs g)) /\
    corrects g F evs /\ near_best g F evs /\ weight_reported g w F.
(** A row of a batch is such a row, or its packed form. *)
Definition right_shot (g : ugraph RN) (packed_shots packed_predictions : bool) (shot : list Z) (x : list Z * R) : Prop :=
  exists row, right_row g (shot_event packed_shots shot) row (snd x) /\
    if packed_predictions then length (fst x) = packed_len (nobs g) /\ bytes_ok (fst x) /\ packs (fst x) row else fst x = row.
Definition right_edges (g : ugraph RN) (P : nat -> Prop) (out : list (nat * option nat)) : Prop :=
  exists evs F, (forall v, In v evs <-> P v) /\ shows_edges g out F /\ corrects g F evs /\ near_best g F evs.
(** [Q] joins the two nodes of a pair without touching the boundary, or a node and the boundary. *)
Definition joins_pair (g : ugraph RN) (p : nat * option nat) (Q : list (uedge RN)) : Prop :=
  match snd p with
  | Some b => corrects g Q [fst p; b] /\ forall e, In e Q -> ~ In (node1 e) (bnodes g) /\ ~ at_boundary g (node2 e)
  | None => corrects g Q [fst p]
  end.
Definition ends_of (p : nat * option nat) : list nat := match snd p with Some b => [fst p; b] | None => [fst p] end.
(** Every event, except at boundary nodes, is in one pair, once; and there are sets of edges for the pairs which together are as light
    as any set that explains the events. *)
Definition right_pairs (g : ugraph RN) (P : nat -> Prop) (out : list (nat * option nat)) : Prop :=
  NoDup (flat_map ends_of out) /\ (forall v, In v (flat_map ends_of out) <-> P v /\ ~ In v (bnodes g)) /\
  exists evs Qs, (forall v, In v evs <-> P v) /\ Forall2 (joins_pair g) out Qs /\ near_best g (concat Qs) evs.
(** The dictionary gives for both nodes of a pair the other one. *)
Definition right_dict (g : ugraph RN) (P : nat -> Prop) (t : dict) : Prop :=
  exists out, right_pairs g P out /\ forall v x, dict_get t v = Some x <-> In (v, x) out \/ exists u, x = Some u /\ In (u, Some v) out.

(** Adding an edge raises an exception if there is one already and merging is not allowed. *)
Definition refused (g : ugraph RN) (x : op RN) : Prop :=
  match x with
  | OpAdd u v _ w _ s => s = DISALLOW /\ w_exceeds RN w = false /\ exists e, In e (edges g) /\ joins e u v
  | _ => False
  end.
(** A syndrome of an accepted shape gets an answer if some set of edges explains its events, an exception otherwise; a batch gets an
    exception if one of its shots does. *)
Definition answered (g : ugraph RN) (z : syndrome) (r : mreply) (good : Prop) : Prop :=
  (accepted g z -> solvable g (event_at z) -> good) /\ (accepted g z -> ~ solvable g (event_at z) -> r = Raised) /\ (~ accepted g z -> r = Raised).
Definition right (g : ugraph RN) (c : mcall) (r : mreply) : Prop :=
  match c with
  | Modify x => (refused g x -> r = Raised) /\ (~ refused g x -> r = Done)
  | AskDecode z => answered g z r (exists row w, r = Row row w /\ right_row g (event_at z) row w)
  | AskBatch ps pp z =>
      (accepted_batch g ps z ->
        match z with
        | Syn2 _ shots =>
            (Forall (fun shot => solvable g (shot_event ps shot)) shots -> exists l, r = Rows l /\ Forall2 (right_shot g ps pp) shots l) /\
            (Exists (fun shot => ~ solvable g (shot_event ps shot)) shots -> r = Raised)
        | _ => True
        end) /\
      (~ accepted_batch g ps z -> r = Raised)
  | AskEdges z => answered g z r (exists out, r = EdgeList out /\ right_edges g (event_at z) out)
  | AskPairs z => answered g z r (exists out, r = PairList out /\ right_pairs g (event_at z) out)
  | AskDict z => answered g z r (exists t, r = PairDict t /\ right_dict g (event_at z) t)
  end.

(** Every call of a series, judged on the graph at that time. *)
Fixpoint all_fair (g : ugraph RN) (cs : list mcall) : Prop :=
  match cs with [] => True | c :: cs' => fair g c /\ all_fair (after g c) cs' end.
(** A condition on every call and the graph at that time. *)
Fixpoint always (C : ugraph RN -> mcall -> Prop) (g : ugraph RN) (cs : list mcall) : Prop :=
  match cs with [] => True | c :: cs' => C g c /\ always C (after g c) cs' end.
Fixpoint all_right (g : ugraph RN) (cs : list mcall) (rs : list mreply) : Prop :=
  match cs, rs with
  | [], [] => True
  | c :: cs', r :: rs' => right g c r /\ all_right (after g c) cs' rs'
  | _, _ => False
  end.
