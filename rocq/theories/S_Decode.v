(** Specifications of a whole decode. *)
From Coq Require Import ZArith NArith List Bool Arith Permutation.
From Verif Require Import M_Base M_Core M_Session S_Core S_Session.
Import ListNotations.
Local Open Scope nat_scope.

(** Detection events a caller may pass: distinct, in range. *)
Definition valid_events (G : graph) (evs : list nat) : Prop := NoDup evs /\ forall v, In v evs -> v < length G.

(** No negative weights, no virtual boundary nodes. *)
Definition plain : neg_info := mkNeg [] 0%N 0%Z [].
(** The detection events that are matched: those given, exclusive or the ends of odd degree of the negative edges;
    detection events at virtual boundary nodes are left out. *)
Definition effective (I : neg_info) (evs : list nat) (v : nat) : Prop :=
  (In v evs /\ nth v (is_bnd I) false = false /\ ~ In v (neg_events I)) \/ (In v (neg_events I) /\ ~ In v evs).

(** The ends of a matched pair: two detectors, or one detector and the boundary. *)
Definition pair_ends (e : cedge) : list nat :=
  match efrom e, eto e with
  | Some a, Some b => [a; b]
  | Some a, None => [a]
  | None, Some b => [b]
  | None, None => []
  end.
(** [e] stands for a path of length [w]. *)
Definition stands_for (G : graph) (e : cedge) (w : Z) : Prop :=
  exists a, efrom e = Some a /\ path G a (eto e) w (eobs e).
(** ... a path as short as any other with the same ends. *)
Definition stands_for_shortest (G : graph) (e : cedge) (w : Z) : Prop :=
  exists a, efrom e = Some a /\ path G a (eto e) w (eobs e) /\ forall w' o', path G a (eto e) w' o' -> (w <= w')%Z.

(** Decoder states after any number of decodes of valid syndromes, each of which returned an answer or raised
    'no perfect matching'. *)
Inductive history (G : graph) (A : ints) (I : neg_info) : state -> Prop :=
| new_decoder : history G A I init_state
| one_more : forall s fuel orc evs s' r, history G A I s -> valid_events G evs ->
    decode_st G fuel orc A I s evs = (s', r) -> (exists x, r = Answer x) \/ r = NoMatching -> history G A I s'.

(** States of the main loop between two events handed to the matcher (mwpm_decoding.cc:128-133). *)
Inductive reached (G : graph) (A : ints) (I : neg_info) (s : state) (evs : list nat) : state -> Prop :=
| events_added : forall s1, add_events G A I (set_sc s (mkQ (ntr (sc s)) (rtr (sc s)) [] 0%Z (tick (sc s)))) evs = Ok s1 -> reached G A I s evs s1
| event_processed : forall fuel orc s1 s2 e s3, reached G A I s evs s1 -> run_until_event G fuel orc A fuel s1 = Ok (s2, e) ->
    process_event G fuel A s2 e = Ok s3 -> reached G A I s evs s3.

Definition in_use (a : slots) (x : nat) : Prop := x < next a /\ ~ In x (free a).
(** [e] connects two of the detection events [P], or one and the boundary, by a path with its observables. *)
Definition connects (G : graph) (P : nat -> Prop) (e : cedge) : Prop :=
  exists a w, efrom e = Some a /\ P a /\ (forall b, eto e = Some b -> P b) /\ path G a (eto e) w (eobs e).
(** All connections recorded in the decoder's data. *)
Record connections_real (G : graph) (P : nat -> Prop) (s : state) : Prop := {
  real_nodes : forall v R, v < length G -> arr (nd s) v = Some R -> (* node to the event its region started from *)
     exists a w, src (nd s) v = Some a /\ P a /\ walk G a v w (crs (nd s) v);
  real_matches : forall R, in_use (ra s) R -> bpar (rg s) R = None -> alt (ma s) R = None -> connects G P (medge (ma s) R);
  real_cycles : forall R c e, in_use (ra s) R -> In (c, e) (chl (rg s) R) -> connects G P e;
  real_inner : forall a, in_use (ta s) a -> inn (tr s) a <> None -> connects G P (i2o (tr s) a);
  real_parents : forall a, in_use (ta s) a -> par (tr s) a <> None -> connects G P (ped (tr s) a);
  real_children : forall a b e, in_use (ta s) a -> In (b, e) (kid (tr s) a) -> connects G P e }.
(** The responses of one decoder to several syndromes. *)
Fixpoint answers (G : graph) (fuel : nat) (orc : nat -> nat) (I : neg_info) (s : state) (l : list (list nat)) : list response :=
  match l with [] => [] | evs :: l' => let (s', r) := decode_st G fuel orc exact_ints I s evs in r :: answers G fuel orc I s' l' end.
