(** Specification: nothing happened. *)
From Coq Require Import Reals ZArith List Bool Arith.
From Verif Require Import M_Bits S_Bits M_Merge M_Matching M_UserGraph S_UserGraph S_Pipeline S_Matching S_Triangle.
Import ListNotations.
Local Open Scope nat_scope.

(** Every edge weighs more than rounding can change: half a step of the largest weight, a part in about 2^25. *)
Definition distinctly_positive (g : ugraph RN) : Prop :=
  exists M, forall e, In e (edges g) -> (half_step M < weight e <= M)%R.
(** A row that predicts no flips: of zeros, or of zero bytes if it is packed. *)
Definition all_quiet (g : ugraph RN) (packed : bool) (row : list Z) (w : R) : Prop :=
  row = repeat 0%Z (if packed then packed_len (nobs g) else nobs g) /\ w = 0%R.
(** The reply to a call about a syndrome without events; of a batch, the rows for the shots without events. *)
Definition quiet_reply (g : ugraph RN) (c : mcall) (r : mreply) : Prop :=
  match c with
  | AskDecode z => accepted g z -> no_events g (event_at z) -> exists row w, r = Row row w /\ all_quiet g false row w
  | AskEdges z => accepted g z -> no_events g (event_at z) -> r = EdgeList []
  | AskPairs z => accepted g z -> no_events g (event_at z) -> r = PairList []
  | AskDict z => accepted g z -> no_events g (event_at z) -> exists t, r = PairDict t /\ forall v, dict_get t v = None
  | AskBatch ps pp (Syn2 _ shots) => forall l k shot x, r = Rows l -> nth_error shots k = Some shot -> nth_error l k = Some x -> no_events g (shot_event ps shot) -> all_quiet g pp (fst x) (snd x)
  | _ => True
  end.
