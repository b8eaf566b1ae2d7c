(** Specification of decoding with a detector error model: independent error mechanisms, and the sets of them that explain a syndrome. *)
From Coq Require Import Reals ZArith List Bool Arith.
From Verif Require Import M_UserGraph S_GraphMap M_Merge S_Merge M_Dem S_Dem S_Spread S_Pipeline.
Import ListNotations.
Local Open Scope R_scope.

(** A graphlike component: its probability, the one or two detectors and the observables it flips. *)
Definition mechanism : Type := R * (nat * option nat * list nat).
Definition flips_detector (v : nat) (m : mechanism) : bool :=
  let '(_, (a, b, _)) := m in xorb (a =? v)%nat (match b with Some b => (b =? v)%nat | None => false end).
Definition flips_logical (k : nat) (m : mechanism) : bool := let '(_, (_, _, os)) := m in Nat.odd (count_occ Nat.eq_dec os k).
Definition on_same_pair (m m' : mechanism) : bool := let '(_, (a, b, _)) := m in acting_on a b m'.

(** A list of booleans says which of the mechanisms happen. How many happen; whether an odd number of those with property [f] happen;
    the probability of just these happening, if they are independent. *)
Definition number (X : list bool) : nat := count_occ bool_dec X true.
Fixpoint oddly (f : mechanism -> bool) (ms : list mechanism) (X : list bool) : bool :=
  match ms, X with m :: ms', x :: X' => xorb (x && f m) (oddly f ms' X') | _, _ => false end.
Fixpoint chance (ms : list mechanism) (X : list bool) : R :=
  match ms, X with m :: ms', x :: X' => (if x then fst m else 1 - fst m) * chance ms' X' | _, _ => 1 end.
(** What happens gives the detection events [P]. *)
Definition explains_events (ms : list mechanism) (P : nat -> Prop) (X : list bool) : Prop :=
  length X = length ms /\ forall v, oddly (flips_detector v) ms X = true <-> P v.

(** Mechanisms that act on the same detectors cannot be told apart. The probability that, for every pair of detectors, as many mechanisms
    happen as in [X], up to an even number: a sum over all the ways this can come about. *)
Fixpoint all_lists (n : nat) : list (list bool) :=
  match n with O => [[]] | S n' => map (cons false) (all_lists n') ++ map (cons true) (all_lists n') end.
Definition alike (ms : list mechanism) (X Y : list bool) : bool := forallb (fun m => Bool.eqb (oddly (on_same_pair m) ms X) (oddly (on_same_pair m) ms Y)) ms.
Definition likelihood (ms : list mechanism) (X : list bool) : R :=
  fold_right Rplus 0 (map (chance ms) (filter (alike ms X) (all_lists (length ms)))).

(** The row and the weight that are reported for the events [P] belong to mechanisms [X] that explain the events.  Nothing else that explains
    them is more likely, up to a factor that comes from rounding weights of at most [M].  The weight is the logarithm of how
    much less likely [X] is than nothing.  If the mechanisms that act on the same detectors flip the same observables, then the row is that of
    everything that cannot be told from [X]. *)
Definition most_likely (ms : list mechanism) (observables : nat) (M : R) (P : nat -> Prop) (row : list Z) (w : R) : Prop :=
  exists X, explains_events ms P X /\
    let flipped Z := map (fun k => Z.b2z (oddly (flips_logical k) ms Z)) (seq 0 observables) in
    row = flipped X /\
    (forall Y, explains_events ms P Y -> likelihood ms Y <= likelihood ms X * exp (INR (number X + number Y) * half_step M)) /\
    0 < likelihood ms X /\
    Rabs (w - ln (likelihood ms (repeat false (length ms)) / likelihood ms X)) <= INR (number X) * half_step M /\
    ((forall m m' k, In m ms -> In m' ms -> on_same_pair m m' = true -> flips_logical k m = flips_logical k m') ->
     forall Z, length Z = length ms -> alike ms X Z = true -> row = flipped Z).

(** Little happens: with the mechanisms that are more likely than not, at most 64 of them; or anything may happen, but every two detectors that
    mechanisms connect are connected by at most 64, and likewise the boundary. *)
Definition little (ms : list mechanism) (X : list bool) : Prop :=
  (number X + length (filter (fun m => Rltb (1/2) (fst m)) ms) <= 64)%nat \/ few_steps (fun p => exists m, In m ms /\ fst (snd m) = p).

(** The probability of an odd number of the mechanisms on the same pair of detectors as [m]. *)
Definition together (ms : list mechanism) (m : mechanism) : R := odd_probability (map fst (filter (on_same_pair m) ms)).
(** The model: probabilities are below one, no weight exceeds [M], detectors and observables are below the numbers given.  The weights are zero or not all
    minute (2^-999 is about 10^-301). *)
Definition sound_model (detectors observables : nat) (M : R) (dem : list (instruction RD)) : Prop :=
  (forall p ts, In (p, ts) dem -> p < 1) /\
  (forall m, In m (mechanisms RD dem) -> Rabs (log_likelihood_ratio (fst m)) <= M) /\ M <= max_user_weight /\
  (forall p a b os, In (p, (a, b, os)) (mechanisms RD dem) -> (a < detectors)%nat /\ (forall c, b = Some c -> (c < detectors)%nat) /\ forall k, In k os -> (k < observables)%nat) /\
  ((forall m, In m (mechanisms RD dem) -> together (mechanisms RD dem) m = 1/2) \/
   exists m, In m (mechanisms RD dem) /\ / IZR (2 ^ 999) <= Rabs (log_likelihood_ratio (together (mechanisms RD dem) m))).
