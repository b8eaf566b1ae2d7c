(** Specification of correlated decoding with a detector error model.

    An error of the model may be decomposed into components, each on one or two detectors.  Correlated decoding first finds a cheapest set of pairs of
    detectors (a single detector counts as a pair with the boundary) that accounts for the events.  Then it supposes that an error happened on each of these
    pairs, raises the probabilities of the other pairs accordingly, and finds a cheapest set again. *)
From Coq Require Import Reals ZArith List Bool Arith Permutation.
From Verif Require Import M_Bits S_Bits M_UserGraph S_GraphMap M_Merge S_Merge M_Dem S_Dem S_Spread S_Pipeline M_Matching S_Matching M_CorrDecode.
Import ListNotations.
Local Open Scope R_scope.

(** Some error of the model has a component on this pair. *)
Definition pair_of_model (dem : list (instruction RD)) (k : key) : Prop := exists m, In m (mechanisms RD dem) /\ ordered (snd m) = k.
Definition touches (v : nat) (k : key) : bool := (fst k =? v)%nat || match snd k with Some b => (b =? v)%nat | None => false end.
Definition parity (f : key -> bool) (F : list key) : bool := fold_right xorb false (map f F).
(** The set [F] of pairs accounts for the events [P]. *)
Definition accounts_for (dem : list (instruction RD)) (P : nat -> Prop) (F : list key) : Prop :=
  NoDup F /\ (forall k, In k F -> pair_of_model dem k) /\ forall v, parity (touches v) F = true <-> P v.

(** The probability of an odd number of errors on the pair [k]. *)
Definition alone (dem : list (instruction RD)) (k : key) : R := odd_probability (errors_with k k dem).
(** How likely the pair [k] is if there was an error on the pair [f]: the probability of both divided by that of [f], at most one half. *)
Definition given (dem : list (instruction RD)) (f k : key) : R := Rmin (1/2) (odd_probability (errors_with f k dem) / alone dem f).
Definition key_dec : forall a b : key, {a = b} + {a <> b} := prod_eq_dec Nat.eq_dec (option_eq_dec Nat.eq_dec).
(** What the pairs [F] say about the pair [k]: the greatest of these probabilities. *)
Definition learned (dem : list (instruction RD)) (F : list key) (k : key) : R :=
  fold_right Rmax (alone dem k) (map (fun f => if key_dec f k then 0 else given dem f k) F).

Definition cost (p : key -> R) (F : list key) : R := fold_right Rplus 0 (map (fun k => log_likelihood_ratio (p k)) F).
(** No set that accounts for the events costs less, but for the rounding of weights of at most [M]. *)
Definition cheapest (dem : list (instruction RD)) (M : R) (p : key -> R) (P : nat -> Prop) (F : list key) : Prop :=
  accounts_for dem P F /\ forall F', accounts_for dem P F' -> cost p F <= cost p F' + INR (length F + length F') * half_step M.

(** The set of pairs that is decided on, and the probabilities for which it is cheapest. *)
Definition decided (dem : list (instruction RD)) (M : R) (correlations : bool) (P : nat -> Prop) (p : key -> R) (F : list key) : Prop :=
  cheapest dem M p P F /\
  if correlations then exists F1, cheapest dem M (alone dem) P F1 /\ p = learned dem F1 else p = alone dem.

(** The observables of a pair: those of the first mechanism on it. *)
Definition pair_flips (dem : list (instruction RD)) (i : nat) (k : key) : bool :=
  match find (acting_on (fst k) (snd k)) (mechanisms RD dem) with Some (_, (_, os)) => Nat.odd (count_occ Nat.eq_dec os i) | None => false end.

(** ** Replies *)
Definition right_prediction (dem : list (instruction RD)) (no : nat) (M : R) (correlations : bool) (P : nat -> Prop) (row : list Z) (w : R) : Prop :=
  exists p F, decided dem M correlations P p F /\
    row = map (fun i => Z.b2z (parity (pair_flips dem i) F)) (seq 0 no) /\ Rabs (w - cost p F) <= INR (length F) * half_step M.
Definition right_shot_prediction (dem : list (instruction RD)) (no : nat) (M : R) (correlations packed_shots packed_predictions : bool) (shot : list Z) (x : list Z * R) : Prop :=
  exists row, right_prediction dem no M correlations (shot_event packed_shots shot) row (snd x) /\
    if packed_predictions then length (fst x) = packed_len no /\ bytes_ok (fst x) /\ packs (fst x) row else fst x = row.
Definition right_listing (dem : list (instruction RD)) (M : R) (correlations : bool) (P : nat -> Prop) (out : list (nat * option nat)) : Prop :=
  exists p F, decided dem M correlations P p F /\ Permutation (map (fun e => ordered (e, [])) out) F.

(** Shapes of arrays. *)
Definition one_syndrome (nd : nat) (z : syndrome) : Prop :=
  match z with Syn1 l => length l = nd | Syn2 ncols rows => (length rows * ncols = nd)%nat | SynOther => False end.
Definition syndromes (nd : nat) (packed : bool) (z : syndrome) : Prop :=
  match z with Syn2 ncols _ => ncols = if packed then packed_len nd else nd | _ => False end.
(** Something accounts for the events: a few pairs, or any number of them if every two detectors that pairs connect are connected by a few, and likewise the boundary. *)
Definition accountable (dem : list (instruction RD)) (P : nat -> Prop) : Prop := exists F, accounts_for dem P F /\ ((length F <= 64)%nat \/ few_steps (pair_of_model dem)).

(** Something accounts for the events, whether a few pairs or many. *)
Definition accounted (dem : list (instruction RD)) (P : nat -> Prop) : Prop := exists F, accounts_for dem P F.
(** No two detectors are far apart: there are at most 64, or those that pairs connect are connected by at most 64. *)
Definition narrow (nd : nat) (dem : list (instruction RD)) : Prop := (nd <= 64)%nat \/ few_steps (pair_of_model dem).
(** What may be asked: events that a few pairs account for; or, if no two detectors are far apart, any events.  (Only padding bits of packed shots
    can give an event that is not one of the detectors.) *)
Definition answerable (nd : nat) (dem : list (instruction RD)) (P : nat -> Prop) : Prop :=
  accountable dem P \/ (narrow nd dem /\ forall v, P v -> (v < nd)%nat).

Definition fair_question (nd : nat) (dem : list (instruction RD)) (c : ccall) : Prop :=
  match c with
  | DecodeOne _ z | DecodeEdges _ z => one_syndrome nd z -> answerable nd dem (event_at z)
  | DecodeBatch _ packed _ z => syndromes nd packed z -> match z with Syn2 _ shots => Forall (fun shot => answerable nd dem (shot_event packed shot)) shots | _ => True end
  end.
(** [right] if something accounts for the events of the syndrome; an exception if nothing does, or if the shape is wrong. *)
Definition replied (nd : nat) (dem : list (instruction RD)) (z : syndrome) (r : mreply) (right : Prop) : Prop :=
  (one_syndrome nd z -> accounted dem (event_at z) -> right) /\ (one_syndrome nd z -> ~ accounted dem (event_at z) -> r = Raised) /\ (~ one_syndrome nd z -> r = Raised).
Definition right_answer (nd no : nat) (M : R) (dem : list (instruction RD)) (c : ccall) (r : mreply) : Prop :=
  match c with
  | DecodeOne cor z => replied nd dem z r (exists row w, r = Row row w /\ right_prediction dem no M cor (event_at z) row w)
  | DecodeBatch cor ps pp z =>
      (syndromes nd ps z ->
        match z with
        | Syn2 _ shots =>
            (Forall (fun shot => accounted dem (shot_event ps shot)) shots -> exists l, r = Rows l /\ Forall2 (right_shot_prediction dem no M cor ps pp) shots l) /\
            (Exists (fun shot => ~ accounted dem (shot_event ps shot)) shots -> r = Raised)
        | _ => True
        end) /\
      (~ syndromes nd ps z -> r = Raised)
  | DecodeEdges cor z => replied nd dem z r (exists out, r = EdgeList out /\ right_listing dem M cor (event_at z) out)
  end.

(** The model: probabilities of at most one half; errors that are decomposed into components on one or two detectors, or do nothing; no two components of an
    error on the same pair; weights of at most [M]; detectors and observables below the numbers given, the two detectors of a component being different.
    If there is a pair, then not all pairs have minute weights. *)
Definition sound_correlated_model (detectors observables : nat) (M : R) (dem : list (instruction RD)) : Prop :=
  (forall p ts, In (p, ts) dem -> 0 <= p <= 1/2 /\ NoDup (S_Dem.pairs_of ts) /\ (0 < p -> acceptable ts)) /\
  (forall m, In m (mechanisms RD dem) -> log_likelihood_ratio (fst m) <= M) /\ 0 <= M <= max_user_weight /\
  (forall p a b os, In (p, (a, b, os)) (mechanisms RD dem) ->
    (a < detectors)%nat /\ (forall c, b = Some c -> (c < detectors)%nat /\ c <> a) /\ forall k, In k os -> (k < observables)%nat) /\
  ((forall k, ~ pair_of_model dem k) \/ exists k, pair_of_model dem k /\ / IZR (2 ^ 999) <= log_likelihood_ratio (alone dem k)).
