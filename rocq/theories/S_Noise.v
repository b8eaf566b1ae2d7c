(** Specification of noise that is sampled and then decoded. *)
From Coq Require Import Reals ZArith List Bool Arith.
From Verif Require Import M_UserGraph M_Merge S_UserGraph S_Pipeline S_Distance.
Import ListNotations.
Local Open Scope nat_scope.

(** The edges that are flipped: those whose number is less than their error probability. *)
Fixpoint flipped_edges (es : list (uedge RN)) (draws : list R) : list (uedge RN) :=
  match es, draws with
  | e :: es', r :: draws' => if Rlt_dec r (prob e) then e :: flipped_edges es' draws' else flipped_edges es' draws'
  | _, _ => []
  end.
(** The two arrays that are returned: the observables that the flipped edges flip; and a 1 for each node that is no boundary node and has oddly many ends of flipped edges. *)
Definition syndrome_of (g : ugraph RN) (F : list (uedge RN)) : list Z :=
  map (fun v => if in_dec Nat.eq_dec v (bnodes g) then 0%Z else Z.b2z (Nat.odd (total_degree v F))) (seq 0 (num_nodes g)).
(** What is left after the predicted observables are flipped back: observables that a set of edges without detection events flips. *)
Definition differ_by_cycle (g : ugraph RN) (row noise : list Z) : Prop :=
  exists C, corrects g C [] /\ length row = nobs g /\ length noise = nobs g /\ forall i, i < nobs g -> (nth i row 0 = Z.b2z (xorb (Z.odd (nth i noise 0)) (flips_observable i C)))%Z.
(** The reported weight is at most that of [F], up to the rounding of weights, and exactly if weights are integers (and not large sums). *)
Definition no_heavier (g : ugraph RN) (w : R) (F : list (uedge RN)) : Prop :=
  (forall M, (0 <= M)%R -> (forall e, In e (edges g) -> Rabs (weight e) <= M)%R -> w <= total_weight F + INR (2 * length (edges g) + length F) * half_step M)%R /\
  (integer_weights g -> (absolute_weight (edges g) <= IZR (2 ^ 52))%R -> (w <= total_weight F)%R).
