(** Specification of loading a detector error model. *)
From Coq Require Import Arith List Bool Reals.
From Verif Require Import M_UserGraph S_GraphMap M_Dem M_Merge S_Merge.
Import ListNotations.

(** Detectors and observables of each component of an instruction; components are separated by Sep. *)
Fixpoint components (ts : list target) : list (list nat * list nat) :=
  match ts with
  | [] => [([], [])]
  | Sep :: ts' => ([], []) :: components ts'
  | Det d :: ts' => match components ts' with [] => [] | (ds, os) :: cs => (d :: ds, os) :: cs end
  | Obs o :: ts' => match components ts' with [] => [] | (ds, os) :: cs => (ds, o :: os) :: cs end
  end.

(** The pair of nodes of a component with one or two detectors. *)
Definition graphlike (c : list nat * list nat) : option (nat * option nat * list nat) :=
  match c with
  | ([d], os) => Some (d, None, os)
  | ([d; d'], os) => Some (d, Some d', os)
  | _ => None
  end.

Definition graphlike_components (ts : list target) : list (nat * option nat * list nat) :=
  flat_map (fun c => match graphlike c with Some k => [k] | None => [] end) (components ts).

(** All graphlike components of the instructions with positive probability, with their probabilities. *)
Definition mechanisms (D : demops) (dem : list (instruction D)) : list (num (base D) * (nat * option nat * list nat)) :=
  flat_map (fun '(p, ts) => if p_pos D p then map (fun c => (p, c)) (graphlike_components ts) else []) dem.

(** The mechanisms of a model that act on the pair {x,y}. *)
Definition acting_on {P : Type} (x : nat) (y : option nat) (m : P * (nat * option nat * list nat)) : bool :=
  let '(_, (u, v, _)) := m in same_pair u v x y.

(** Real-number instance of the loader's arithmetic. *)
Definition RD : demops := {|
  base := RN;
  llr := log_likelihood_ratio;
  p_pos := Rltb 0;
  p_is_zero := fun p => andb (Rleb p 0) (Rleb 0 p);
  p_gt_half := Rltb (1/2);
  p_zero := 0%R;
  p_cond := fun j m => Rmin (1/2) (j / m) |}.

(** ** Loading with correlations *)

(** An instruction that the correlated loader accepts: every component has one or two detectors, or it is
    not decomposed and has no detector (then it is ignored). *)
Definition acceptable (ts : list target) : Prop :=
  (forall c, In c (components ts) -> graphlike c <> None) \/ (exists os, components ts = [([], os)]).

Definition prod_eq_dec {A B} (da : forall a b : A, {a = b} + {a <> b}) (db : forall a b : B, {a = b} + {a <> b})
  (x y : A * B) : {x = y} + {x <> y}.
Proof. decide equality. Defined.
Definition option_eq_dec {A} (da : forall a b : A, {a = b} + {a <> b}) (x y : option A) : {x = y} + {x <> y}.
Proof. decide equality. Defined.

(** The pair of a component as an ordered key: smaller detector first, boundary last. *)
Definition ordered (c : nat * option nat * list nat) : nat * option nat :=
  match c with
  | (u, Some v, _) => (Nat.min u v, Some (Nat.max u v))
  | (u, None, _) => (u, None)
  end.

(** The pairs of the components of an instruction. *)
Definition pairs_of (ts : list target) : list (nat * option nat) := map ordered (graphlike_components ts).

(** Probabilities of the errors that have a component on pair [a] and one on pair [b]. *)
Definition errors_with (a b : nat * option nat) (dem : list (instruction RD)) : list R :=
  flat_map (fun '(p, ts) => if in_dec (prod_eq_dec Nat.eq_dec (option_eq_dec Nat.eq_dec)) a (pairs_of ts)
                            then if in_dec (prod_eq_dec Nat.eq_dec (option_eq_dec Nat.eq_dec)) b (pairs_of ts) then [p] else []
                            else []) (filter (fun x => p_pos RD (fst x)) dem).
