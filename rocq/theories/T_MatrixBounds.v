(** C63, continued: reading the arrays of the matrices stays within them.

    load_from_check_matrix reads the arrays of the two sparse matrices without checking bounds.  If their arrays are well formed, as scipy makes
    them, then every call returns or raises an exception, whatever its other arguments: nothing is read outside an array.  That this holds
    for any arrays that pass the checks of the code is false: offsets of the faults matrix are not compared with its size. *)
From Coq Require Import Reals ZArith List Bool Arith Lia Lra.
From Verif Require Import M_Base M_Bits M_Merge M_UserGraph M_CheckMatrix M_MatrixArgs S_CheckMatrix S_MatrixArgs P_MatrixArgs P_MatrixArgs2 P_Dem T_MatrixArgs.
Import ListNotations.
Local Open Scope nat_scope.

(** The call returns or raises. *)
Definition defined {A} (o : outcome A) : Prop := (exists x, o = Ok x) \/ o = Throw.
Lemma bind_defined : forall A B (o : outcome A) (f : A -> outcome B), defined o -> (forall x, defined (f x)) -> defined (bindO o f).
Proof. intros A B o f [[x ->]| ->] H; [apply H|now right]. Qed.
Lemma ok_defined : forall A (x : A), defined (Ok x).
Proof. intros A x. left. now exists x. Qed.
Lemma throw_defined : forall A, defined (Throw (A := A)).
Proof. intros A. now right. Qed.
Lemma fold_defined : forall A B (f : outcome A -> B -> outcome A) l o, (forall o b, defined o -> defined (f o b)) -> defined o -> defined (fold_left f l o).
Proof. intros A B f l. induction l as [|b l IH]; intros o H D; [exact D|]. cbn [fold_left]. apply IH; auto. Qed.
Lemma addO_defined : forall (N : numops) (o : outcome (ugraph N)) u v obs w p s, defined o -> defined (addO o u v obs w p s).
Proof. intros N o u v obs w p s D. apply bind_defined; [exact D|]. intros g. destruct (add_or_merge g u v obs w p s) as [g' []]; [apply throw_defined|apply ok_defined]. Qed.
Lemma column_defined : forall (N : numops) rows reps rep virtual s (o : outcome (ugraph N)) c, defined o -> defined (load_column rows reps rep virtual s o c).
Proof.
  intros N rows reps rep virtual s o [[[rs fs] w] p] D. unfold load_column. destruct rs as [|r1 [|r2 [|r3 rs]]]; [exact D|destruct virtual; now apply addO_defined|now apply addO_defined|]. apply bind_defined; [exact D|]. intros _. apply throw_defined.
Qed.
Lemma matrix_defined : forall (N : numops) rows cols faults fr (ws ps : list (num N)) s virtual reps tws mes, defined (load_check_matrix rows cols faults fr ws ps s virtual reps tws mes).
Proof.
  intros N rows cols faults fr ws ps s virtual reps tws mes. unfold load_check_matrix. do 3 (match goal with |- defined (if ?b then _ else _) => destruct b; [apply throw_defined|] end). cbv zeta.
  set (g1 := fold_left _ (seq 0 reps) _). assert (D1 : defined g1) by (apply fold_defined; [intros o rep D; apply fold_defined; [intros; now apply column_defined|exact D]|apply ok_defined]).
  apply bind_defined; [|intros; apply ok_defined]. destruct (1 <? reps); [|exact D1]. apply bind_defined; [exact D1|]. intros _. destruct tws as [t|], mes as [m|]; try apply throw_defined.
  do 2 (match goal with |- defined (if ?b then _ else _) => destruct b; [apply throw_defined|] end). apply fold_defined; [|exact D1]. intros o rep D. apply fold_defined; [|exact D]. intros o' (row & w & p) D'. now apply addO_defined.
Qed.
Lemma sparse_defined : forall (N : numops) H F (ws ps : list (num N)) s virtual reps tws mes, solid H -> solid (match F with Some F => F | None => identity_matrix (csc_cols H) end) -> defined (load_sparse H ws ps s virtual reps tws mes F).
Proof.
  intros N H F ws ps [s|] virtual reps tws mes SH SF.
  - rewrite (load_sparse_is H F ws ps s virtual reps tws mes SH SF). destruct (_ && _); [apply matrix_defined|apply throw_defined].
  - unfold load_sparse. repeat match goal with |- defined (if ?b then _ else _) => destruct b; [apply throw_defined|] end. apply throw_defined.
Qed.

Theorem C63_in_bounds : forall (N : numops) (one : num N) a, (forall H, check_matrix a H -> well_formed H) -> (forall F, a_faults a = Some F -> well_formed F) ->
  (exists g, py_load_check_matrix one a = Ok g) \/ py_load_check_matrix one a = Throw.
Proof.
  intros N one a _ WF. change (defined (py_load_check_matrix one a)). unfold py_load_check_matrix.
  assert (E : forall x y : numbers (N := N), defined (either x y)) by (intros [] []; first [apply ok_defined|apply throw_defined]). assert (B : forall n d (x : numbers (N := N)), defined (broadcast n d x)) by (intros n d []; first [apply ok_defined|apply throw_defined]).
  apply bind_defined; [destruct (a_matrix a), (a_H a); first [apply ok_defined|apply throw_defined]|]. intros H. apply bind_defined; [apply E|]. intros w. apply bind_defined; [apply B|]. intros ws. apply bind_defined; [apply B|]. intros ps. cbv zeta.
  assert (L : forall reps tws mes, defined (load_sparse (eliminate_zeros H) ws ps (a_strategy a) (a_virtual a) reps tws mes (a_faults a))).
  { intros reps tws mes. apply sparse_defined; [apply elim_solid|]. destruct (a_faults a) as [F|]; [apply formed_solid; now apply WF|apply of_columns_solid]. }
  match goal with |- defined (if ?b then _ else _) => destruct b end.
  - apply bind_defined; [apply B|]. intros tws. apply bind_defined; [apply E|]. intros m. apply bind_defined; [apply B|]. intros mes. apply L.
  - match goal with |- defined (if ?b then _ else _) => destruct b end; [apply throw_defined|apply L].
Qed.
Print Assumptions C63_in_bounds.

(** A faults matrix that passes the checks of the code, with one column of which the offset lies behind the end of the indices. *)
Theorem C63_in_bounds_refuted : exists (a : matrix_args (N := RN)) F, (forall H, check_matrix a H -> well_formed H) /\ a_faults a = Some F /\ matrix_ok F = true /\ py_load_check_matrix (N := RN) 1%R a = UB.
Proof.
  exists (mkMatrixArgs (N := RN) (Some (mkCsc 1 1 [0; 1] [0] [1%Z])) None (NotGiven (N := RN)) (NotGiven (N := RN)) (NotGiven (N := RN)) None (NotGiven (N := RN)) (NotGiven (N := RN)) (NotGiven (N := RN))
    (Some (mkCsc 1 1 [0; 1] [] [])) (Some SMALLEST_WEIGHT) false), (mkCsc 1 1 [0; 1] [] []).
  split; [|repeat split; reflexivity]. intros H HC. assert (H = mkCsc 1 1 [0; 1] [0] [1%Z]) by (destruct HC as [X|[X _]]; cbn in X; [congruence|discriminate X]). subst H.
  split; [reflexivity|]. split; [reflexivity|]. split; [intros [|c] Hc; cbn in *; lia|]. split; [reflexivity|]. split; [reflexivity|]. split; [intros r [<-|[]]; cbn; lia|].
  intros i j r c k k' (_ & _ & X & _) (_ & _ & Y & _). destruct i as [|[|i]], j as [|[|j]]; try discriminate X; try discriminate Y; reflexivity.
Qed.
Print Assumptions C63_in_bounds_refuted.

(** ** A case that meets the hypotheses *)
(** The call of C63, in which zeros are stored and the faults are the default; and it with two rounds. *)
Example C63_in_bounds_example : forall reps, let a := ring_call reps in (forall H, check_matrix a H -> well_formed H) /\ (forall F, a_faults a = Some F -> well_formed F).
Proof.
  intros reps. cbv zeta. split; [|intros F X; discriminate X]. intros H HC. assert (H = ring) by (destruct HC as [X|[_ X]]; cbn in X; [discriminate X|congruence]). subst H. exact (proj1 ring_represents).
Qed.
