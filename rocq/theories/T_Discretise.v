(** C31: discretised weights.  A double is the real number it stands for; what is computed from doubles is rounded to doubles. *)
From Coq Require Import Reals ZArith List Bool Lia Lra.
From Verif Require Import M_Base M_Double M_Discretise P_Double P_Discretise.
Import ListNotations.
Local Open Scope R_scope.

(** Even, within 2 * (2^24 - 1), and twice the rescaled weight up to half a unit and a little more (2^-29) for
    the rounding of the product. *)
Theorem C31_range_and_error : forall ws c, normalising_constant ws = Ok c -> forall w, In w ws ->
  Z.even (discretise c w) = true /\ (Z.abs (discretise c w) <= 2 * (2 ^ 24 - 1))%Z /\
  Rabs (IZR (discretise c w) / 2 - w * c) <= / 2 + / IZR (2 ^ 29) /\ 0 < c.
Proof. exact discretise_spec. Qed.
Print Assumptions C31_range_and_error.

(** Integral weights are represented exactly. *)
Theorem C31_integral_exact : forall ws c, normalising_constant ws = Ok c -> (forall w, In w ws -> exists k, w = IZR k) ->
  forall w k, In w ws -> w = IZR k -> discretise c w = (2 * k)%Z.
Proof. exact discretise_integral. Qed.
Print Assumptions C31_integral_exact.

(** So the comparison of two selections of edges is unchanged. *)
Theorem C31_integral_order : forall ws c, normalising_constant ws = Ok c -> (forall w, In w ws -> exists k, w = IZR k) ->
  forall F F', (forall w, In w F -> In w ws) -> (forall w, In w F' -> In w ws) ->
  (rsum F <= rsum F' <-> (zsum_of c F <= zsum_of c F')%Z).
Proof. exact order_unchanged. Qed.
Print Assumptions C31_integral_order.

(** A selection of n edges is off by at most n times as much. *)
Theorem C31_total_error : forall ws c, normalising_constant ws = Ok c -> forall F, (forall w, In w F -> In w ws) ->
  Rabs (IZR (zsum_of c F) / 2 - c * rsum F) <= INR (length F) * (/ 2 + / IZR (2 ^ 29)).
Proof. exact error_bound. Qed.
Print Assumptions C31_total_error.

(** The conversion is refused exactly when a weight is too large. *)
Theorem C31_refused : forall ws, normalising_constant ws = Throw <-> exists w, In w ws /\ IZR (2 ^ 24 - 1) < Rabs w.
Proof. exact normalising_throws. Qed.
Print Assumptions C31_refused.

(** It is defined if there is nothing to scale or some weight is at least 2^-999 ... *)
Theorem C31_defined : forall ws, (forall w, In w ws -> w = 0) \/ (exists w, In w ws /\ / IZR (2 ^ 999) <= Rabs w) -> normalising_constant ws <> UB.
Proof. exact normalising_defined. Qed.
Print Assumptions C31_defined.

(** ... but not otherwise: if the only weight is below 2^-1001 then the constant is infinite, and an infinity is cast to int. *)
Theorem C31_minute_refuted : forall w, 0 < Rabs w < / IZR (2 ^ 1001) -> normalising_constant [w] = UB.
Proof. exact normalising_undefined. Qed.
Print Assumptions C31_minute_refuted.

Example C31_minute_ex : exists w, 0 < Rabs w < / IZR (2 ^ 1001).
Proof.
  exists (/ IZR (2 ^ 1002)). rewrite Rabs_pos_eq by (left; apply Rinv_0_lt_compat; apply IZR_lt; reflexivity). split; [apply Rinv_0_lt_compat; apply IZR_lt; reflexivity|].
  apply Rinv_lt_contravar; [apply Rmult_lt_0_compat|]; apply IZR_lt; reflexivity.
Qed.

Example C31_example : normalising_constant [3; -5; IZR 16777215] = Ok 1 /\ discretise 1 (-5) = (-10)%Z.
Proof.
  split; [|change (-5) with (IZR (-5)); unfold discretise; now rewrite Rmult_1_r, fl_IZR, round_IZR by (vm_compute; discriminate)].
  unfold normalising_constant. destruct (Rlt_dec _ _) as [L|L].
  - exfalso. destruct (proj1 (normalising_throws [3; -5; IZR 16777215])) as (w & Hw & H).
    + unfold normalising_constant. destruct (Rlt_dec _ _); [reflexivity|contradiction].
    + change (2 ^ 24 - 1)%Z with 16777215%Z in H. destruct Hw as [<-|[<-|[<-|[]]]]; unfold Rabs in H; destruct (Rcase_abs _); lra.
  - assert (E : forallb is_integral [3; -5; IZR 16777215] = true); [|now rewrite E].
    apply forallb_forall. intros x [<-|[<-|[<-|[]]]]; apply is_integral_spec; eexists; reflexivity.
Qed.
