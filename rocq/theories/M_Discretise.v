(** Model of the discretisation of weights: driver/user_graph.cc:422-467 (get_edge_weight_normalising_constant) and
    driver/user_graph.h:138-161 (iter_discretized_edges).

    A double is the real number it stands for; the quotient and the products are rounded to doubles (M_Double.v).
    Simplifications: [ws] lists the weights of all edges and of all their implied weights; the checks that implied weights
    refer to existing edges and keep their sign are not part of it. *)
From Coq Require Import Reals ZArith List Bool.
From Verif Require Import M_Base M_Double.
Import ListNotations.
Local Open Scope R_scope.

(** user_graph.h:33,57 *)
Definition num_distinct_weights : Z := 16777216.
Definition max_user_edge_weight : Z := num_distinct_weights - 1.

(** C round(): to the nearest integer, halves away from zero *)
Definition round (x : R) : Z := if Rle_dec 0 x then Int_part (x + / 2) else (- Int_part (- x + / 2))%Z.
Definition is_integral (x : R) : bool := if Req_EM_T (IZR (round x)) x then true else false.
Definition max_abs (ws : list R) : R := fold_left (fun m w => if Rlt_dec m (Rabs w) then Rabs w else m) ws 0.
(** The number returned, which is doubled by the caller (user_graph.h:160; doubling is exact).  If the double is infinite there
    is undefined behaviour: products with it are infinite or NaN and are cast to int.  Simplified: this counts as undefined
    behaviour also if only the doubled number is infinite. *)
Definition normalising_constant (ws : list R) : outcome R :=
  let m := max_abs ws in
  if Rlt_dec (IZR max_user_edge_weight) m then Throw
  else if forallb is_integral ws then Ok 1
  else let c := fl (IZR (num_distinct_weights - 1) / m) in if Rle_dec (IZR (2 ^ 1024)) (2 * c) then UB else Ok c.
(** user_graph.h:146-149; the cast to signed_weight_int is exact in the range proved below *)
Definition discretise (c w : R) : Z := (2 * round (fl (w * c)))%Z.
