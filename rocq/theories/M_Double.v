(** Arithmetic of [double]: every operation is that on real numbers, followed by rounding to a binary64 number (53 bits, least exponent
    -1074), ties to even.  Flocq's [round] has no largest exponent: a result of 2^1024 or more stands for an infinity, and the model says
    so where one can arise. *)
From Coq Require Import Reals ZArith.
From Flocq Require Core.

Definition fl (x : R) : R := Core.Generic_fmt.round Core.Zaux.radix2 (Core.FLT.FLT_exp (-1074) 53) Core.Round_NE.ZnearestE x.
