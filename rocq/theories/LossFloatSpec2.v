(** * The slopes of the absolute error and of the logarithm *)
From Coq Require Import ZArith List Reals.
From Flocq Require Import Core BinarySingleNaN.
From Verif Require Import FloatModel NumModel NumSpec.
Local Open Scope R_scope.

(** the slope of |r|: the sign, and 0 at 0 *)
Definition sgn (r : R) : R := if Rlt_dec 0 r then 1 else if Rlt_dec r 0 then -1 else 0.
(** the slope of the reduction: 1 for the sum, 1/n for the mean of n elements *)
Definition share (mean : bool) (n : nat) : R := if mean then / INR n else 1.
(** the smallest normal number *)
Definition normal (d : dtype) : R := match d with F32 => / 2 ^ 126 | F64 => / 2 ^ 1022 end.
(** the number whose inverse the gradient of the logarithm at r uses: r, and 1e-8 at 0 *)
Definition log_point (r : R) : R := if Req_EM_T r 0 then real (lit 6044629098073146 (-79) : val F64) else r.
