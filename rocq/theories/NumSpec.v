(** * What is assumed of package math, and what finite means *)
From Coq Require Import List ZArith Bool Reals.
From Flocq Require Import Core BinarySingleNaN.
From Verif Require Import DenseModel FloatModel NumModel.
Import ListNotations.
Open Scope R_scope.

(** a finite value: neither an infinity nor a NaN *)
Definition finite {d} (x : val d) : Prop := is_finite x = true.
(** the real number that a finite value stands for *)
Definition real {d} (x : val d) : R := B2R x.
Definition all_finite {d} (x : dense (val d)) : Prop := Forall finite (data x).
Definition no_nan {d} (x : dense (val d)) : Prop := Forall (fun v => is_nan v = false) (data x).
Definition infinity {d} : val d := B754_infinity false.
Definition minus_infinity {d} : val d := B754_infinity true.

(** What is used of Go's math package: its documented special cases, the range of each function, and for Exp, Log
    and the cube an error of at most 2^-50 relatively (plus the smallest positive float); Go's own bound is below 1 ulp,
    that is 2^-52. *)
Record go_math (m : libm) : Prop := {
  exp_infinity : Exp m infinity = infinity;
  exp_minus_infinity : Exp m minus_infinity = B754_zero false;
  exp_overflow : forall x, finite x -> 710 <= real x -> Exp m x = infinity;
  exp_underflow : forall x, finite x -> real x <= -746 -> Exp m x = B754_zero false;
  exp_finite : forall x, finite x -> real x <= 709 -> finite (Exp m x);
  exp_either : forall x, finite x -> finite (Exp m x) \/ Exp m x = infinity;
  exp_value : forall x, finite x -> finite (Exp m x) -> Rabs (real (Exp m x) - exp (real x)) <= exp (real x) / 2 ^ 50 + / 2 ^ 1074;
  exp_positive : forall x, finite x -> finite (Exp m x) -> 0 <= real (Exp m x);
  exp_below_one : forall x, finite x -> real x <= 0 -> real (Exp m x) <= 1;
  exp_above_one : forall x, finite x -> finite (Exp m x) -> 0 <= real x -> 1 <= real (Exp m x);
  log_infinity : Log m infinity = infinity;
  log_zero : forall s, Log m (B754_zero s) = minus_infinity;
  log_finite : forall x, finite x -> 0 < real x -> finite (Log m x);
  log_value : forall x, finite x -> 0 < real x -> Rabs (real (Log m x) - ln (real x)) <= Rabs (ln (real x)) / 2 ^ 50 + / 2 ^ 1074;
  log_positive : forall x, finite x -> 1 <= real x -> 0 <= real (Log m x);
  tanh_range : forall x, is_nan x = false -> finite (Tanh m x) /\ Rabs (real (Tanh m x)) <= 1;
  cosh_infinity : forall s, Cosh m (B754_infinity s) = infinity;
  cosh_range : forall x, finite x -> Cosh m x = infinity \/ (finite (Cosh m x) /\ 1 <= real (Cosh m x));
  square_zero : forall s, Pow m (B754_zero s) (lit 2 0) = B754_zero false;
  square_range : forall x, finite x -> Rabs (real x) <= 1 -> finite (Pow m x (lit 2 0)) /\ 0 <= real (Pow m x (lit 2 0)) <= 1;
  cube_value : forall x, finite x -> Rabs (real x) <= 2 ^ 300 ->
    finite (Pow m x (lit 3 0)) /\ Rabs (real (Pow m x (lit 3 0)) - real x ^ 3) <= Rabs (real x ^ 3) / 2 ^ 50 + / 2 ^ 1074;
  cube_overflow : forall x, finite x -> 2 ^ 350 <= real x -> Pow m x (lit 3 0) = infinity;
  cube_number : forall x, finite x -> is_nan (Pow m x (lit 3 0)) = false
}.

(** a parameter of a usual size *)
Definition moderate (p : val F64) : Prop := finite p /\ Rabs (real p) <= 2 ^ 100.
(** the parameters with which an activation of a finite value cannot exceed the range of its type *)
Definition usual (a : activation) : Prop :=
  match a with
  | CELU alpha => moderate alpha /\ 0 < real alpha
  | ELU alpha => moderate alpha
  | LeakyReLU alpha => finite alpha /\ Rabs (real alpha) <= 1
  | SELU alpha scale => moderate alpha /\ finite scale /\ Rabs (real scale) <= 1
  | SoftPlus beta threshold => finite beta /\ / 2 ^ 20 <= real beta <= 2 ^ 20 /\ finite threshold /\ real beta * real threshold <= 709
  | SoftShrink lambda => finite lambda /\ 0 <= real lambda
  | Threshold t k => finite t /\ moderate k
  | SwishB beta => finite beta
  | _ => True
  end.

(** where the derivatives of Swish, SwishB, Mish and GELU are computed without overflow *)
Definition near (d : dtype) (a : activation) (x : val d) : Prop :=
  match a with
  | Swish => Rabs (real x) <= 345
  | SwishB beta => finite (fmul (conv d F64 x) beta) /\ Rabs (real (fmul (conv d F64 x) beta)) <= 345
  | Mish => Rabs (real x) <= match d with F32 => 20 | F64 => 170 end
  | GELU => Rabs (real x) <= match d with F32 => 2 ^ 40 | F64 => 2 ^ 300 end
  | _ => True
  end.
