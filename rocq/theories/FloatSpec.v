(** * What the conversions and comparisons of floats mean *)
From Coq Require Import List ZArith Bool Reals.
From Flocq Require Import Core BinarySingleNaN.
From Verif Require Import FloatModel.
Import ListNotations.
Open Scope R_scope.

(** the number nearest to x in type d, ties to even, without a bound on the exponent *)
Definition nearest (d : dtype) (x : R) : R :=
  round radix2 (FLT_exp (match d with F32 => -149 | F64 => -1074 end) (match d with F32 => 24 | F64 => 53 end)) ZnearestE x.
(** one more than every finite value of type d *)
Definition limit (d : dtype) : R := match d with F32 => powerRZ 2 128 | F64 => powerRZ 2 1024 end.

(** y is the conversion of x: a NaN stays one, infinities and signs are kept, and a finite value goes to the
    nearest one, or to the infinity of its sign when that is too large. *)
Definition converted {S D} (x : val S) (y : val D) : Prop :=
  match x with
  | B754_nan => y = B754_nan
  | B754_infinity s => y = B754_infinity s
  | B754_zero s => y = B754_zero s
  | _ => if Rlt_dec (Rabs (nearest D (B2R x))) (limit D)
         then is_finite y = true /\ B2R y = nearest D (B2R x) /\ Bsign y = Bsign x
         else y = B754_infinity (Bsign x)
  end.

(** x and y are the same number *)
Definition same_number {d} (x y : val d) : Prop :=
  match x, y with
  | B754_nan, _ | _, B754_nan => False
  | B754_infinity s, B754_infinity t => s = t
  | B754_infinity _, _ | _, B754_infinity _ => False
  | _, _ => B2R x = B2R y
  end.
