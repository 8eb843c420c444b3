(** * What gradient clipping should compute, and how exactly *)
From Coq Require Import ZArith List Reals.
From Flocq Require Import Core BinarySingleNaN.
From Verif Require Import FloatModel NumModel NumSpec AsmFloatSpec.
Import ListNotations.
Local Open Scope R_scope.

(** What the clipper uses of math.Pow: squares are accurate and overflow where they must, Pow(x, 0.5) is the square root, both keep +Inf
    and NaN. *)
Definition two : val F64 := lit 2 0.
Definition one_half : val F64 := lit 1 (-1).
Record go_squares (m : libm) : Prop := {
  sq_value : forall x, finite x -> Rabs (real x) <= 2 ^ 500 ->
    finite (Pow m x two) /\ 0 <= real (Pow m x two) /\ Rabs (real (Pow m x two) - real x * real x) <= real x * real x / 2 ^ 50 + / 2 ^ 1074;
  sq_either : forall x, finite x -> Pow m x two = infinity \/ (finite (Pow m x two) /\ 0 <= real (Pow m x two));
  sq_overflow : forall x, finite x -> 2 ^ 512 <= Rabs (real x) -> Pow m x two = infinity;
  sq_infinity : forall s, Pow m (B754_infinity s) two = infinity;
  sq_nan : Pow m B754_nan two = B754_nan;
  root_value : forall x, finite x -> 0 <= real x ->
    finite (Pow m x one_half) /\ 0 <= real (Pow m x one_half) /\ Rabs (real (Pow m x one_half) - sqrt (real x)) <= sqrt (real x) / 2 ^ 50 + / 2 ^ 1074;
  root_infinity : Pow m infinity one_half = infinity;
  root_nan : Pow m B754_nan one_half = B754_nan
}.

Section Spec.
Context {d : dtype}.
(** the elements of all gradients together, the largest of their absolute values, and their Euclidean norm *)
Definition largest_of (gs : list (list (val d))) : R := fold_right (fun x t => Rmax (Rabs (real x)) t) 0 (concat gs).
Definition squares_of (l : list (val d)) : R := fold_right (fun x t => real x * real x + t) 0 l.
Definition euclid_of (gs : list (list (val d))) : R := sqrt (squares_of (concat gs)).
(** the factor that the documentation names: MaxNorm divided by the norm (and 1e-7), if that is below 1 *)
Definition factor (max_norm n : R) : R := Rmin 1 (max_norm / (n + real (lit 7555786372591432 (-76) : val F64))).
(** x' is x multiplied by k, up to a relative error r and underflow *)
Definition scaled_by (r k : R) (x x' : val d) : Prop :=
  finite x' /\ Rabs (real x' - k * real x) <= r * (k * Rabs (real x)) + 5 * half_tiny d * (Rabs (real x) + 1).
End Spec.
(** absolute values whose squares do, and do not, exceed the range of the type *)
Definition huge (d : dtype) : R := match d with F32 => 2 ^ 65 | F64 => 2 ^ 512 end.
(** the relative error of clipping by the Euclidean norm: n elements in k gradients *)
Definition euclid_error (d : dtype) (n k : nat) : R := (5 * INR (n + k) + 70) * u d.
