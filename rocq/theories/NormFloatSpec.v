(** * What normalization layers should compute, and what is assumed *)
From Coq Require Import Reals.
From Coquelicot Require Import Coquelicot.
From Coq Require Import List ZArith Bool.
From Flocq Require Import Core BinarySingleNaN.
From Verif Require Import FloatModel NumModel NumSpec AsmFloatSpec AsmModel AsmCalls AsmSpec.
Import ListNotations.
Open Scope R_scope.

(** every sum by the code adds each element once, in some order and grouping *)
Definition adds_all {d} (sum : nat -> list (val d) -> val d) : Prop := forall k l, sum_of (floats d) (sum k l) l.
(** What is used of math.Pow(x, -0.5), which Go computes as 1 / Sqrt(x): a relative error of at most 2^-50, and +Inf for 0 *)
Record inverse_root (m : libm) : Prop := {
  root_zero : forall s, Pow m (B754_zero s) (lit (-1) (-1)) = B754_infinity false;
  root_value : forall x, is_finite x = true -> 0 < B2R x ->
    is_finite (Pow m x (lit (-1) (-1))) = true /\ Rabs (B2R (Pow m x (lit (-1) (-1))) * sqrt (B2R x) - 1) <= / 2 ^ 50
}.

(** the finite vectors with elements of size at most B *)
Definition sized {d} (B : R) (x : list (val d)) : Prop := Forall (fun v => is_finite v = true /\ Rabs (B2R v) <= B) x.
Definition reals {d} (x : list (val d)) : list R := map B2R x.
(** the sum of the squares, and of the absolute values *)
Definition squares (x : list R) : R := fold_right (fun v s => v ^ 2 + s) 0 x.
Definition abs_sum (x : list R) : R := fold_right (fun v s => Rabs v + s) 0 x.
(** the length of a vector, and its root mean square *)
Definition length_of (x : list R) : R := sqrt (squares x).
Definition rms_of (x : list R) : R := sqrt (squares x / INR (length x)).
Definition guard10 : R := / 10 ^ 10.

(** the largest elements and gradients, for which nothing overflows, and the smallest element with a square that counts *)
Definition in_max (d : dtype) : R := match d with F32 => 2 ^ 50 | F64 => 2 ^ 440 end.
Definition back_max (d : dtype) : R := match d with F32 => 2 ^ 20 | F64 => 2 ^ 440 end.
Definition visible (d : dtype) : R := match d with F32 => / 2 ^ 56 | F64 => / 2 ^ 480 end.
Definition invisible (d : dtype) : R := match d with F32 => / 2 ^ 76 | F64 => / 2 ^ 538 end.
(** the number of elements: at most 2^16 (2^45) *)
Definition few (d : dtype) (n : nat) : Prop := INR n * u d <= / 2 ^ 8.
(** the unit of the errors *)
Definition rho (d : dtype) (n : nat) : R := (INR n + 16) * u d.
Definition norm_tiny (d : dtype) : R := match d with F32 => / 2 ^ 80 | F64 => / 2 ^ 540 end.

(** the gradients gy of the results, times the results x / (size x + 1e-10), and the partial derivative of that by element i *)
Definition replace_at (i : nat) (t : R) (x : list R) : list R := firstn i x ++ t :: skipn (S i) x.
Definition weighted (size : list R -> R) (gy x : list R) : R :=
  fold_right (fun p s => fst p * (snd p / (size x + guard10)) + s) 0 (combine gy x).
Definition slope (size : list R -> R) (gy x : list R) (i : nat) (g : R) : Prop :=
  is_derive (fun t => weighted size gy (replace_at i t x)) (nth i x 0) g.
(** z are gradients within 14 rho times the sum of the |gy|, over the divisor, of the true slopes *)
Definition close_slope {d : dtype} (size : list R -> R) (x gy z : list (val d)) : Prop :=
  length z = length x /\ forall i, (i < length x)%nat -> exists g, slope size (reals gy) (reals x) i g /\ is_finite (nth i z fzero) = true /\
    Rabs (B2R (nth i z fzero) - g) <= 14 * rho d (length x) * (abs_sum (reals gy) / (size (reals x) + guard10)) + norm_tiny d.
(** the elements are finite, and one of them is so large that its square is not a number of the type *)
Definition too_large (d : dtype) : R := match d with F32 => 2 ^ 64 | F64 => 2 ^ 512 end.
Definition overflows {d : dtype} (x : list (val d)) : Prop :=
  Forall (fun v => is_finite v = true) x /\ Exists (fun v => too_large d <= Rabs (B2R v)) x.
