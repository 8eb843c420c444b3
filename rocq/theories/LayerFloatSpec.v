(** * What LayerNorm and LayerNormSimple should compute, and how exactly *)
From Coq Require Import Reals List ZArith.
From Flocq Require Import Core BinarySingleNaN.
From Verif Require Import FloatModel NumModel NumSpec AsmFloatSpec NormFloatSpec.
Import ListNotations.
Local Open Scope R_scope.

(** the mean of a vector, and its deviations from the mean *)
Definition mean_of (x : list R) : R := fold_right Rplus 0 x / INR (length x).
Definition centered (x : list R) : list R := map (fun v => v - mean_of x) x.
(** the divisor of LayerNorm: the root of the variance plus e (e = 0: the standard deviation) *)
Definition spread (e : R) (x : list R) : R := sqrt (squares x / INR (length x) + e).
(** the error of the deviations of n elements of size at most B, and what division by a number D makes of it *)
Definition center_error (d : dtype) (n : nat) (B : R) : R := 1.01 * (rho d n * B + half_tiny d).
Definition layer_error (d : dtype) (n : nat) (B D q : R) : R :=
  1.6 * rho d n * Rabs q + 1.01 * ((1 + sqrt (INR n)) * (center_error d n B / D)) + half_tiny d.
Definition layer_norm_error (d : dtype) (n : nat) (B D q w b : R) : R :=
  1.8 * rho d n * Rabs (w * q) + 1.01 * (Rabs w * ((1 + sqrt (INR n)) * (center_error d n B / D))) + u d * Rabs b + 1.2 * ((Rabs w + 1) * half_tiny d).
(** AdaNorm: s q (1 - q / 10) for each result q of LayerNormSimple *)
Definition ada_of (s q : R) : R := s * (q * (1 - q / 10)).
Definition ada_error (d : dtype) (n : nat) (B D q s : R) : R :=
  Rabs s * ((1 + sqrt (INR n) / 4) * layer_error d n B D q) + 5 * u d * (Rabs s * INR n) + 2 * (1 + sqrt (INR n)) * half_tiny d.
