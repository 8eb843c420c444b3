(** * What Exp32 and Log32 should compute *)
From Coq Require Import ZArith List Reals.
From Flocq Require Import Core BinarySingleNaN.
From Verif Require Import FloatModel NumSpec.
Import ListNotations.
Local Open Scope R_scope.

(** the bits of a float32 *)
Definition word (w : Z) : Prop := (0 <= w < 2 ^ 32)%Z.
(** the slices of n float32 at x and y have no element in common *)
Definition apart_slices (x y : Z) (n : nat) : Prop := forall i j, (i < n)%nat -> (j < n)%nat -> (x + 4 * Z.of_nat i <> y + 4 * Z.of_nat j)%Z.
(** how many of n elements are in whole vectors of w *)
Definition whole (w n : nat) : nat := (n - n mod w)%nat.
(** y is e^x up to 2^-21 of it, or, where e^x is near or below the least normal number 2^-126, up to that number more *)
Definition near_exp (x y : val F32) : Prop :=
  finite y /\ Rabs (real y - exp (real x)) <= / 2 ^ 21 * exp (real x) + / 2 ^ 126 /\
  (-87.33 <= real x -> Rabs (real y - exp (real x)) <= / 2 ^ 21 * exp (real x)).
(** y is the logarithm of x, up to 2^-20 of it *)
Definition near_log (x y : val F32) : Prop := finite y /\ Rabs (real y - ln (real x)) <= / 2 ^ 20 * Rabs (ln (real x)).
