(** * What the losses should compute, and how exactly *)
From Coq Require Import ZArith List Reals.
From Flocq Require Import Core BinarySingleNaN.
From Verif Require Import AsmModel FloatModel NumModel NumSpec AsmCalls AsmFloatSpec AsmSpec SoftSpec.
Import ListNotations.
Local Open Scope R_scope.

(** the cross entropy of the scores l and the class c: minus the logarithm of the softmax probability *)
Definition cross_entropy_of {d} (l : list (val d)) (c : nat) : R := - ln (softmax_of l (nth c l fzero)).
(** its slope in direction of the element i: the probability, minus 1 for the class *)
Definition cross_entropy_slope {d} (l : list (val d)) (c i : nat) : R := softmax_of l (nth i l fzero) - (if (i =? c)%nat then 1 else 0).
(** a size that is far from overflow *)
Definition safe (d : dtype) : R := match d with F32 => 2 ^ 120 | F64 => 2 ^ 1000 end.
(** What the losses use of math.Pow: the documented special cases Pow(1, y) = 1 and Pow(+0, y) = +Inf for y < 0, and the range of the
    powers of numbers between 0 and 1. *)
Record go_power (m : libm) : Prop := {
  power_range : forall x y, finite x -> 0 <= real x <= 1 -> finite y -> 0 <= real y -> finite (Pow m x y) /\ 0 <= real (Pow m x y) <= 1;
  power_one : forall y, finite y -> Pow m fone y = fone;
  power_zero : forall y, finite y -> real y < 0 -> Pow m (B754_zero false) y = infinity
}.
(** the power of a number between 0 and 1 *)
Definition power_of (x y : R) : R := if Rle_dec x 0 then 0 else Rpower x y.
(** How accurate math.Pow is: its loop squares its argument once for every binary digit of y, doubling the relative error, so that the
    error of a power of a number between 0 and 1 grows with y. *)
Definition power_accurate (m : libm) : Prop := forall x y, finite x -> 0 <= real x <= 1 -> finite y -> 1 <= real y <= 2 ^ 20 ->
  Rabs (real (Pow m x y) - power_of (real x) (real y)) <= real y / 2 ^ 50.
(** the focal loss with the parameter y, and its slope, as functions of the cross entropy *)
Definition focal_of (y l : R) : R := power_of (1 - exp (- l)) y * l.
Definition focal_slope (y l : R) : R := power_of (1 - exp (- l)) y + y * power_of (1 - exp (- l)) (y - 1) * exp (- l) * l.
(** the loss as a function of real scores, and the scores with t in place of the element i *)
Definition score_loss (l : list R) (c : nat) : R := - ln (exp (nth c l 0) / fold_right Rplus 0 (map exp l)).
Fixpoint put (i : nat) (t : R) (l : list R) : list R :=
  match l, i with
  | [], _ => []
  | _ :: l', O => t :: l'
  | v :: l', S i' => v :: put i' t l'
  end.
(** the sums of the absolute errors, of half the squared errors, and of the products *)
Fixpoint sum_pairs {d} (f : R -> R -> R) (x y : list (val d)) : R :=
  match x, y with
  | a :: x', b :: y' => f (real a) (real b) + sum_pairs f x' y'
  | _, _ => 0
  end.
Definition absolute_errors {d} (x y : list (val d)) : R := sum_pairs (fun a b => Rabs (a - b)) x y.
Definition squared_errors {d} (x y : list (val d)) : R := sum_pairs (fun a b => (a - b) * (a - b) / 2) x y.
