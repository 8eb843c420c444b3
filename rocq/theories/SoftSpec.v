(** * What Softmax and Sigmoid should compute *)
From Coq Require Import ZArith List Reals.
From Flocq Require Import Core BinarySingleNaN.
From Verif Require Import AsmModel FloatModel NumModel NumSpec AsmFloatSpec AsmSpec SoftModel.
Import ListNotations.
Local Open Scope R_scope.

(** the cells from address a on hold the values of l *)
Definition held {d} (m : Z -> option (lane (lanes_at d))) (a : Z) (l : list (val d)) : Prop :=
  forall i v, nth_error l i = Some v -> exists w, m (a + GemCalls.esize_of d * Z.of_nat i)%Z = Some w /\ dec w = v.
(** n cells from address y on exist, at a multiple of the element size, and none of them is one of the n cells from x on *)
Definition room (d : dtype) (m : Z -> option (lane (lanes_at d))) (x y : Z) (n : nat) : Prop :=
  (y mod GemCalls.esize_of d = 0)%Z /\ (forall j, (j < n)%nat -> m (y + GemCalls.esize_of d * Z.of_nat j)%Z <> None) /\
  (forall i j, (i < n)%nat -> (j < n)%nat -> x + GemCalls.esize_of d * Z.of_nat i <> y + GemCalls.esize_of d * Z.of_nat j)%Z.
(** the memory m' differs from m at most in the n cells from y on *)
Definition only (d : dtype) (m m' : Z -> option (lane (lanes_at d))) (y : Z) (n : nat) : Prop :=
  forall p, ~ within (GemCalls.esize_of d) y n p -> m' p = m p.
(** the sum of e^x over the vector, and the softmax of one element *)
Definition exp_total {d} (l : list (val d)) : R := fold_right (fun x s => exp (real x) + s) 0 l.
Definition softmax_of {d} (l : list (val d)) (x : val d) : R := exp (real x) / exp_total l.
Definition sigmoid_of {d} (x : val d) : R := / (1 + exp (- real x)).
(** How exact a softmax of n elements is: relatively 2^-15 (2^-40) and two roundings per element, and 2^-124 (2^-1020) more *)
Definition soft_rel (d : dtype) (n : nat) : R := match d with F32 => / 2 ^ 15 | F64 => / 2 ^ 40 end + 2 * (INR n * u d).
Definition soft_abs (d : dtype) : R := match d with F32 => / 2 ^ 124 | F64 => / 2 ^ 1020 end.
(** of a sigmoid *)
Definition sigm_rel (d : dtype) : R := match d with F32 => / 2 ^ 20 | F64 => / 2 ^ 48 end.
Definition sigm_abs (d : dtype) : R := match d with F32 => / 2 ^ 125 | F64 => / 2 ^ 1020 end.
(** What Softmax leaves at y: numbers between 0 and 1, not all of them 0; they are as exact as said above if there are at most
    2^21 (2^50) elements. *)
Definition soft_post {d} (l : list (val d)) (m : Z -> option (lane (lanes_at d))) (y : Z) (m' : Z -> option (lane (lanes_at d))) : Prop :=
  exists out, length out = length l /\ held m' y out /\ only d m m' y (length l) /\
    Forall (fun p => finite p /\ 0 <= real p <= 1) out /\ Exists (fun p => 0 < real p) out /\
    (INR (length l) * u d <= / 8 -> Forall2 (fun x p => Rabs (real p - softmax_of l x) <= soft_rel d (length l) * softmax_of l x + soft_abs d) l out).
Definition sigm_post {d} (l : list (val d)) (m : Z -> option (lane (lanes_at d))) (y : Z) (m' : Z -> option (lane (lanes_at d))) : Prop :=
  exists out, length out = length l /\ held m' y out /\ only d m m' y (length l) /\
    Forall2 (fun x p => finite p /\ 0 <= real p <= 1 /\ Rabs (real p - sigmoid_of x) <= sigm_rel d * sigmoid_of x + sigm_abs d) l out.
