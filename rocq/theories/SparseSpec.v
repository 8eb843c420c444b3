(** * What SparseMax and SparseMaxLoss should compute *)
From Coq Require Import Reals List Arith.
From Verif Require Import DenseModel GradModel GradSpec OpsSpec.
Open Scope R_scope.

(** the probability simplex of n coordinates *)
Definition simplex (n : nat) (q : nat -> R) : Prop := (forall i, (i < n)%nat -> 0 <= q i) /\ Rsum n q = 1.
(** the square of the distance of two points *)
Definition dist2 (n : nat) (p x : nat -> R) : R := Rsum n (fun i => (p i - x i) * (p i - x i)).
(** p is the point of the simplex closest to x *)
Definition projection (n : nat) (x p : nat -> R) : Prop :=
  simplex n p /\ forall q, simplex n q -> dist2 n p x <= dist2 n q x /\ (dist2 n q x = dist2 n p x -> forall i, (i < n)%nat -> q i = p i).
(** the largest value of <q, x> - |q|^2/2 over the simplex *)
Definition payoff (n : nat) (x q : nat -> R) : R := Rsum n (fun i => q i * x i) - Rsum n (fun i => q i * q i) / 2.
Definition best_payoff (n : nat) (x : nat -> R) (v : R) : Prop :=
  (exists p, simplex n p /\ payoff n x p = v) /\ forall q, simplex n q -> payoff n x q <= v.
