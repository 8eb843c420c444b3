(** * How far rounded sums may be from the exact ones *)
From Coq Require Import List Reals.
From Flocq Require Import Core BinarySingleNaN.
From Verif Require Import FloatModel NumSpec.
Import ListNotations.
Open Scope R_scope.

(** the relative error of one rounding: 2^-24 or 2^-53 *)
Definition u (d : dtype) : R := / 2 ^ (match d with F32 => 24 | F64 => 53 end).
(** half of the smallest positive value: 2^-150 or 2^-1075 *)
Definition half_tiny (d : dtype) : R := / 2 ^ (match d with F32 => 150 | F64 => 1075 end).
(** the exact sum of the elements, and of their absolute values *)
Definition total {d} (l : list (val d)) : R := fold_right (fun x s => real x + s) 0 l.
Definition total_abs {d} (l : list (val d)) : R := fold_right (fun x s => Rabs (real x) + s) 0 l.
(** the exact sum of the products, and of their absolute values *)
Definition product {d} (l : list (val d * val d)) : R := fold_right (fun p s => real (fst p) * real (snd p) + s) 0 l.
Definition product_abs {d} (l : list (val d * val d)) : R := fold_right (fun p s => Rabs (real (fst p) * real (snd p)) + s) 0 l.
(** the error of n roundings, relatively *)
Definition gamma (d : dtype) (n : nat) : R := (1 + u d) ^ n - 1.
(** the largest finite value *)
Definition largest (d : dtype) : R := match d with F32 => (2 ^ 24 - 1) * 2 ^ 104 | F64 => (2 ^ 53 - 1) * 2 ^ 971 end.
