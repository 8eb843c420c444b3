(** * What multi-head attention computes *)
From Coq Require Import Reals List Arith.
From Verif Require Import DenseModel DenseSpec GradModel AttSpec.
Import ListNotations.

(** the concatenation of the n outputs [out 0 i], ..., [out (n-1) i] at position i *)
Definition joined (n : nat) (out : nat -> nat -> mat) (i : nat) : mat := column (concat (map (fun j => data (out j i)) (seq 0 n))).
(** the i-th output of the j-th head, from the heads' results *)
Definition nth_out (rs : list (list mat * list mat * (mat * mat))) (j i : nat) : mat := kth (nth j (map (fun r => fst (fst r)) rs) []) i.
