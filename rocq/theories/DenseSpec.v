(** * What a matrix is, independently of its layout *)
From Coq Require Import List Arith Bool.
From Verif Require Import DenseModel.
Import ListNotations.

(** The data fills the shape. *)
Definition wf {T} (m : dense T) : Prop := length (data m) = rows m * cols m.

(** The element at row [i], column [j]; [None] outside the matrix. *)
Definition elem {T} (m : dense T) (i j : nat) : option T :=
  if (i <? rows m) && (j <? cols m) then nth_error (data m) (i * cols m + j) else None.

(** [m] is the r×c matrix of elements [f]. *)
Definition is_matrix {T} (m : dense T) (r c : nat) (f : nat -> nat -> option T) : Prop :=
  rows m = r /\ cols m = c /\ wf m /\ forall i j, i < r -> j < c -> elem m i j = f i j.

(** The column vector of the elements of [l]. *)
Definition column {T} (l : list T) : dense T := mkDense (length l) 1 l.
