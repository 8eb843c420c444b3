(** * Element-wise specification of matrix arithmetic *)
From Coq Require Import List Arith.
From Verif Require Import DenseModel DenseSpec.
Import ListNotations.

(** f 0 + (f 1 + ... (f (n-1) + 0)) *)
Fixpoint sum_to {T} (zero : T) (add : T -> T -> T) (n : nat) (f : nat -> T) : T :=
  match n with O => zero | S n => add (f 0) (sum_to zero add n (fun k => f (S k))) end.

(** The element (i, j), [zero] outside the matrix. *)
Definition get {T} (zero : T) (m : dense T) (i j : nat) : T :=
  match elem m i j with Some v => v | None => zero end.

(** [m] has the elements [f i j]. *)
Definition has_elems {T} (m : dense T) (r c : nat) (f : nat -> nat -> T) : Prop :=
  is_matrix m r c (fun i j => Some (f i j)).
