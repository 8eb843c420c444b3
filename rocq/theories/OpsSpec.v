(** * Vocabulary for the composite operators *)
From Coq Require Import Reals List Arith.
From Verif Require Import DenseModel DenseSpec ArithSpec GradModel GradSpec.
Import ListNotations.
Open Scope R_scope.

(** The k-th entry in row-major order, the number of entries, and sums over the entries. *)
Definition entry (x : mat) (k : nat) : R := nth k (data x) 0.
Definition size (x : mat) : nat := length (data x).
Definition total (f : R -> R) (x : mat) : R := Rsum (size x) (fun k => f (entry x k)).
Definition total2 (f : R -> R -> R) (x y : mat) : R := Rsum (size x) (fun k => f (entry x k) (entry y k)).
Definition mean (x : mat) : R := total (fun v => v) x / INR (size x).
Definition variance (x : mat) : R := total (fun v => (v - mean x) ^ 2) x / INR (size x).
(** the matrix with x's shape and entries f 0, f 1, ... *)
Definition entries (y x : mat) (f : nat -> R) : Prop :=
  wf y /\ same_shape y x /\ forall k, (k < size x)%nat -> entry y k = f k.
(** the probability softmax gives to position k *)
Definition prob (x : mat) (k : nat) : R := exp (entry x k) / total exp x.
(** a non-empty row or column vector *)
Definition vector (x : mat) : Prop := wf x /\ (rows x = 1%nat \/ cols x = 1%nat) /\ (0 < size x)%nat.

(** the Euclidean norm and the root mean square of the entries *)
Definition norm2 (x : mat) : R := sqrt (total (fun v => v ^ 2) x).
Definition rms (x : mat) : R := sqrt (total (fun v => v ^ 2) x / INR (size x)).
(** a batch's mean and deviation at position k, as batch normalization takes them *)
Definition batch_sum (xs : list mat) (k : nat) : R := fold_right (fun x s => entry x k + s) 0 xs.
Definition batch_mean (xs : list mat) (k : nat) : R := batch_sum xs k / (INR (length xs) + 1e-5).
Definition batch_dev (xs : list mat) (k : nat) : R :=
  sqrt (fold_right (fun x s => (batch_mean xs k - entry x k) ^ 2 + s) 0 xs / (INR (length xs) + 1e-5)).
(** the exponential average of a0 and then v_0, v_1, ...: the last value weighs 1 - mom,
    each earlier one mom times less than the next *)
Definition exponential_average (mom a0 : R) (vs : list R) : R :=
  mom ^ length vs * a0 + Rsum (length vs) (fun i => (1 - mom) * mom ^ (length vs - 1 - i) * nth i vs 0).
