(** * What optimizers should do in floating point *)
From Coq Require Import Reals List Arith ZArith Bool.
From Flocq Require Import Core BinarySingleNaN.
From Verif Require Import DenseModel DenseSpec ArithSpec FloatModel FloatSpec NumModel NumSpec AsmFloatSpec OptFloatModel.
Import ListNotations.
Local Open Scope R_scope.

Section Spec.
Variable d : dtype.
Notation mat := (dense (val d)).
(** A training history: before update k the parameter is given the gradient g k; update k is made by [opt k]. *)
Definition with_grad (p : param d) (g : mat) : param d := mkParam d (p_value d p) (Some g) (p_state d p).
Fixpoint run (opt : nat -> param d -> outcome (param d)) (g : nat -> mat) (n : nat) (p : param d) : outcome (param d) :=
  match n with
  | O => OK p
  | S n => match run opt g n p with OK p' => opt n (with_grad p' (g n)) | e => e end
  end.
(** a new parameter, nn.NewParam *)
Definition new_param (x : mat) : param d := mkParam d x None None.
(** Successive values of the parameter: after n and after n+1 updates. *)
Definition successive (opt : nat -> param d -> outcome (param d)) (g : nat -> mat) (x0 : mat) (n : nat) (x x' : mat) : Prop :=
  exists p p', run opt g n (new_param x0) = OK p /\ run opt g (S n) (new_param x0) = OK p' /\ p_value d p = x /\ p_value d p' = x'.

(** a matrix of r rows and c columns, all of whose elements are finite and at most B in size *)
Definition within (B : R) (r c : nat) (m : mat) : Prop :=
  wf m /\ rows m = r /\ cols m = c /\ forall i j, (i < r)%nat -> (j < c)%nat -> finite (get fzero m i j) /\ Rabs (real (get fzero m i j)) <= B.
(** element (i, j) as a real number *)
Definition at_ (m : mat) (i j : nat) : R := real (get fzero m i j).
(** One update moved no element by more than s, but for the rounding of the new value and the smallest numbers of the type. *)
Definition moved_at_most (s : R) (r c : nat) (x x' : mat) : Prop :=
  forall i j, (i < r)%nat -> (j < c)%nat -> Rabs (at_ x' i j - at_ x i j) <= s * (1 + / 2 ^ 16) + u d * Rabs (at_ x i j) + / 2 ^ 100.
(** The same when the weights also decay: each element may be moved by t times itself in addition. *)
Definition moved_decayed (s t : R) (r c : nat) (x x' : mat) : Prop :=
  forall i j, (i < r)%nat -> (j < c)%nat -> Rabs (at_ x' i j - at_ x i j) <= (s + t * Rabs (at_ x i j)) * (1 + / 2 ^ 16) + 2 * u d * Rabs (at_ x i j) + / 2 ^ 100.
(** No element changed. *)
Definition unmoved (r c : nat) (x x' : mat) : Prop := forall i j, (i < r)%nat -> (j < c)%nat -> same_number (get fzero x i j) (get fzero x' i j).
End Spec.

(** Gradients whose square is in the range of the type: at most 2^62 (about 4.6e18) for float32, at most 2^510 for float64 *)
Definition grad_max (d : dtype) : R := match d with F32 => 2 ^ 62 | F64 => 2 ^ 510 end.
(** the largest size of a weight considered *)
Definition weight_max (d : dtype) : R := match d with F32 => 2 ^ 124 | F64 => 2 ^ 1020 end.
(** B is so large that steps of size s are absorbed by the rounding of weights of size B *)
Definition room (d : dtype) (s B : R) : Prop := 1 <= B <= weight_max d /\ 4 * s <= u d * B.
(** a rate: between 0 and A *)
Definition rate (A : R) (a : val F64) : Prop := finite a /\ 0 <= real a <= A.
(** a small constant that is added to a divisor *)
Definition guard (e : val F64) : Prop := finite e /\ / 2 ^ 34 <= real e <= 1.
(** Settings of Adam and RAdam for which the average of the gradient is at most K times the root of that of its square.  In exact
    arithmetic K may be (1 - b1) / sqrt ((1 - b2) (1 - b1^2 / b2)), see C33_adam_step; here a little is left for the errors. *)
Definition averages (K : R) (b1 b2 : val F64) : Prop :=
  1 <= K <= 2 ^ 12 /\ finite b1 /\ 0 <= real b1 <= 1 - / 2 ^ 10 /\ finite b2 /\ / 2 <= real b2 <= 1 - / 2 ^ 14 /\
  real b1 ^ 2 / real b2 + (1 - real b1) ^ 2 / ((1 - real b2) * K ^ 2) <= 1 - / 2 ^ 16.
(** A decay factor of RMSProp for which a gradient is at most K times the root of the average of its squares; in exact arithmetic K
    may be 1 / sqrt (1 - b), see C33_rmsprop_step *)
Definition square_average (K : R) (b : val F64) : Prop :=
  1 <= K <= 2 ^ 12 /\ finite b /\ / 2 <= real b <= 1 - / 2 ^ 14 /\ 1 <= (1 - / 2 ^ 16) * (K ^ 2 * (1 - real b)).
(** gradients for AdaGrad, which adds all squares *)
Definition adagrad_max (d : dtype) : R := match d with F32 => 2 ^ 48 | F64 => 2 ^ 480 end.
(** the smallest number whose square is out of the range of the type: 2^64 (about 1.8e19) for float32 *)
Definition too_large (d : dtype) : R := match d with F32 => 2 ^ 64 | F64 => 2 ^ 512 end.
(** element (i, j) has the same value in x and x', a zero perhaps with another sign *)
Definition kept (d : dtype) (x x' : dense (val d)) (i j : nat) : Prop :=
  get fzero x' i j = get fzero x i j \/ same_number (get fzero x i j) (get fzero x' i j).
(** The history of the gradient of element (i, j): at update k it is finite but its square is out of range; at all others it is at
    most B in size.  The gradients have the shape of the parameter; nothing is said of the other elements. *)
Definition spike (d : dtype) (B : R) (r c : nat) (g : nat -> dense (val d)) (k i j : nat) : Prop :=
  (i < r)%nat /\ (j < c)%nat /\ (forall n, wf (g n) /\ rows (g n) = r /\ cols (g n) = c /\ finite (get fzero (g n) i j)) /\
  too_large d <= at_ d (g k) i j <= 2 * too_large d /\ (forall n, n <> k -> Rabs (at_ d (g n) i j) <= B).
(** the momentum of SGD *)
Definition momentum (m : val F64) : Prop := finite m /\ 0 <= real m <= 1 - / 2 ^ 10.
(** What is assumed of math.Pow for the powers of a setting b below 1: they lie between 0 and b, up to a small error. *)
Definition powers (m : libm) (b : val F64) : Prop :=
  forall ts, (1 <= ts)%nat -> finite (Pow m b (of_step ts)) /\ 0 <= real (Pow m b (of_step ts)) <= real b + / 2 ^ 40.
