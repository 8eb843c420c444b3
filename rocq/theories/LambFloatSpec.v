(** * What LAMB should do in floating point *)
From Coq Require Import Reals List Arith ZArith Bool.
From Flocq Require Import Core BinarySingleNaN.
From Verif Require Import DenseModel DenseSpec ArithSpec FloatModel FloatSpec NumModel NumSpec AsmFloatSpec OptFloatModel OptFloatSpec NormFloatSpec.
Import ListNotations.
Local Open Scope R_scope.

(** the length (Euclidean norm) of a matrix *)
Definition mat_length {d} (x : dense (val d)) : R := length_of (reals (data x)).
(** some element is not so small that its square vanishes *)
Definition seen {d} (r c : nat) (x : dense (val d)) : Prop := exists i j, (i < r)%nat /\ (j < c)%nat /\ visible d <= Rabs (at_ d x i j).
(** the weights considered: at most 2^30 (2^400) *)
Definition lamb_max (d : dtype) : R := match d with F32 => 2 ^ 30 | F64 => 2 ^ 400 end.
(** No element moved by more than s, but for the rounding of the new value *)
Definition moved_by (d : dtype) (s : R) (r c : nat) (x x' : dense (val d)) : Prop :=
  forall i j, (i < r)%nat -> (j < c)%nat -> finite (get fzero x' i j) /\ Rabs (at_ d x' i j - at_ d x i j) <= s + u d * Rabs (at_ d x i j) + / 2 ^ 100.
(** q is the direction of Adam, of size at most K, plus lambda x *)
Definition decayed_direction (d : dtype) (K lambda : R) (r c : nat) (x q : dense (val d)) : Prop :=
  forall i j, (i < r)%nat -> (j < c)%nat -> finite (get fzero q i j) /\ Rabs (at_ d q i j - lambda * at_ d x i j) <= 1.01 * K + 4 * u d * (lambda * Rabs (at_ d x i j)).
(** x' is x minus a step of length s along q, each element up to e times its step, and the rounding of the new value *)
Definition stepped (d : dtype) (s e : R) (r c : nat) (x q x' : dense (val d)) : Prop :=
  forall i j, (i < r)%nat -> (j < c)%nat -> let t := s * (at_ d q i j / mat_length q) in
    Rabs (at_ d x' i j - (at_ d x i j - t)) <= e * Rabs t + u d * Rabs (at_ d x i j) + / 2 ^ 100.
(** x' is x minus a times q, the step of Adam, up to six units of rounding of the step and the rounding of the new value *)
Definition adam_stepped (d : dtype) (a : R) (r c : nat) (x q x' : dense (val d)) : Prop :=
  forall i j, (i < r)%nat -> (j < c)%nat -> let t := a * at_ d q i j in
    finite (get fzero x' i j) /\ Rabs (at_ d x' i j - (at_ d x i j - t)) <= 6 * u d * Rabs t + u d * Rabs (at_ d x i j) + / 2 ^ 100.
(** the moving average of the numbers y 0, ..., y (n-1), as the floating-point operations give it *)
Fixpoint moving {d} (b c : val d) (y : nat -> val d) (n : nat) : val d :=
  match n with O => fzero | S n => fadd (fmul (moving b c y n) b) (fmul (y n) c) end.
(** q is the direction of update n: for each element, the average of the gradients so far over the root of the average of their
    squares plus eps, and lambda x if lambda is not 0, all as the floating-point operations give it *)
Definition direction (d : dtype) (b1 b2 eps lambda : val F64) (r c : nat) (g : nat -> dense (val d)) (n : nat) (x q : dense (val d)) : Prop :=
  wf q /\ rows q = r /\ cols q = c /\ forall i j, (i < r)%nat -> (j < c)%nat ->
    let at_type := conv F64 d in let gij k := get fzero (g k) i j in
    let v := moving (at_type b1) (at_type (fsub fone b1)) gij (S n) in
    let m := moving (at_type b2) (at_type (fsub fone b2)) (fun k => fmul (gij k) (gij k)) (S n) in
    let a := fdiv v (fadd (elem_sqrt d m) (at_type eps)) in
    get fzero q i j = (if is0 lambda then a else fadd a (fmul (get fzero x i j) (at_type lambda))).
