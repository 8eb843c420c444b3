(** * What convolution computes *)
From Coq Require Import Reals List Arith ZArith.
From Verif Require Import DenseModel DenseSpec GradModel GradSpec OpsSpec AttSpec.
Import ListNotations.
Open Scope nat_scope.

(** the sum of the products of w's elements with those of x from (r, c) on *)
Definition at_window (w x : mat) (r c : nat) : R :=
  Rsum (rows w) (fun a => Rsum (cols w) (fun b => (rget x (r + a) (c + b) * rget w a b)%R)).
(** [big] is [small] plus a number of whole steps *)
Definition steps_to (small big : nat) (stride : Z) : Prop :=
  stride <> 0%Z /\ (big = small \/ (0 < stride)%Z /\ exists n : nat, Z.of_nat big = (Z.of_nat small + Z.of_nat n * stride)%Z).
(** the sum over the input channels the mask lets through *)
Definition passes (mask : option (list Z)) (i : nat) : bool := match mask with None => true | Some l => (nth i l 0 =? 1)%Z end.
Definition over_channels (mask : option (list Z)) (n : nat) (f : nat -> R) : R := Rsum n (fun i => if passes mask i then f i else 0%R).
(** what the mask must be: absent, or one number per input *)
Definition mask_fits (mask : option (list Z)) (n : nat) : Prop := match mask with None => True | Some l => length l = n end.
