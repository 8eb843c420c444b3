(** * What a normally distributed number should be *)
From Coq Require Import List ZArith Reals Bool.
From Verif Require Import RandModel FloatModel NumModel NumSpec GaussModel.
Import ListNotations.
Open Scope R_scope.

(** the bell curve, without its constant factor *)
Definition bell (x : R) : R := exp (- (x * x / 2)).

(** ** The strips of the tables

    Strip i reaches from -edge i to edge i, and from level i up to level (i - 1); what lies within inner i is accepted without
    a test.  Strip 0 is the one at the bottom, with the tail beyond. *)
Definition edge (i : nat) : R := 2 ^ 31 * real (nth i wn fzero).
Definition level (i : nat) : R := real (nth i fn fzero).
Definition inner (i : nat) : R := IZR (nth i kn 0%Z) * real (nth i wn fzero).

(** with which probability one attempt in strip i at the place x returns x at once or after the test, by the tables and
    exact arithmetic; the tail of strip 0 is not counted *)
Definition clamp (t : R) : R := Rmax 0 (Rmin 1 t).
Definition share (i : nat) (x : R) : R :=
  if Rlt_dec (Rabs x) (inner i) then 1
  else if Nat.eqb i 0 then 0
  else if Rle_dec (edge i) (Rabs x) then 0
  else clamp ((bell x - level i) / (level (i - 1) - level i)).
(** 256 times the density at x of what one attempt returns: strip i is chosen with probability 1 / 128, and the place is
    uniform between -edge i and edge i *)
Fixpoint density_upto (n : nat) (x : R) : R :=
  match n with O => 0 | S n => density_upto n x + share n x / edge n end.
Definition attempt_density (x : R) : R := density_upto 128 x.

(** ** The words of the source *)
(** the signed number in the upper half of a word, and the strip it selects *)
Definition place_of (w : Z) : Z := let h := (w / 2 ^ 32)%Z in if (h <? 2 ^ 31)%Z then h else (h - 2 ^ 32)%Z.
Definition strip_of (w : Z) : nat := Z.to_nat (place_of w mod 128).
(** accepted without a test *)
Definition fast (w : Z) : Prop := (Z.abs (place_of w) < nth (strip_of w) kn 0)%Z.
(** the number in [0,1) that Float64 makes of a word *)
Definition unit (w : Z) : R := IZR (w mod 2 ^ 53) / 2 ^ 53.
(** a word that makes Float64 return 0 *)
Definition zero_word (w : Z) : Prop := (w mod 2 ^ 53 = 0)%Z.

(** ** The tail *)
(** where it begins, and the part of strip 0 that leads to it *)
Definition tail_start : R := 3.442619855899.
Definition tail_share : R := 1 - inner 0 / edge 0.
(** the two numbers drawn there: for a uniform word, neg_ln has the exponential distribution and beyond_start the one with
    rate tail_start *)
Definition neg_ln (w : Z) : R := - ln (unit w).
Definition beyond_start (w : Z) : R := neg_ln w / tail_start.
