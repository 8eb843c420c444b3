(** * What the kernels of the matrix products must do *)
From Coq Require Import ZArith String Bool List Permutation.
From Verif Require Import AsmModel AsmSpec.
From Verif Require Import GemModel.
Import ListNotations.
Open Scope string_scope.
Open Scope nat_scope.

Section Spec.
Variable A : lanes.
Variable esize : Z.
Variable half : nat.
Variable equal : lane A -> lane A -> bool.
Notation L := (lane A).
Notation slice := (slice A esize).
Notation within := (within esize).
Notation same_or_apart := (same_or_apart esize).
(** The function c, called with the factor alpha on the slices x and y, returns without a fault; y[i] is then
    x[i] * alpha + y[i] for all i below both lengths, and every other cell is as it was. *)
Definition computes_axpy (c : code) : Prop :=
  forall (farg : string -> L) (st : state A) x y (lx ly : list L),
    args A st "x_base" = x -> args A st "y_base" = y -> args A st "x_len" = Z.of_nat (length lx) -> args A st "y_len" = Z.of_nat (length ly) ->
    slice (mem A st) x lx -> slice (mem A st) y ly -> same_or_apart x y (Nat.min (length lx) (length ly)) -> (y mod esize = 0)%Z ->
    exists st', returns A esize half equal farg c st st' /\
      (forall i a b, nth_error lx i = Some a -> nth_error ly i = Some b ->
         mem A st' (y + esize * Z.of_nat i)%Z = Some (bin A Add (bin A Mul a (farg "alpha")) b)) /\
      (forall p, ~ within y (Nat.min (length lx) (length ly)) p -> mem A st' p = mem A st p).
(** The same with a third slice for the result *)
Definition computes_axpy_to (c : code) : Prop :=
  forall (farg : string -> L) (st : state A) dst x y (ld lx ly : list L), let n := Nat.min (Nat.min (length lx) (length ly)) (length ld) in
    args A st "dst_base" = dst -> args A st "x_base" = x -> args A st "y_base" = y ->
    args A st "dst_len" = Z.of_nat (length ld) -> args A st "x_len" = Z.of_nat (length lx) -> args A st "y_len" = Z.of_nat (length ly) ->
    slice (mem A st) dst ld -> slice (mem A st) x lx -> slice (mem A st) y ly ->
    same_or_apart x dst n -> same_or_apart y dst n -> (y mod esize = 0)%Z ->
    exists st', returns A esize half equal farg c st st' /\
      (forall i a b, i < n -> nth_error lx i = Some a -> nth_error ly i = Some b ->
         mem A st' (dst + esize * Z.of_nat i)%Z = Some (bin A Add (bin A Mul a (farg "alpha")) b)) /\
      (forall p, ~ within dst n p -> mem A st' p = mem A st p).
(** two slices without a common cell *)
Definition apart (a : Z) (n : nat) (b : Z) (k : nat) : Prop := forall p, within a n p -> within b k p -> False.
(** The function c, called for the product of the matrix a (m rows, n columns, by rows) and the vector x with strides 1 and
    with a beta that compares equal to zero, returns without a fault; y[i] is then 0 * beta + v * alpha, where v is a sum of the
    products of row i and x, and every other cell is as it was.  Without columns nothing happens. *)
Definition computes_gemv (c : code) : Prop :=
  forall (farg : string -> L) (st : state A) m n a x y (la lx ly : list L),
    args A st "m" = Z.of_nat m -> args A st "n" = Z.of_nat n -> args A st "lda" = Z.of_nat n -> args A st "incX" = 1%Z -> args A st "incY" = 1%Z ->
    args A st "a_base" = a -> args A st "x_base" = x -> args A st "y_base" = y -> equal (zero A) (farg "beta") = true ->
    length la = m * n -> length lx = n -> length ly = m ->
    slice (mem A st) a la -> slice (mem A st) x lx -> slice (mem A st) y ly -> apart a (m * n) y m -> apart x n y m ->
    exists st', returns A esize half equal farg c st st' /\
      (forall i, i < m -> 0 < n -> exists v, dot_of A v (combine (firstn n (skipn (i * n) la)) lx) /\
         mem A st' (y + esize * Z.of_nat i)%Z = Some (bin A Add (bin A Mul (zero A) (farg "beta")) (bin A Mul v (farg "alpha")))) /\
      (forall p, ~ within y (if n =? 0 then 0 else m) p -> mem A st' p = mem A st p).
(** The function c leaves in dst[i], for all i below both lengths, a sum of the elements s[0] to s[i]; dst may be s. *)
Definition computes_cumsum (c : code) : Prop :=
  forall (farg : string -> L) (st : state A) dst s (ld ls : list L), let n := Nat.min (length ld) (length ls) in
    args A st "dst_base" = dst -> args A st "s_base" = s -> args A st "dst_len" = Z.of_nat (length ld) -> args A st "s_len" = Z.of_nat (length ls) ->
    slice (mem A st) dst ld -> slice (mem A st) s ls -> same_or_apart s dst n ->
    exists st', returns A esize half equal farg c st st' /\
      (forall i, i < n -> exists v, sum_of A v (firstn (S i) ls) /\ mem A st' (dst + esize * Z.of_nat i)%Z = Some v) /\
      (forall p, ~ within dst n p -> mem A st' p = mem A st p).
End Spec.
