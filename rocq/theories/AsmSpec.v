(** * What the vector kernels must do *)
From Coq Require Import ZArith String Bool List Permutation.
From Verif Require Import AsmModel AsmCalls.
Import ListNotations.
Open Scope string_scope.

Section Spec.
Variable A : lanes.
Variable esize : Z.
Variable half : nat.
Notation L := (lane A).
(** the cells from address a on hold the elements of l *)
Definition slice (m : Z -> option L) (a : Z) (l : list L) : Prop :=
  forall i x, nth_error l i = Some x -> m (a + esize * Z.of_nat i)%Z = Some x.
(** the cell at address p is the i-th of the n cells from a on, for some i *)
Definition within (a : Z) (n : nat) (p : Z) : Prop := exists i, i < n /\ p = (a + esize * Z.of_nat i)%Z.
(** two slices of n elements are the same, or have no cell in common (more exactly: no cell at two different positions) *)
Definition same_or_apart (a b : Z) (n : nat) : Prop :=
  forall i j, i < n -> j < n -> (a + esize * Z.of_nat i = b + esize * Z.of_nat j)%Z -> i = j.
(** The function c, called on the slices x1, x2 and y, returns without a fault; y then holds f x1[i] x2[i] at i, and every other
    cell is as it was. *)
Definition computes2 (c : code) (f : L -> L -> L) : Prop :=
  forall (F : frame A) (st : state A) x1 x2 y (l1 l2 ly : list L),
    iarg A F "x1_base" = x1 -> iarg A F "x2_base" = x2 -> iarg A F "y_base" = y -> iarg A F "x1_len" = Z.of_nat (length l1) ->
    length l2 = length l1 -> length ly = length l1 ->
    slice (mem A st) x1 l1 -> slice (mem A st) x2 l2 -> slice (mem A st) y ly ->
    same_or_apart x1 y (length l1) -> same_or_apart x2 y (length l1) -> (x2 mod esize = 0)%Z ->
    exists st', returns A esize half F c st st' /\
      (forall i a b, nth_error l1 i = Some a -> nth_error l2 i = Some b -> mem A st' (y + esize * Z.of_nat i)%Z = Some (f a b)) /\
      (forall p, ~ within y (length l1) p -> mem A st' p = mem A st p).
(** The same for a constant c and a slice x: y[i] is f x[i] c *)
Definition computes1 (c : code) (f : L -> L -> L) : Prop :=
  forall (F : frame A) (st : state A) x y k (l ly : list L),
    farg A F "c" = k -> iarg A F "x_base" = x -> iarg A F "y_base" = y -> iarg A F "x_len" = Z.of_nat (length l) ->
    length ly = length l -> slice (mem A st) x l -> slice (mem A st) y ly -> same_or_apart x y (length l) ->
    exists st', returns A esize half F c st st' /\
      (forall i a, nth_error l i = Some a -> mem A st' (y + esize * Z.of_nat i)%Z = Some (f a k)) /\
      (forall p, ~ within y (length l) p -> mem A st' p = mem A st p).

(** v is a sum of the elements of l: each is added once, in some order and grouping, zeros may be added *)
Inductive sum_of : L -> list L -> Prop :=
| sum_zero : sum_of (zero A) []
| sum_one x : sum_of x [x]
| sum_add a b l k m : sum_of a l -> sum_of b k -> Permutation (l ++ k) m -> sum_of (bin A Add a b) m.
(** v is a sum of the products of the pairs in l, some of them by fused multiply-adds *)
Inductive dot_of : L -> list (L * L) -> Prop :=
| dot_zero : dot_of (zero A) []
| dot_one x y : dot_of (bin A Mul x y) [(x, y)]
| dot_add a b l k m : dot_of a l -> dot_of b k -> Permutation (l ++ k) m -> dot_of (bin A Add a b) m
| dot_fma a x y l m : dot_of a l -> Permutation (l ++ [(x, y)]) m -> dot_of (fma A x y a) m.
(** The function c returns a sum of the elements of its slice and changes no memory. *)
Definition computes_sum (c : code) : Prop :=
  forall (F : frame A) (st : state A) x (l : list L),
    iarg A F "x_base" = x -> iarg A F "x_len" = Z.of_nat (length l) -> slice (mem A st) x l -> (x mod esize = 0)%Z ->
    exists st' v, returns A esize half F c st st' /\ ret A st' = Some v /\ sum_of v l /\ mem A st' = mem A st.
Definition computes_dot (c : code) : Prop :=
  forall (F : frame A) (st : state A) x1 x2 (l1 l2 : list L),
    iarg A F "x1_base" = x1 -> iarg A F "x2_base" = x2 -> iarg A F "x1_len" = Z.of_nat (length l1) -> length l2 = length l1 ->
    slice (mem A st) x1 l1 -> slice (mem A st) x2 l2 -> (x2 mod esize = 0)%Z ->
    exists st' v, returns A esize half F c st st' /\ ret A st' = Some v /\ dot_of v (combine l1 l2) /\ mem A st' = mem A st.
End Spec.

(** The function c, called on the slices x1, x2 and y, leaves in y what the plain loop leaves there, and touches nothing else. *)

Definition agrees2 (A : lanes) (esize : Z) (half : nat) (c : code) (f : lane A -> lane A -> lane A) : Prop :=
  forall (F : frame A) (st : state A) x1 x2 y (l1 l2 ly : list (lane A)),
    iarg A F "x1_base" = x1 -> iarg A F "x2_base" = x2 -> iarg A F "y_base" = y -> iarg A F "x1_len" = Z.of_nat (length l1) ->
    length l2 = length l1 -> length ly = length l1 ->
    slice A esize (mem A st) x1 l1 -> slice A esize (mem A st) x2 l2 -> slice A esize (mem A st) y ly ->
    same_or_apart esize x1 y (length l1) -> same_or_apart esize x2 y (length l1) -> (x2 mod esize = 0)%Z ->
    exists st' out, returns A esize half F c st st' /\ plain2 f l1 l2 ly = Some out /\ slice A esize (mem A st') y out /\
      (forall p, ~ within esize y (length l1) p -> mem A st' p = mem A st p).
Definition agrees1 (A : lanes) (esize : Z) (half : nat) (c : code) (f : lane A -> lane A -> lane A) : Prop :=
  forall (F : frame A) (st : state A) x y k (l ly : list (lane A)),
    farg A F "c" = k -> iarg A F "x_base" = x -> iarg A F "y_base" = y -> iarg A F "x_len" = Z.of_nat (length l) ->
    length ly = length l -> slice A esize (mem A st) x l -> slice A esize (mem A st) y ly -> same_or_apart esize x y (length l) ->
    exists st' out, returns A esize half F c st st' /\ plain1 f k l ly = Some out /\ slice A esize (mem A st') y out /\
      (forall p, ~ within esize y (length l) p -> mem A st' p = mem A st p).
