(** * The sums that the entries of a product are *)
From Coq Require Import ZArith Bool List.
From Flocq Require Import Core BinarySingleNaN.
From Verif Require Import FloatModel NumModel AsmModel AsmCalls AsmSpec GemCalls.
Import ListNotations.

(** the pairs of factors in entry (i, j) of the product of a matrix la with ac columns and a matrix lb with bc columns, by rows *)
Definition terms {d} (ac bc : nat) (la lb : list (val d)) (i j : nat) : list (val d * val d) :=
  map (fun l => (nth (i * ac + l) la fzero, nth (l * bc + j) lb fzero)) (seq 0 ac).
(** the pairs in entry p of the product of the transpose of la (lt has as many elements as la has rows) and the vector lt *)
Definition terms_t {d} (ac : nat) (la lt : list (val d)) (p : nat) : list (val d * val d) :=
  map (fun l => (nth l lt fzero, nth (l * ac + p) la fzero)) (seq 0 (length lt)).
(** the pairs whose left factor is not zero *)
Definition nonzero {d} (l : list (val d * val d)) : list (val d * val d) :=
  filter (fun p => match fst p with B754_zero _ => false | _ => true end) l.
(** the pairs that a product with bc columns adds: with one column all of them, otherwise those with a left factor other than zero *)
Definition used {d} (bc : nat) (l : list (val d * val d)) : list (val d * val d) := if Nat.eqb bc 1 then l else nonzero l.
(** the memory m holds the elements of l in the slice that starts at address a and has n elements *)
Definition holds {d} (esize : Z) (m : Z -> option (val d)) (a : Z) (n : nat) (l : list (val d)) : Prop :=
  n = length l /\ forall i x, nth_error l i = Some x -> m (a + esize * Z.of_nat i)%Z = Some x.
(** After Mul of la (cols columns) and lb (bc columns) into o: entry (i, j) is a sum of the products of row i of la and column j
    of lb, and no cell outside o has changed.  The same for MulT and CumSum. *)
Definition mul_post (d : dtype) (rows cols bc : nat) (la lb : list (val d)) (o : gslice) (m m' : Z -> option (val d)) : Prop :=
  (forall i j, i < rows -> j < bc -> exists v, m' (ptr o + esize_of d * Z.of_nat (i * bc + j))%Z = Some v /\ dot_of (floats d) v (used bc (terms cols bc la lb i j))) /\
  (forall p, ~ within (esize_of d) (ptr o) (len o) p -> m' p = m p).
Definition mul_t_post (d : dtype) (cols : nat) (la lt : list (val d)) (o : gslice) (m m' : Z -> option (val d)) : Prop :=
  (forall p, p < cols -> exists v, m' (ptr o + esize_of d * Z.of_nat p)%Z = Some v /\ dot_of (floats d) v (terms_t cols la lt p)) /\
  (forall p, ~ within (esize_of d) (ptr o) (len o) p -> m' p = m p).
Definition cumsum_post (d : dtype) (l : list (val d)) (o : gslice) (m m' : Z -> option (val d)) : Prop :=
  (forall i, i < length l -> exists v, m' (ptr o + esize_of d * Z.of_nat i)%Z = Some v /\ sum_of (floats d) v (firstn (S i) l)) /\
  (forall p, ~ within (esize_of d) (ptr o) (len o) p -> m' p = m p).
