(** * What attention should compute, and how exactly *)
From Coq Require Import ZArith List Reals Bool Arith.
From Flocq Require Import Core BinarySingleNaN.
From Verif Require Import AsmModel FloatModel NumModel NumSpec AsmCalls AsmFloatSpec AsmSpec SoftSpec LossFloatSpec.
Import ListNotations.
Local Open Scope R_scope.

(** the sum of f over the first n indexes *)
Definition sum_to (n : nat) (f : nat -> R) : R := fold_right (fun j s => f j + s) 0 (seq 0 n).
(** the number of keys that query i sees, out of n: with a causal mask those up to i; a single query is never masked *)
Definition visible (causal : bool) (queries i n : nat) : nat := if causal && (1 <? queries)%nat then Nat.min (i + 1) n else n.
(** the exact score of key j and its share of the attention, among the first n keys; the exact attention in column c *)
Definition score {d} (k : list (list (val d))) (scale : val F64) (q : list (val d)) (j : nat) : R :=
  real (conv F64 d scale) * product (combine (nth j k []) q).
Definition share (f : nat -> R) (n j : nat) : R := exp (f j) / sum_to n (fun l => exp (f l)).
Definition attended {d} (f : nat -> R) (n : nat) (v : list (list (val d))) (c : nat) : R :=
  sum_to n (fun j => share f n j * real (nth c (nth j v []) fzero)).

(** n keys and n values, of sizes a and b, and queries of size a, all finite; a score has terms that add up to at most B, neither they
    nor their product with the scale come near overflow, and the values are at most V *)
Record good_inputs {d} (a b n : nat) (B V : R) (q k v : list (list (val d))) (scale : val F64) : Prop := {
  in_queries : Forall (fun r => length r = a /\ Forall finite r) q;
  in_keys : length k = n /\ Forall (fun r => length r = a /\ Forall finite r) k;
  in_values : length v = n /\ Forall (fun r => length r = b /\ Forall (fun e => finite e /\ Rabs (real e) <= V) r) v;
  in_scale : finite (conv F64 d scale) /\ Rabs (real (conv F64 d scale)) <= safe d;
  in_scores : forall x y, In x k -> In y q -> product_abs (combine x y) <= B;
  in_range : 0 <= B <= safe d /\ Rabs (real (conv F64 d scale)) * B <= safe d /\ 0 <= V /\ 4 * V <= safe d;
  in_count : (0 < n)%nat /\ INR n * u d <= / 8 /\ INR a * u d <= / 8
}.
(** how exact a score is: 2 a + 1 units of rounding of its size *)
Definition score_error {d} (a : nat) (B : R) (scale : val F64) : R :=
  Rabs (real (conv F64 d scale)) * ((2 * INR a + 1) * u d * B + 2 * INR a * half_tiny d) + half_tiny d.
(** how exact the attention is *)
Definition att_error (d : dtype) (n : nat) (V delta : R) : R :=
  (soft_rel d n + 4 * delta + 3 * (INR n * u d)) * V + INR n * soft_abs d * (V + 1).
