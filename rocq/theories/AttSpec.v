(** * What attention computes *)
From Coq Require Import Reals List Arith Bool.
From Verif Require Import DenseModel DenseSpec ArithSpec GradModel GradSpec OpsSpec AttModel.
Import ListNotations.
Open Scope nat_scope.

(** the column vector f 0, ..., f (n-1) *)
Definition vec (n : nat) (f : nat -> R) : mat := column (map f (seq 0 n)).
(** x is a column vector of n elements *)
Definition is_vec (n : nat) (x : mat) : Prop := fits x n 1.
(** w x + b *)
Definition layer (n : nat) (m : linear) (x : mat) : mat :=
  vec n (fun i => (entry (lin_b m) i + Rsum (rows x) (fun j => rget (lin_w m) i j * entry x j))%R).
(** the score of a key for a query, the weight of the j-th key among [ks], and the weighted average of the values *)
Definition score (scale : R) (q k : mat) : R := (scale * Rsum (size q) (fun c => entry q c * entry k c))%R.
Definition kth (ks : list mat) (j : nat) : mat := nth j ks (mkDense 0 0 []).
Definition weight (scale : R) (q : mat) (ks : list mat) (j : nat) : R :=
  (exp (score scale q (kth ks j)) / Rsum (length ks) (fun l => exp (score scale q (kth ks l))))%R.
Definition attended (n : nat) (scale : R) (q : mat) (ks vs : list mat) : mat :=
  vec n (fun d => Rsum (length ks) (fun j => weight scale q ks j * entry (kth vs j) d)%R).

(** the layers' shapes: inputs of size d, queries and keys of size dk, values of size dv *)
Definition linear_fits (m : linear) (n d : nat) : Prop := fits (lin_w m) n d /\ fits (lin_b m) n 1.
Definition model_fits (m : self_attention) (d dk dv : nat) (s : R) : Prop :=
  linear_fits (sa_query m) dk d /\ linear_fits (sa_key m) dk d /\ linear_fits (sa_value m) dv d /\ sa_scale m = scalar s.
(** What position i of a causal self-attention should give for the inputs xs: the
    average of the values up to i, weighted by their keys' scores for the query of x_i. *)
Definition causal_output (m : self_attention) (dk dv : nat) (s : R) (xs : list mat) (i : nat) : mat :=
  let seen := firstn (S i) xs in
  attended dv s (layer dk (sa_query m) (kth xs i)) (map (layer dk (sa_key m)) seen) (map (layer dv (sa_value m)) seen).
