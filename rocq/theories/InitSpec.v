(** * What the initializers and random masks are meant to do *)
From Coq Require Import List ZArith Reals.
From Verif Require Import DenseModel DenseSpec RandModel RandFloatModel.
Import ListNotations.
Open Scope R_scope.

(** the random number in [0, 1) that a word of the source stands for *)
Definition fraction (w : Z) : R := IZR (w mod 2 ^ 53) / IZR (2 ^ 53).

(** calling [next] again and again returns the values vs and leaves rest *)
Inductive successive (next : list Z -> draw R) : list Z -> list R -> list Z -> Prop :=
| successive_none ws : successive next ws [] ws
| successive_more ws v ws' vs rest : next ws = Got v ws' -> successive next ws' vs rest -> successive next ws (v :: vs) rest.

(** the result is a matrix of m's shape, its entries taken row after row from the list vs by f; the words left are rest *)
Definition filled_from (f : R -> R) (m : dense R) (vs : list R) (rest : list Z) (result : draw (dense R)) : Prop :=
  exists m', result = Got m' rest /\
    is_matrix m' (rows m) (cols m) (fun i j => Some (f (nth (i * cols m + j) vs 0))).

(** one word per entry, row after row *)
Definition one_word_each (f : R -> R) (m : dense R) (ws : list Z) (result : draw (dense R)) : Prop :=
  exists m', result = Got m' (skipn (rows m * cols m) ws) /\
    is_matrix m' (rows m) (cols m) (fun i j => Some (f (fraction (nth (i * cols m + j) ws 0%Z)))).
