(** * Max pooling (mat/gradfn/maxpooling.go) *)
From Coq Require Import Reals List Arith Bool ZArith.
From Verif Require Import DenseModel ArithModel GradModel OpsModel.
Import ListNotations.
Open Scope R_scope.

(** math.SmallestNonzeroFloat64: the running maximum starts here (maxpooling.go:54) *)
Definition smallest_nonzero : R := powerRZ 2 (-1074).

(** the two inner loops (maxpooling.go:56-69): i from row*rows to row*rows+rows, j from col*cols to col*cols+rows (sic);
    the state is the maximum and its position; ScalarAt panics outside the matrix *)
Definition pool_step (x : mat) (i : nat) (st : R * (nat * nat)) (j : nat) : option (R * (nat * nat)) :=
  do v <- at_ x [Z.of_nat i; Z.of_nat j]; Some (if Rltb (fst st) v then (v, (i, j)) else st).
Definition pool_scan (x : mat) (pr pc row col : nat) : option (R * (nat * nat)) :=
  fold_opt (fun st i => fold_opt (pool_step x i) (seq (col * pc) pr) st) (seq (row * pr) pr) (smallest_nonzero, (0%nat, 0%nat)).

(** the cells of the output in the order of the loops "for row ... for col ..." (maxpooling.go:52-53) *)
Definition cells (r c : nat) : list (nat * nat) := list_prod (seq 0 r) (seq 0 c).
(** Forward (maxpooling.go:42-74): the sizes are positive or the % panics; negative sizes are not modelled *)
Definition pool_all (pr pc : nat) (x : mat) : option (list (R * (nat * nat))) :=
  if (pr =? 0)%nat || (pc =? 0)%nat then None else
  if (rows x mod pr =? 0)%nat && (cols x mod pc =? 0)%nat
  then each (fun rc => pool_scan x pr pc (fst rc) (snd rc)) (cells (rows x / pr) (cols x / pc))
  else None.
Definition pool_out (pr pc : nat) (x : mat) : option mat :=
  do st <- pool_all pr pc x; Some (mkDense (rows x / pr) (cols x / pc) (map fst st)).
(** Backward (maxpooling.go:90-104): SetScalar at the position of the maximum of each cell *)
Definition pool_back (pr pc : nat) (x gy : mat) : option mat :=
  do st <- pool_all pr pc x;
  fold_opt (fun gx p => do g <- at_ gy [Z.of_nat (fst (fst p)); Z.of_nat (snd (fst p))];
                        set_ gx g [Z.of_nat (fst (snd p)); Z.of_nat (snd (snd p))])
    (combine (cells (rows x / pr) (cols x / pc)) (map snd st)) (m_zeros_like x).
Definition max_pooling_fn (pr pc : nat) : gfun := mkG (un (pool_out pr pc)) (un_b (fun x req gy => when (req 0%nat) 0 (pool_back pr pc x gy))).
