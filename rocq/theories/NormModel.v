(** * Norm and Normalize2 (mat/dense.go) *)
From Coq Require Import Reals List Arith Bool ZArith.
From Verif Require Import DenseModel ArithModel GradModel.
Import ListNotations.
Open Scope R_scope.

(** norm (dense.go:1291-1300); real numbers, math.Pow as in GradModel (a NaN is an arbitrary value there) *)
Definition mat_norm (d : mat) (p : R) : option R :=
  if is_vector d then Some (go_pow (fold_left (fun s x => s + go_pow x p) (data d) 0) (1 / p)) else None.
(** Norm (dense.go:1287-1289) *)
Definition m_norm (d : mat) (p : R) : option mat := do n <- mat_norm d p; Some (scalar n).
(** Normalize2 (dense.go:1303-1309) *)
Definition m_normalize2 (d : mat) : option mat :=
  do n <- mat_norm d 2; Some (if Ris0 n then clone d else m_prods d (1 / n)).
