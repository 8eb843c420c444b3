(** * LAMB in floating point (optimizers/lamb/lamb.go)

    lamb_update and lamb_optimize of OptModel.v again, over the IEEE binary32 and binary64 formats, as in OptFloatModel.v.
    Definitions only.  The sum of the squares is a parameter, with the number of the call, as in NormFloatModel.v: on amd64 the
    order of the additions depends on the processor, on the length and on the address of the slice. *)
From Coq Require Import List ZArith Bool.
From Flocq Require Import Core BinarySingleNaN.
From Verif Require Import DenseModel ArithModel FloatModel NumModel OptFloatModel.
Import ListNotations.

Section Lamb.
Variable d : dtype.
Notation mat := (dense (val d)).
Variable sum : nat -> list (val d) -> val d.
(** norm, lamb.go:148-152: the square root is that of float64 *)
Definition lamb_norm (k : nat) (x : mat) : option (val F64) :=
  bind (m_prod d x x) (fun p => Some (sqrt64 (conv d F64 (sum k (data p))))).
(** trustRatio, lamb.go:125-128 *)
Definition trust_ratio (wn qn : val F64) : val F64 := if is0 wn || is0 qn then fone else fdiv wn qn.
Variables (alpha b1 b2 eps lambda : val F64).
(** calculateParamUpdate, lamb.go:110-131 *)
Definition lamb_update (g : mat) (s : moments d) (w : mat) : option (mat * moments d) :=
  bind (update_first d b1 g s) (fun s => bind (update_second d b2 g s) (fun s =>
  let buf := m_adds_in d (m_sqrt d (mo_2 d s)) eps in
  bind (m_div d (mo_1 d s) buf) (fun q =>
  bind (if is0 lambda then Some q else m_add_in d q (m_prods d w lambda)) (fun q =>
  bind (lamb_norm 0 w) (fun wn => bind (lamb_norm 1 q) (fun qn =>
  bind (m_pms d (mo_b3 d s) q (fmul alpha (trust_ratio wn qn))) (fun b3 => Some (b3, set_b3 d s b3)))))))).
(** the test of the type of the state, lamb.go:159-162 *)
Definition lamb_state (s : ostate d) : option (moments d) := match s with LambState _ s => Some s | _ => None end.
(** OptimizeParams, lamb.go:154-168 *)
Definition lamb_optimize : param d -> outcome (param d) :=
  optimize d (moments d) lamb_state (LambState d) (moments_fresh d) lamb_update.
End Lamb.
