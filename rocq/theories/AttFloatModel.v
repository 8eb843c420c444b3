(** * Scaled dot-product attention in floating point (package nn/attention)

    ScaledDotProductAttention of AttModel.v again, over the IEEE binary32 and binary64 formats, with every rounding, overflow, signed
    zero, infinity and NaN, and with the real causal mask of zeros and -Inf.  Definitions only.  A vector is the list of its elements,
    a matrix the list of its rows.  The product of a row of the keys and a query is a parameter, with the numbers of the row and of
    the query, since its order of additions depends on the processor and the length (AsmCalls.v, GemModel.v); so are the sums in
    Softmax and the exponentials of a vector.  The product with the values is a loop of plain multiplications and additions, in the
    order of the rows (GemCalls.v, C64_mul_t).  All sizes fit, or the operators panic (AttModel.v). *)
From Coq Require Import List ZArith Bool.
From Flocq Require Import Core BinarySingleNaN.
From Verif Require Import ArithModel FloatModel NumModel NormFloatModel RnnFloatModel.
Import ListNotations.

Section Att.
Variable d : dtype.
Notation vec := (list (val d)).
Variable dot : list nat -> list (val d * val d) -> val d.
Variable sum : nat -> vec -> val d.
Variable vexp : vec -> vec.
Notation at_type := (conv F64 d).
Notation up := (conv d F64).

(** Softmax (dense.go:1082-1112): subtract the largest element, take the exponentials, multiply by 1 / sum *)
Definition softmax (t : nat) (x : vec) : vec :=
  match x with
  | [] => []
  | v :: vs =>
      let es := vexp (sub_scalar d x (max_loop flt v vs)) in
      map (fun e => fmul e (at_type (up (fdiv fone (sum t es))))) es
  end.
(** makeCausalMask (attention.go:52-59) *)
Definition causal_mask (cur len : nat) : list (val F64) := map (fun j => if (cur + 1 <=? j)%nat then B754_infinity true else fzero) (seq 0 len).
(** the scores of query i (attention.go:28-37): Mul of the keys and the query (dense.go:681-751), ProdScalar (dense.go:591-602), and
    Add of the mask (dense.go:413-430), whose float64 elements NewMatrix converts *)
Definition scores (k : list vec) (scale : val F64) (masked : bool) (i : nat) (q : vec) : vec :=
  let s := map (fun v => fmul v (at_type scale)) (mul_rows d dot [i] 0 k q) in
  if masked then zip fadd s (map at_type (causal_mask i (length k))) else s.
(** MulT (dense.go:757-802): for each row, the row times its weight is added to the result *)
Definition mul_t (rows : list vec) (w : vec) : vec :=
  fold_left (fun out p => zip (fun x o => fadd (fmul x (snd p)) o) (fst p) out) (combine rows w) (repeat fzero (length (hd [] rows))).
(** ScaledDotProductAttention (attention.go:18-50): the attention and the weights *)
Definition attention (q k v : list vec) (scale : val F64) (causal : bool) : list vec * list vec :=
  let masked := causal && (1 <? length q)%nat in
  let weights := map (fun p => softmax (fst p) (scores k scale masked (fst p) (snd p))) (combine (seq 0 (length q)) q) in
  (map (mul_t v) weights, weights).
End Att.
