(** * Losses in floating point (package losses)

    The losses of OpsModel.v again, with the backward pass of the graph each of them builds, over the IEEE binary32 and binary64
    formats, with every rounding, overflow, signed zero, infinity and NaN.  Definitions only.  A vector is the list of its elements.
    As in NormFloatModel.v every sum is a parameter, with the number of the call; so are the exponentials and the logarithms
    of a vector, which on amd64 come from a vector kernel or from package math, depending on the position.  Those of a scalar come
    from package math (exp_amd64.go:10-42, log_amd64.go:13-59: a slice of one element is all remainder).
    No multiplication and addition are fused. *)
From Coq Require Import List ZArith Bool.
From Flocq Require Import Core BinarySingleNaN.
From Verif Require Import DenseModel ArithModel FloatModel NumModel AsmModel AsmCode AsmCalls AsmWords NormFloatModel.
Import ListNotations.

Section Loss.
Variable m : libm.
Variable d : dtype.
Notation vec := (list (val d)).
Variable sum : nat -> vec -> val d.
Variable vexp vlog : vec -> vec.
Notation at_type := (conv F64 d).
Notation up := (conv d F64).

(** ** Operators *)
(** Neg of a scalar, forward and backward (gradfn/misc.go:146-154, unaryelementwise.go:26-43) *)
Definition neg_op (v : val d) : val d := at_type (fneg (up v)).
Definition neg_back (gy : val d) : val d := fmul (at_type (fneg fone)) gy.
(** ProdScalar by -1 (dense.go:591-602) *)
Definition minus (v : val d) : val d := fmul v (at_type (lit (-1) 0)).
(** ReverseSub of a scalar and NewScalar(1): ProdScalar(-1).AddScalarInPlace(1) (gradfn/reversesubscalar.go:33-37) *)
Definition one_minus (v : val d) : val d := fadd (minus v) (at_type (up (at_type fone))).
(** a vector of zeros but for v at i: ZerosLike, SetAt (gradfn/at.go:36-43, reducemax.go:39-50) *)
Definition spot (n i : nat) (v : val d) : vec := map (fun k => if (k =? i)%nat then v else fzero) (seq 0 n).

(** ** CrossEntropy (losses/losses.go:41-43) *)
(** ReduceMax (gradfn/reducemax.go:32-36), ArgMax (dense.go:1061-1079) *)
Definition arg (x : vec) : nat := arg_max_loop flt 0 0 (hd fzero x) x.
Definition top (x : vec) : val d := nth (arg x) x fzero.
(** LogSumExp (ag/operators.go:511-516) *)
Definition powers (x : vec) : vec := vexp (sub_scalar d x (top x)).
Definition partition (x : vec) : val d := sum 0 (powers x).
Definition lse (x : vec) : val d := fadd (top x) (log_elem m d (partition x)).
Definition cross_entropy (x : vec) (c : nat) : val d := fadd (neg_op (nth c x fzero)) (lse x).
(** The gradient of x, given that of the loss: At and Neg; Add; Log (gradfn/log.go:41-61; [None] is its panic), ReduceSum, Exp
    (gradfn/exp.go:36-46), SubScalar; ReduceMax.  x receives three gradients, that of ReduceMax after that of SubScalar and that
    of At at any time ([first]: not as the last one). *)
Definition cross_entropy_back (first : bool) (x : vec) (c : nat) (gy : val d) : option vec :=
  match go_log_deriv (up (partition x)) with
  | None => None
  | Some r =>
      let gs := reduce_sum_back d (fmul (at_type r) gy) in
      let gq := map (fun e => fmul e gs) (powers x) in
      let gm := fadd gy (sub_scalar_back2 d sum 1 gq) in
      let gc := spot (length x) c (neg_back gy) in
      let gt := spot (length x) (arg x) gm in
      Some (if first then zip fadd (zip fadd gc gq) gt else zip fadd (zip fadd gq gt) gc)
  end.

(** ** WeightedCrossEntropy (losses.go:49-53): ProdScalar by the weight of the class (gradfn/prodscalar.go:33-44) *)
Definition weighted (w x : vec) (c : nat) : val d := fmul (cross_entropy x c) (at_type (up (nth c w fzero))).
Definition weighted_back (first : bool) (w x : vec) (c : nat) (gy : val d) : option vec :=
  cross_entropy_back first x c (fmul gy (at_type (up (nth c w fzero)))).

(** ** Perplexity (losses.go:88-90) *)
Definition perplexity (x : vec) (c : nat) : val d := exp_elem m d (cross_entropy x c).
Definition perplexity_back (first : bool) (x : vec) (c : nat) (gy : val d) : option vec :=
  cross_entropy_back first x c (fmul (exp_elem m d (cross_entropy x c)) gy).

(** ** FocalLoss (losses.go:61-67): Pow (dense.go:916-929), Prod *)
Definition focal_p (x : vec) (c : nat) : val d := exp_elem m d (neg_op (cross_entropy x c)).
Definition focal_factor (x : vec) (c : nat) (gamma : val F64) : val d := at_type (Pow m (up (one_minus (focal_p x c))) gamma).
Definition focal (x : vec) (c : nat) (gamma : val F64) : val d := fmul (focal_factor x c gamma) (cross_entropy x c).
(** the gradient that the cross entropy receives: from Prod, and through Pow (gradfn/pow.go:36-47), ReverseSub, Exp and Neg *)
Definition focal_ce_grad (x : vec) (c : nat) (gamma : val F64) (gy : val d) : val d :=
  let ce := cross_entropy x c in
  let ga := fmul ce gy in
  let gsub := fmul (fmul (at_type (Pow m (up (one_minus (focal_p x c))) (fsub gamma fone))) (at_type gamma)) ga in
  let gneg := fmul (focal_p x c) (minus gsub) in
  fadd (fmul (focal_factor x c gamma) gy) (neg_back gneg).
Definition focal_back (first : bool) (x : vec) (c : nat) (gamma : val F64) (gy : val d) : option vec :=
  cross_entropy_back first x c (focal_ce_grad x c gamma gy).

(** ** NLL (losses.go:34-36) *)
Definition nll (x y : vec) : val d := neg_op (sum 2 (zip fmul y (vlog x))).
(** of the probabilities that Softmax computes (dense.go:1082-1112) *)
Definition softmax_list (x : vec) : vec :=
  map (fun e => fmul e (at_type (up (fdiv fone (sum 3 (powers x)))))) (powers x).

(** ** MAE, MSE (losses.go:13-30), the sum of all elements *)
(** Sub (dense.go:482-498) *)
Definition differences (x y : vec) : vec := zip fsub x y.
Definition mae (x y : vec) : val d := sum 4 (map (fun v => at_type (fabs (up v))) (differences x y)).
Definition mse (x y : vec) : val d := sum 5 (map (fun v => fmul v (at_type (up (at_type (lit 1 (-1)))))) (square d (differences x y))).
End Loss.

(** ** The exponentials of a vector (dense.go:969-987, exp_amd64.go:10-42, exp_purego.go)
    float64: package math.  float32: the vector kernel (AsmCalls.v) for the elements in whole vectors of 8 (AVX2) or 4 (SSE) lanes,
   package math for the rest. *)
Fixpoint vector_exp_from (g : libm) (c : cpu) (i n : nat) (l : list (val F32)) : list (val F32) :=
  match l with
  | [] => []
  | v :: l' => decode (if (i <? n - n mod width c)%nat then lane_function (ExpKernel32 c) (encode v) else scalar (Exp g) (encode v)) :: vector_exp_from g c (S i) n l'
  end.
Definition vector_exp (g : libm) (d : dtype) (c : cpu) : list (val d) -> list (val d) :=
  match d with
  | F32 => fun l => vector_exp_from g c 0 (length l) l
  | F64 => map (Exp g)
  end.
