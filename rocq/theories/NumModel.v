(** * Activations, softmax and log-sum-exp in floating point

    The functions of /repo/mat/gradfn/misc.go and swish.go, the methods Sigmoid, Softmax and Apply of /repo/mat/dense.go
    and LogSumExp and LogSoftmax of /repo/ag/operators.go, over the IEEE binary32 and binary64 formats of FloatModel.v,
    with every rounding, overflow, signed zero, infinity and NaN of the Go code.  Go's math.Exp, Log, Tanh, Cosh and Pow
    are parameters (a [libm]).  As everywhere, the pure Go kernels are modelled and not their assembly versions, and
    no multiplication and addition are fused into one operation (as the compiler may do on arm64 but not on amd64). *)
From Coq Require Import List ZArith Bool.
From Flocq Require Import Core BinarySingleNaN.
From Verif Require Import DenseModel ArithModel FloatModel.
Import ListNotations.

(** ** Operations of one type *)
Definition fadd {d} (x y : val d) : val d := @Bplus (prec d) (emax d) (prec_pos d) (prec_emax d) mode_NE x y.
Definition fsub {d} (x y : val d) : val d := @Bminus (prec d) (emax d) (prec_pos d) (prec_emax d) mode_NE x y.
Definition fmul {d} (x y : val d) : val d := @Bmult (prec d) (emax d) (prec_pos d) (prec_emax d) mode_NE x y.
Definition fdiv {d} (x y : val d) : val d := @Bdiv (prec d) (emax d) (prec_pos d) (prec_emax d) mode_NE x y.
Definition fneg {d} (x : val d) : val d := Bopp x.
(** math.Abs clears the sign bit *)
Definition fabs {d} (x : val d) : val d := Babs x.
Definition flt {d} (x y : val d) : bool := Bltb x y.   (* x < y *)
Definition fle {d} (x y : val d) : bool := Bleb x y.   (* x <= y *)
Definition fzero {d} : val d := B754_zero false.
(** a literal: the value nearest to m * 2^e *)
Definition lit {d} (m e : Z) : val d := binary_normalize (prec d) (emax d) (prec_pos d) (prec_emax d) mode_NE m e false.
Definition fone {d} : val d := lit 1 0.

(** the functions of package math that the code calls *)
Record libm := mkLibm { Exp : val F64 -> val F64; Log : val F64 -> val F64; Tanh : val F64 -> val F64;
                        Cosh : val F64 -> val F64; Pow : val F64 -> val F64 -> val F64 }.
(** math.Max (Go's dim.go): infinities and NaN first, then the zeros, then the comparison *)
Definition go_max (x y : val F64) : val F64 :=
  match x, y with
  | B754_infinity false, _ | _, B754_infinity false => B754_infinity false
  | B754_nan, _ | _, B754_nan => B754_nan
  | B754_zero s, B754_zero _ => if s then y else x
  | _, _ => if flt y x then x else y
  end.

Section Functions.
Variable m : libm.
Notation two := (lit 2 0 : val F64).
Notation three := (lit 3 0 : val F64).
Notation half := (lit 1 (-1) : val F64).
Notation one := (fone : val F64).
Notation zero := (fzero : val F64).
Infix "+" := fadd.
Infix "-" := fsub.
Infix "*" := fmul.
Infix "/" := fdiv.

(** ** The element functions (misc.go:232-510): functions of one float64 *)
(** tanh, tanhDeriv (misc.go:249-255) *)
Definition go_tanh (v : val F64) := Tanh m v.
Definition go_tanh_deriv (v : val F64) := one - Pow m (Tanh m v) two.
(** hardSigmoid, hardSigmoidDeriv (misc.go:257-272); 0.2 is 3602879701896397 * 2^-54 in float64 *)
Definition go_0_2 : val F64 := lit 3602879701896397 (-54).
Definition go_2_5 : val F64 := lit 5 (-1).
Definition go_hard_sigmoid (v : val F64) :=
  if flt go_2_5 v then one else if flt v (fneg go_2_5) then zero else go_0_2 * v + half.
Definition go_hard_sigmoid_deriv (v : val F64) := if flt v go_2_5 && flt (fneg go_2_5) v then go_0_2 else zero.
(** hardTanh, hardTanhDeriv (misc.go:274-289) *)
Definition go_hard_tanh (v : val F64) := if flt one v then one else if flt v (fneg one) then fneg one else v.
Definition go_hard_tanh_deriv (v : val F64) := if flt v one && flt (fneg one) v then one else zero.
(** relu, reluDeriv (misc.go:291-300) *)
Definition go_relu (v : val F64) := go_max zero v.
Definition go_relu_deriv (v : val F64) := if fle zero v then one else zero.
(** softsign, softsignDeriv (misc.go:302-308) *)
Definition go_softsign (v : val F64) := v / (one + fabs v).
Definition go_softsign_deriv (v : val F64) := Pow m (one - fabs (go_softsign v)) two.
(** celu, celuDeriv (misc.go:310-328) *)
Definition go_celu (alpha v : val F64) :=
  if fle v zero then alpha * (Exp m (v / alpha) - one) else if flt zero v then v else zero.
Definition go_celu_deriv (alpha v : val F64) :=
  if fle v zero then Exp m (v / alpha) else if flt zero v then one else zero.
(** elu, eluDeriv (misc.go:330-348) *)
Definition go_elu (alpha v : val F64) :=
  if fle v zero then alpha * (Exp m v - one) else if flt zero v then v else zero.
Definition go_elu_deriv (alpha v : val F64) :=
  if fle v zero then alpha * Exp m v else if flt zero v then one else zero.
(** leakyReLU, leakyReLUDeriv (misc.go:350-368) *)
Definition go_leaky (alpha v : val F64) := if fle v zero then alpha * v else if flt zero v then v else zero.
Definition go_leaky_deriv (alpha v : val F64) := if fle v zero then alpha else if flt zero v then one else zero.
(** selu, seluDeriv (misc.go:370-396) *)
Definition go_selu (alpha scale v : val F64) :=
  if fle v zero then scale * alpha * (Exp m v - one) else if flt zero v then scale * v else zero.
Definition go_selu_deriv (alpha scale v : val F64) :=
  if fle v zero then scale * alpha * Exp m v else if flt zero v then scale else zero.
(** softPlus, softPlusDeriv (misc.go:398-421) *)
Definition go_softplus (beta threshold v : val F64) :=
  if fle v threshold then (one / beta) * Log m (one + Exp m (beta * v)) else if flt threshold v then v else zero.
Definition go_softplus_deriv (beta threshold v : val F64) :=
  if fle v threshold then let exp := Exp m (v * beta) in exp / (exp + one) else if flt threshold v then one else zero.
(** softShrink, softShrinkDeriv (misc.go:423-443) *)
Definition go_softshrink (lambda v : val F64) :=
  if flt v (fneg lambda) then v + lambda else if flt lambda v then v - lambda else zero.
Definition go_softshrink_deriv (lambda v : val F64) :=
  if flt v (fneg lambda) then one else if flt lambda v then one else zero.
(** threshold, thresholdDeriv (misc.go:445-466) *)
Definition go_threshold (t value v : val F64) := if fle v t then value else if flt t v then v else zero.
Definition go_threshold_deriv (t v : val F64) := if fle v t then zero else if flt t v then one else zero.
(** swishB, swishBDeriv, swishBBetaDeriv (misc.go:468-482) *)
Definition go_swishb (beta v : val F64) := v * (one / (one + Exp m (beta * fneg v))).
Definition go_swishb_deriv (beta v : val F64) :=
  let prod := v * beta in let exp := Exp m prod in exp * (exp + prod + one) / ((exp + one) * (exp + one)).
Definition go_swishb_beta_deriv (beta v : val F64) :=
  let prod := v * beta in let exp := Exp m (fneg prod) in (v * v * exp) / ((exp + one) * (exp + one)).
(** mish, mishDeriv (misc.go:484-497) *)
Definition go_mish (v : val F64) := v * Tanh m (Log m (one + Exp m v)).
Definition go_mish_deriv (v : val F64) :=
  let exp := Exp m v in let exp2 := Exp m (two * v) in let exp3 := Exp m (three * v) in
  let omega := lit 4 0 * (v + one) + lit 4 0 * exp2 + exp3 + exp * (lit 4 0 * v + lit 6 0) in
  let delta := two * exp + exp2 + two in
  exp * (omega / (delta * delta)).
(** gelu, geluDeriv (misc.go:499-510); math.Sqrt(2/math.Pi) is 7186705221432913 * 2^-53, 0.044715 is 6444110634811895 * 2^-57, ... *)
Definition go_gelu (v : val F64) :=
  half * v * (one + Tanh m (lit 7186705221432913 (-53) * (v + lit 6444110634811895 (-57) * Pow m v three))).
Definition go_gelu_deriv (x : val F64) :=
  let x3 := Pow m x three in
  let u := lit 1285413802764385 (-55) * x3 + lit 898338647171127 (-50) * x in
  half * Tanh m u + (lit 3856241408293155 (-56) * x3 + lit 3593350085084881 (-53) * x) * Pow m (one / Cosh m u) two + half.
(** swishDeriv (swish.go:49-53) *)
Definition go_swish_deriv (v : val F64) :=
  let exp := Exp m v in let expPlusOne := exp + one in exp * (expPlusOne + v) / (expPlusOne * expPlusOne).
(** the derivative of the sigmoid, of its value (sigmoid.go:42-44) *)
Definition go_sigmoid_deriv (v : val F64) := v * (one - v).
(** safeLogDeriv (log.go:53-61): [None] is its panic; 1.0e-08 is 6044629098073146 * 2^-79 *)
Definition go_log_deriv (v : val F64) : option (val F64) :=
  if flt zero v then Some (one / v) else if Beqb v zero then Some (one / lit 6044629098073146 (-79)) else None.

(** ** Matrices of type d *)
Section Matrices.
Variable d : dtype.
Notation mat := (dense (val d)).
(** matfuncs exp, log (exp.go:9-17, log.go:9-17) for one element *)
Definition exp_elem (x : val d) : val d := conv F64 d (Exp m (conv d F64 x)).
Definition log_elem (x : val d) : val d := conv F64 d (Log m (conv d F64 x)).
(** Apply, ApplyWithAlpha (dense.go:1312-1335, 1365-1388) of a function that ignores the indices *)
Definition apply (f : val F64 -> val F64) (x : mat) : mat := mat_unary fzero (fun v => conv F64 d (f (conv d F64 v))) x.
(** Sigmoid (dense.go:989-1010) *)
Definition sigmoid (x : mat) : mat := mat_sigmoid fzero fone fadd fmul fdiv fneg exp_elem x.
(** Softmax (dense.go:1082-1112) *)
Definition softmax (x : mat) : option mat :=
  if negb (is_vector x) then None
  else match mat_max flt x with
       | None => Some (mkDense 0 1 [])
       | Some mx =>
           let out := sub_scalar fzero fadd fneg x (conv F64 d (conv d F64 mx)) in
           match (if (cols out =? 1)%nat then Some out else transpose_in_place out) with
           | None => None
           | Some out =>
               let out := mat_unary fzero exp_elem out in
               Some (mat_const_in_place fzero fmul out (conv F64 d (conv d F64 (fdiv fone (mat_sum fzero fadd out)))))
           end
       end.
(** LogSumExp of one vector (ag/operators.go:510-516): ReduceMax takes the element at ArgMax (reducemax.go:32-36) *)
Definition log_sum_exp (x : mat) : option (val d) :=
  match arg_max flt x with
  | None => None
  | Some i =>
      let mx := nth i (data x) fzero in
      let sum := mat_sum fzero fadd (mat_unary fzero exp_elem (sub_scalar fzero fadd fneg x (conv F64 d (conv d F64 mx)))) in
      Some (fadd mx (log_elem sum))
  end.
(** LogSoftmax (ag/operators.go:503-505) *)
Definition log_softmax (x : mat) : option mat := option_map (mat_unary fzero log_elem) (softmax x).
(** the backward functions of Log (log.go:41-51) and Softmax (softmax.go:32-57), for a column vector; [None] is a panic *)
Fixpoint log_grads (xs gys : list (val d)) : option (list (val d)) :=
  match xs, gys with
  | x :: xs, gy :: gys =>
      match go_log_deriv (conv d F64 x), log_grads xs gys with
      | Some g, Some l => Some (fmul (conv F64 d g) gy :: l)
      | _, _ => None
      end
  | _, _ => Some []
  end.
Definition softmax_jacobian (y : mat) : mat :=
  let n := length (data y) in
  mkDense n n (map (fun k => conv F64 d (
    let vRow := conv d F64 (nth (Nat.div k n) (data y) fzero) in let vCol := conv d F64 (nth (k mod n) (data y) fzero) in
    if (Nat.div k n =? k mod n)%nat then vRow * (one - vRow) else fneg (vRow * vCol))) (seq 0 (n * n))).
Definition softmax_grad (y gy : mat) : option mat :=
  mat_mul fzero fone fadd fmul (fun v => Beqb v fzero) (match d with F32 => false | F64 => true end) (softmax_jacobian y) gy.
(** Backward of LogSoftmax: of Log, on the softmax y, and then of Softmax *)
Definition log_softmax_grad (y gy : mat) : option mat :=
  match log_grads (data y) (data gy) with
  | Some l => softmax_grad y (mkDense (rows y) (cols y) l)
  | None => None
  end.

(** ** Activations *)
Inductive activation :=
  | Tanh_ | HardSigmoid | HardTanh | ReLU | Softsign | CELU (alpha : val F64) | ELU (alpha : val F64)
  | LeakyReLU (alpha : val F64) | SELU (alpha scale : val F64) | SoftPlus (beta threshold : val F64)
  | SoftShrink (lambda : val F64) | Threshold (t k : val F64) | SwishB (beta : val F64) | Mish | GELU | Sigmoid | Swish.
(** the Forward method of each: UnaryElementwise (unaryelementwise.go:26-28), celu.go:34, elu.go:34, leakyrelu.go:34, selu.go:35,
    softplus.go:35, softshrink.go:33, threshold.go:35, swishb.go:36, sigmoid.go:30-33, swish.go:32-36 *)
Definition forward (a : activation) (x : mat) : option mat :=
  match a with
  | Tanh_ => Some (apply go_tanh x)
  | HardSigmoid => Some (apply go_hard_sigmoid x)
  | HardTanh => Some (apply go_hard_tanh x)
  | ReLU => Some (apply go_relu x)
  | Softsign => Some (apply go_softsign x)
  | CELU a => Some (apply (go_celu a) x)
  | ELU a => Some (apply (go_elu a) x)
  | LeakyReLU a => Some (apply (go_leaky a) x)
  | SELU a s => Some (apply (go_selu a s) x)
  | SoftPlus b t => Some (apply (go_softplus b t) x)
  | SoftShrink l => Some (apply (go_softshrink l) x)
  | Threshold t k => Some (apply (go_threshold t k) x)
  | SwishB b => Some (apply (go_swishb b) x)
  | Mish => Some (apply go_mish x)
  | GELU => Some (apply go_gelu x)
  | Sigmoid => Some (sigmoid x)
  | Swish => mat_prod_in_place fzero fmul (sigmoid x) x
  end.
(** the matrix that Backward multiplies by the output gradient (the same files) *)
Definition derivative (a : activation) (x : mat) : mat :=
  match a with
  | Tanh_ => apply go_tanh_deriv x
  | HardSigmoid => apply go_hard_sigmoid_deriv x
  | HardTanh => apply go_hard_tanh_deriv x
  | ReLU => apply go_relu_deriv x
  | Softsign => apply go_softsign_deriv x
  | CELU a => apply (go_celu_deriv a) x
  | ELU a => apply (go_elu_deriv a) x
  | LeakyReLU a => apply (go_leaky_deriv a) x
  | SELU a s => apply (go_selu_deriv a s) x
  | SoftPlus b t => apply (go_softplus_deriv b t) x
  | SoftShrink l => apply (go_softshrink_deriv l) x
  | Threshold t _ => apply (go_threshold_deriv t) x
  | SwishB b => apply (go_swishb_deriv b) x
  | Mish => apply go_mish_deriv x
  | GELU => apply go_gelu_deriv x
  | Sigmoid => apply go_sigmoid_deriv (sigmoid x)
  | Swish => apply go_swish_deriv x
  end.
(** Backward (the same files): [None] is its error or a panic *)
Definition gradient (a : activation) (x gy : mat) : option mat :=
  if same_dims x gy then mat_prod_in_place fzero fmul (derivative a x) gy else None.
End Matrices.
End Functions.
