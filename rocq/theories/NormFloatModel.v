(** * Normalization layers in floating point (package nn/normalization)

    Forward and backward pass of the layers of OpsModel.v again, over the IEEE binary32 and binary64 formats, with every
    rounding, overflow, signed zero, infinity and NaN.  Definitions only.  A vector is the list of its elements; the operands
    of an element-wise operation have the same length, so that no operator fails (DenseModel.v and GradModel.v model the checks).
    Every sum is a parameter, with the number of the call: on amd64 the order of the additions depends on the processor, on the
    length and on the address of the slice.  Every sum by the code adds each element once ([sum_of], AsmSpec.v; PropsAsm.v proves
    it of the kernels and of the loop).  As in NumModel.v no multiplication and addition are fused.
    A gradient is accumulated by AccGrad (mat/dense_grad.go:21-29): the first one is copied, the others are added.  Where a
    node receives several gradients the order of arrival is fixed by the dependencies, or there are only two of them and
    addition is commutative. *)
From Coq Require Import List ZArith Bool.
From Flocq Require Import Core BinarySingleNaN.
From Verif Require Import DenseModel ArithModel FloatModel NumModel OptFloatModel.
Import ListNotations.

(** f of the elements of two vectors of the same length *)
Fixpoint zip {A B C} (f : A -> B -> C) (x : list A) (y : list B) : list C :=
  match x, y with a :: x, b :: y => f a b :: zip f x y | _, _ => [] end.

Section Norm.
Variable m : libm.
Variable d : dtype.
Notation vec := (list (val d)).
Variable sum : nat -> vec -> val d.
Notation at_type := (conv F64 d).
Notation up := (conv d F64).

(** ** Operators *)
(** float64(len) *)
Definition of_size (n : nat) : val F64 := lit (Z.of_nat n) 0.
(** Square (gradfn/square.go: Prod of x and x; dense.go:549-571), and its backward pass: both operands of Prod are x, which
    receives x * gy twice (gradfn/prod.go:38-53) *)
Definition square (x : vec) : vec := zip fmul x x.
(** ReduceMean forward: Sum().ProdScalarInPlace(1 / float64(size)) (gradfn/reducemean.go:31-34) *)
Definition reduce_mean (k : nat) (x : vec) : val d := fmul (sum k x) (at_type (fdiv fone (of_size (length x)))).
(** ReduceMean backward: gy / float64(size) for every element (gradfn/reducemean.go:37-49) *)
Definition reduce_mean_back (n : nat) (gy : val d) : val d := at_type (fdiv (up gy) (of_size n)).
(** ReduceSum backward: float64(gy) for every element (gradfn/reducesum.go:36-46) *)
Definition reduce_sum_back (gy : val d) : val d := at_type (up gy).
(** Sqrt forward (dense.go:932-946) is [elem_sqrt]; backward: Pow(-.5), ProdScalarInPlace(.5), ProdInPlace(gy)
    (gradfn/sqrt.go:36-47, dense.go:916-929) *)
Definition sqrt_back (s gy : val d) : val d :=
  fmul (fmul (at_type (Pow m (up s) (lit (-1) (-1)))) (at_type (lit 1 (-1)))) gy.
(** DivScalar forward: ProdScalar(1.0 / x2) (gradfn/divscalar.go:31-33) *)
Definition recip (x2 : val d) : val d := at_type (fdiv fone (up x2)).
Definition div_scalar (x : vec) (x2 : val d) : vec := map (fun v => fmul v (recip x2)) x.
(** DivScalar backward, to x1 and to x2 (gradfn/divscalar.go:36-52) *)
Definition div_scalar_back (gy : vec) (x2 : val d) : vec := map (fun g => fmul g (recip x2)) gy.
Definition minus_recip_square (x2 : val d) : val d := at_type (fdiv fone (fneg (fmul (up x2) (up x2)))).
Definition div_scalar_back2 (k : nat) (x gy : vec) (x2 : val d) : val d :=
  sum k (zip fmul gy (map (fun v => fmul v (minus_recip_square x2)) x)).
(** SubScalar forward: AddConst of float32(-n) (dense.go:519-531) *)
Definition sub_scalar (x : vec) (n : val d) : vec := map (fun v => fadd v (at_type (fneg (up n)))) x.
(** SubScalar backward, to x2: the sum of gy * -1 (gradfn/subscalar.go:38-51) *)
Definition sub_scalar_back2 (k : nat) (gy : vec) : val d := sum k (map (fun g => fmul g (at_type (lit (-1) 0))) gy).
(** NewScalar(1e-10); 1e-10 is 7737125245533627 * 2^-86 in float64 *)
Definition go_1em10 : val F64 := lit 7737125245533627 (-86).
Definition eps10 : val d := at_type go_1em10.

(** ** FixNorm (fixnorm/fixnorm.go:43-44) *)
(** the sum of squares, the divisor *)
Definition fix_square (x : vec) : val d := sum 0 (square x).
Definition fix_divisor (x : vec) : val d := fadd (elem_sqrt d (fix_square x)) eps10.
Definition fix_norm (x : vec) : vec := div_scalar x (fix_divisor x).
(** the gradient of x, given that of the result: DivScalar, AddScalar (which passes the gradient on), Sqrt, ReduceSum, Square *)
Definition fix_norm_back (x gy : vec) : vec :=
  let g1 := div_scalar_back gy (fix_divisor x) in
  let gn := div_scalar_back2 1 x gy (fix_divisor x) in
  let gs := reduce_sum_back (sqrt_back (fix_square x) gn) in
  let gq := map (fun v => fmul v gs) x in
  zip fadd (zip fadd g1 gq) gq.

(** ** ScaleNorm (scalenorm/scalenorm.go:40-41): the gradients of x and of the gain *)
Definition scale_norm (gain x : vec) : vec := zip fmul (fix_norm x) gain.
Definition scale_norm_back (gain x gy : vec) : vec := fix_norm_back x (zip fmul gain gy).
Definition scale_norm_gain (x gy : vec) : vec := zip fmul (fix_norm x) gy.

(** ** RMSNorm (rmsnorm/rmsnorm.go:49-50): the gradients of x, of W; that of B is gy *)
Definition rms_square (x : vec) : val d := reduce_mean 0 (square x).
Definition rms_divisor (x : vec) : val d := fadd (elem_sqrt d (rms_square x)) eps10.
Definition rms_unit (x : vec) : vec := div_scalar x (rms_divisor x).
Definition rms_norm (w b x : vec) : vec := zip fadd (zip fmul (rms_unit x) w) b.
Definition rms_unit_back (x gy : vec) : vec :=
  let g1 := div_scalar_back gy (rms_divisor x) in
  let gn := div_scalar_back2 1 x gy (rms_divisor x) in
  let gs := reduce_mean_back (length x) (sqrt_back (rms_square x) gn) in
  let gq := map (fun v => fmul v gs) x in
  zip fadd (zip fadd g1 gq) gq.
Definition rms_norm_back (w x gy : vec) : vec := rms_unit_back x (zip fmul w gy).
Definition rms_norm_w (x gy : vec) : vec := zip fmul (rms_unit x) gy.

(** ** LayerNorm (layernorm/layernorm.go:51-54) *)
Definition deviations (x : vec) : vec := sub_scalar x (reduce_mean 0 x).
Definition variance (x : vec) : val d := reduce_mean 1 (square (deviations x)).
Section Layer.
Variable eps : val d.
Definition layer_divisor (x : vec) : val d := elem_sqrt d (fadd (variance x) eps).
Definition layer_unit (x : vec) : vec := div_scalar (deviations x) (layer_divisor x).
Definition layer_norm (w b x : vec) : vec := zip fadd (zip fmul (layer_unit x) w) b.
(** the gradient of the deviations, then of x: SubScalar passes it on to x and minus its sum to the mean *)
Definition layer_unit_back (x gy : vec) : vec :=
  let dev := deviations x in
  let g1 := div_scalar_back gy (layer_divisor x) in
  let gn := div_scalar_back2 2 dev gy (layer_divisor x) in
  let gs := reduce_mean_back (length x) (sqrt_back (fadd (variance x) eps) gn) in
  let gq := map (fun v => fmul v gs) dev in
  let gdev := zip fadd (zip fadd g1 gq) gq in
  let gm := reduce_mean_back (length x) (sub_scalar_back2 3 gdev) in
  map (fun g => fadd g gm) gdev.
Definition layer_norm_back (w x gy : vec) : vec := layer_unit_back x (zip fmul w gy).
Definition layer_norm_w (x gy : vec) : vec := zip fmul (layer_unit x) gy.
End Layer.

(** ** LayerNormSimple (layernormsimple/layernormsimple.go:40-43): the deviations are computed twice, by two nodes *)
Definition simple_divisor (x : vec) : val d := fadd (elem_sqrt d (variance x)) eps10.
Definition simple_norm (x : vec) : vec := div_scalar (deviations x) (simple_divisor x).
Definition simple_norm_back (x gy : vec) : vec :=
  let dev := deviations x in
  let g1 := div_scalar_back gy (simple_divisor x) in
  let gn := div_scalar_back2 2 dev gy (simple_divisor x) in
  let gs := reduce_mean_back (length x) (sqrt_back (variance x) gn) in
  let gq := map (fun v => fmul v gs) dev in
  let g2 := zip fadd gq gq in
  let gm := reduce_mean_back (length x) (fadd (sub_scalar_back2 3 g1) (sub_scalar_back2 4 g2)) in
  map (fun g => fadd g gm) (zip fadd g1 g2).

(** ** AdaNorm (adanorm/adanorm.go:53-55): the deviations and the divisor as in LayerNormSimple (adanorm.go:61-77); fi is
    detached.  ReverseSub(y * k, 1) is y * k * -1 + 1 (gradfn/reversesubscalar.go:33-37); 0.1 is 3602879701896397 * 2^-55 in float64 *)
Section Ada.
Variable scale : val d.
Definition ada_factor (x : vec) : vec :=
  map (fun y => fmul (fadd (fmul (fmul y (at_type (up (at_type (lit 3602879701896397 (-55)))))) (at_type (lit (-1) 0)))
                           (at_type (up (at_type fone)))) (at_type (up scale))) (simple_norm x).
Definition ada_norm (x : vec) : vec := zip fmul (simple_norm x) (ada_factor x).
Definition ada_norm_back (x gy : vec) : vec := simple_norm_back x (zip fmul (ada_factor x) gy).
End Ada.
End Norm.
