(** * The differentiable functions of mat/gradfn, over the real numbers

    One [gfun] per function.  [fwd] models Forward and [bwd] models Backward: the
    operands of the function, in the order of [Operands()], are numbered from 0;
    [bwd xs req gy] lists the [AccGrad] calls made when the operand values are
    [xs], [req k] is operand k's [RequiresGrad] and [gy] the gradient received.
    [None] is a returned error or a panic (the calls made before the error are
    not represented).

    Simplifications, for every function of this file:
    - numbers are real numbers; where float64 gives Inf or NaN the real model
      gives an arbitrary value, and the theorems exclude those points;
    - what Forward stores in the function for Backward (Softmax's result,
      ReduceMax's position, Concat's size) is recomputed from the operand values,
      which do not change between the two;
    - Mul, MulT and Affine make their calls from several goroutines and wait for
      them: the order of the list is one of the possible orders;
    - the element type is erased ([wide] selects between the float64 and the
      float32 product kernels). *)
From Coq Require Import Reals List Arith Bool ZArith.
From Verif Require Import DenseModel ArithModel.
Import ListNotations.
Open Scope R_scope.

Notation mat := (dense R).

Record gfun := mkG {
  fwd : list mat -> option mat;
  bwd : list mat -> (nat -> bool) -> mat -> option (list (nat * mat)) }.

Definition bind {A B} (o : option A) (k : A -> option B) : option B :=
  match o with Some a => k a | None => None end.
Notation "'do' x <- e ; k" := (bind e (fun x => k)) (at level 200, x name, e at level 100, k at level 200).

(** if x.RequiresGrad() { x.AccGrad(g) } *)
Definition when (b : bool) (k : nat) (g : option mat) : option (list (nat * mat)) :=
  if b then do v <- g; Some [(k, v)] else Some [].
Definition both (a b : option (list (nat * mat))) : option (list (nat * mat)) :=
  do u <- a; do v <- b; Some (u ++ v).
(** if !SameDims(...) { return error } *)
Definition guard {A} (b : bool) (k : option A) : option A := if b then k else None.

(** Go's comparisons of floats *)
Definition Rltb (a b : R) : bool := if Rlt_dec a b then true else false.
Definition Rleb (a b : R) : bool := if Rle_dec a b then true else false.
Definition Ris0 (a : R) : bool := if Req_EM_T a 0 then true else false.

(** The Dense methods of DenseModel.v and ArithModel.v, at the real numbers *)
Definition m_add : mat -> mat -> option mat := mat_binary 0 Rplus.
Definition m_add_in : mat -> mat -> option mat := mat_binary_in_place 0 Rplus.
Definition m_sub : mat -> mat -> option mat := mat_binary 0 Rminus.
Definition m_div : mat -> mat -> option mat := mat_binary 0 Rdiv.
Definition m_div_in : mat -> mat -> option mat := mat_binary_in_place 0 Rdiv.
Definition m_prod : mat -> mat -> option mat := mat_prod 0 Rmult.
Definition m_prod_in : mat -> mat -> option mat := mat_prod_in_place 0 Rmult.
Definition m_adds (m : mat) (v : R) : mat := mat_const 0 Rplus m v.
Definition m_adds_in (m : mat) (v : R) : mat := mat_const_in_place 0 Rplus m v.
Definition m_subs (m : mat) (v : R) : mat := sub_scalar 0 Rplus Ropp m v.
Definition m_prods (m : mat) (v : R) : mat := mat_const 0 Rmult m v.
Definition m_prods_in (m : mat) (v : R) : mat := mat_const_in_place 0 Rmult m v.
Definition m_mul (wide : bool) : mat -> mat -> option mat := mat_mul 0 1 Rplus Rmult Ris0 wide.
Definition m_mul_t : mat -> mat -> option mat := mat_mul_t 0 Rplus Rmult.
Definition m_dot : mat -> mat -> option mat := mat_dot 0 Rplus Rmult.
Definition m_sum (m : mat) : mat := scalar (mat_sum 0 Rplus m).
Definition m_unary (f : R -> R) (m : mat) : mat := mat_unary 0 f m.
Definition m_sigmoid (m : mat) : mat := mat_sigmoid 0 1 Rplus Rmult Rdiv Ropp exp m.
Definition m_apply (f : R -> R) (m : mat) : mat := apply m (fun _ _ v => f v).
Definition m_t : mat -> mat := transpose 0.
Definition m_zeros_like : mat -> mat := zeros_like 0.

(** for i := from; i < from+fuel; i++ { body }, the body may panic *)
Fixpoint loop_opt {A} (body : nat -> A -> option A) (i fuel : nat) (st : A) : option A :=
  match fuel with O => Some st | S f => do st <- body i st; loop_opt body (S i) f st end.

Definition un (f : mat -> option mat) (xs : list mat) : option mat := match xs with [x] => f x | _ => None end.
Definition bin (f : mat -> mat -> option mat) (xs : list mat) : option mat := match xs with [a; b] => f a b | _ => None end.
Definition un_b (f : mat -> (nat -> bool) -> mat -> option (list (nat * mat))) (xs : list mat) (req : nat -> bool) (gy : mat) :=
  match xs with [x] => f x req gy | _ => None end.
Definition bin_b (f : mat -> mat -> (nat -> bool) -> mat -> option (list (nat * mat))) (xs : list mat) (req : nat -> bool) (gy : mat) :=
  match xs with [a; b] => f a b req gy | _ => None end.

(** ** Sums, differences, products *)

(** mat/gradfn/add.go:34-57 *)
Definition add_fn : gfun := mkG (bin m_add)
  (bin_b (fun x1 x2 req gy =>
     both (when (req 0%nat) 0 (guard (same_dims x1 gy) (Some gy)))
          (when (req 1%nat) 1 (guard (same_dims x2 gy) (Some gy))))).

(** mat/gradfn/sub.go:33-52 *)
Definition sub_fn : gfun := mkG (bin m_sub)
  (bin_b (fun x1 x2 req gy =>
     guard (same_dims x1 gy && same_dims x2 gy)
       (both (when (req 0%nat) 0 (Some gy)) (when (req 1%nat) 1 (Some (m_prods gy (-1))))))).

(** mat/gradfn/prod.go:33-53; Square (square.go:14-19) is Prod with the same operand twice *)
Definition prod_fn : gfun := mkG (bin m_prod)
  (bin_b (fun x1 x2 req gy =>
     guard (same_dims x1 gy && same_dims x2 gy)
       (both (when (req 0%nat) 0 (m_prod x2 gy)) (when (req 1%nat) 1 (m_prod x1 gy))))).

(** mat/gradfn/div.go:33-56 *)
Definition div_fn : gfun := mkG (bin m_div)
  (bin_b (fun x1 x2 req gy =>
     guard (same_dims x1 gy && same_dims x2 gy)
       (both (when (req 0%nat) 0 (m_div gy x2))
             (when (req 1%nat) 1
                (do x2sq <- m_prod x2 x2; do gx <- m_prod x1 gy; m_div_in (m_prods_in gx (-1)) x2sq))))).

(** mat/gradfn/addscalar.go:34-51 *)
Definition add_scalar_fn : gfun := mkG
  (bin (fun x1 x2 => do s <- item x2; Some (m_adds x1 s)))
  (bin_b (fun x1 x2 req gy =>
     guard (same_dims x1 gy) (both (when (req 0%nat) 0 (Some gy)) (when (req 1%nat) 1 (Some (m_sum gy)))))).

(** mat/gradfn/subscalar.go:33-51 *)
Definition sub_scalar_fn : gfun := mkG
  (bin (fun x1 x2 => do s <- item x2; Some (m_subs x1 s)))
  (bin_b (fun x1 x2 req gy =>
     guard (same_dims x1 gy) (both (when (req 0%nat) 0 (Some gy)) (when (req 1%nat) 1 (Some (m_sum (m_prods gy (-1)))))))).

(** mat/gradfn/reversesubscalar.go:33-53 *)
Definition reverse_sub_fn : gfun := mkG
  (bin (fun x1 x2 => do s <- item x2; Some (m_adds_in (m_prods x1 (-1)) s)))
  (bin_b (fun x1 x2 req gy =>
     guard (same_dims x1 gy) (both (when (req 0%nat) 0 (Some (m_prods gy (-1)))) (when (req 1%nat) 1 (Some (m_sum gy)))))).

(** mat/gradfn/prodscalar.go:33-52 *)
Definition prod_scalar_fn : gfun := mkG
  (bin (fun x1 x2 => do s <- item x2; Some (m_prods x1 s)))
  (bin_b (fun x1 x2 req gy =>
     guard (same_dims x1 gy)
       (both (when (req 0%nat) 0 (do s <- item x2; Some (m_prods gy s)))
             (when (req 1%nat) 1 (do p <- m_prod gy x1; Some (m_sum p)))))).

(** mat/gradfn/divscalar.go:31-52 *)
Definition div_scalar_fn : gfun := mkG
  (bin (fun x1 x2 => do s <- item x2; Some (m_prods x1 (1 / s))))
  (bin_b (fun x1 x2 req gy =>
     guard (same_dims x1 gy)
       (both (when (req 0%nat) 0 (do s <- item x2; Some (m_prods gy (1 / s))))
             (when (req 1%nat) 1 (do s <- item x2; do b <- m_prod gy (m_prods x1 (1 / - (s * s))); Some (m_sum b)))))).

Section Products.
Variable wide : bool.

(** mat/gradfn/mul.go:34-70.  The two gradients are computed and accumulated in
    two goroutines. *)
Definition mul_grad_w (x gy : mat) : option mat := m_mul wide gy (m_t x).
Definition mul_grad_x (w gy : mat) : option mat := if (cols gy =? 1)%nat then m_mul_t w gy else m_mul wide (m_t w) gy.
Definition mul_fn : gfun := mkG (bin (m_mul wide))
  (bin_b (fun x1 x2 req gy =>
     guard ((rows x1 =? rows gy)%nat && (cols x2 =? cols gy)%nat)
       (both (when (req 0%nat) 0 (mul_grad_w x2 gy)) (when (req 1%nat) 1 (mul_grad_x x1 gy))))).

(** mat/gradfn/mult.go:28-67 *)
Definition mul_t_fn : gfun := mkG (bin m_mul_t)
  (bin_b (fun x1 x2 req gy =>
     both (when (req 0%nat) 0 (do gx <- m_mul wide gy (m_t x2); Some (m_t gx)))
          (when (req 1%nat) 1 (if (cols gy =? 1)%nat then m_mul wide x1 gy else m_mul_t x1 gy)))).

(** NewAffine (affine.go:37-57): pairs whose x is nil are dropped; an odd number
    of arguments panics. *)
Fixpoint affine_pairs {A} (l : list (option A)) : option (list (option A)) :=
  match l with
  | [] => Some []
  | [_] => None
  | w :: x :: l => do r <- affine_pairs l; match x with None => Some r | Some _ => Some (w :: x :: r) end
  end.

(** mat/gradfn/affine.go:71-80; the operands are b, w1, x1, w2, x2, ... (60-66) *)
Fixpoint affine_loop (wx : list mat) (y : mat) : option mat :=
  match wx with
  | [] => Some y
  | [_] => None
  | w :: x :: wx => do p <- m_mul wide w x; do y <- m_add_in y p; affine_loop wx y
  end.
(** backwardWX (affine.go:93-126) for the pairs from operand number k on *)
Fixpoint affine_back (k : nat) (wx : list mat) (req : nat -> bool) (gy : mat) : option (list (nat * mat)) :=
  match wx with
  | [] => Some []
  | [_] => None
  | w :: x :: wx =>
      guard ((rows w =? rows gy)%nat && (cols x =? cols gy)%nat)
        (both (both (when (req k) k (mul_grad_w x gy)) (when (req (S k)) (S k) (mul_grad_x w gy)))
              (affine_back (S (S k)) wx req gy))
  end.
Definition affine_fn : gfun := mkG
  (fun xs => match xs with
             | b :: w1 :: x1 :: wx => do p <- m_mul wide w1 x1; do y <- m_add_in p b; affine_loop wx y
             | _ => None
             end)
  (fun xs req gy => match xs with
             | b :: wx => both (when (req 0%nat) 0 (guard (same_dims b gy) (Some gy))) (affine_back 1 wx req gy)
             | _ => None
             end).

End Products.

(** mat/gradfn/dot.go:34-62 *)
Definition dot_fn : gfun := mkG
  (bin (fun x1 x2 =>
     guard (same_dims x1 x2)
       (if is_vector x1 && is_vector x2 then m_dot x1 x2 else do p <- m_prod x1 x2; Some (m_sum p))))
  (bin_b (fun x1 x2 req gy =>
     guard (is_scalar gy)
       (do g <- item gy;
        both (when (req 0%nat) 0 (Some (m_prods x2 g))) (when (req 1%nat) 1 (Some (m_prods x1 g)))))).

(** ** Element-wise functions *)

(** UnaryElementwise (mat/gradfn/unaryelementwise.go:26-41) *)
Definition unary_fn (f df : R -> R) : gfun := mkG
  (un (fun x => Some (m_apply f x)))
  (un_b (fun x req gy => guard (same_dims x gy) (when (req 0%nat) 0 (m_prod_in (m_apply df x) gy)))).

(** The functions and derivatives of mat/gradfn/misc.go *)
(** misc.go:232-240 *)
Definition abs_deriv (v : R) : R := if Rltb v 0 then -1 else if Rltb 0 v then 1 else 0.
(** misc.go:242-257; math.Pow(t, 2) is t^2 *)
Definition tan_deriv (v : R) : R := let c := cos v in 1 / (c * c).
Definition tanh_deriv (v : R) : R := 1 - (tanh v) ^ 2.
(** misc.go:259-274 *)
Definition hard_sigmoid (v : R) : R := if Rltb 2.5 v then 1 else if Rltb v (-2.5) then 0 else 0.2 * v + 0.5.
Definition hard_sigmoid_deriv (v : R) : R := if Rltb v 2.5 && Rltb (-2.5) v then 0.2 else 0.
(** misc.go:276-291 *)
Definition hard_tanh (v : R) : R := if Rltb 1 v then 1 else if Rltb v (-1) then -1 else v.
Definition hard_tanh_deriv (v : R) : R := if Rltb v 1 && Rltb (-1) v then 1 else 0.
(** misc.go:293-302 *)
Definition relu (v : R) : R := Rmax 0 v.
Definition relu_deriv (v : R) : R := if Rleb 0 v then 1 else 0.
(** misc.go:304-310 *)
Definition softsign (v : R) : R := v / (1 + Rabs v).
Definition softsign_deriv (v : R) : R := (1 - Rabs (softsign v)) ^ 2.
(** misc.go:312-330 *)
Definition celu (alpha v : R) : R := if Rleb v 0 then alpha * (exp (v / alpha) - 1) else v.
Definition celu_deriv (alpha v : R) : R := if Rleb v 0 then exp (v / alpha) else 1.
(** misc.go:332-350 *)
Definition elu (alpha v : R) : R := if Rleb v 0 then alpha * (exp v - 1) else v.
Definition elu_deriv (alpha v : R) : R := if Rleb v 0 then alpha * exp v else 1.
(** misc.go:352-370 *)
Definition leaky_relu (alpha v : R) : R := if Rleb v 0 then alpha * v else v.
Definition leaky_relu_deriv (alpha v : R) : R := if Rleb v 0 then alpha else 1.
(** misc.go:374-396 *)
Definition selu (alpha scale v : R) : R := if Rleb v 0 then scale * alpha * (exp v - 1) else scale * v.
Definition selu_deriv (alpha scale v : R) : R := if Rleb v 0 then scale * alpha * exp v else scale.
(** misc.go:398-421 *)
Definition soft_plus (beta threshold v : R) : R := if Rleb v threshold then (1 / beta) * ln (1 + exp (beta * v)) else v.
Definition soft_plus_deriv (beta threshold v : R) : R :=
  if Rleb v threshold then let e := exp (v * beta) in e / (e + 1) else 1.
(** misc.go:423-443 *)
Definition soft_shrink (lambda v : R) : R := if Rltb v (- lambda) then v + lambda else if Rltb lambda v then v - lambda else 0.
Definition soft_shrink_deriv (lambda v : R) : R := if Rltb v (- lambda) then 1 else if Rltb lambda v then 1 else 0.
(** misc.go:445-466 *)
Definition threshold_f (t k v : R) : R := if Rleb v t then k else v.
Definition threshold_deriv (t k v : R) : R := if Rleb v t then 0 else 1.
(** misc.go:468-482 *)
Definition swish_b (beta v : R) : R := v * (1 / (1 + exp (beta * - v))).
Definition swish_b_deriv (beta v : R) : R :=
  let p := v * beta in let e := exp p in e * (e + p + 1) / ((e + 1) * (e + 1)).
Definition swish_b_beta_deriv (v beta : R) : R :=
  let p := v * beta in let e := exp (- p) in (v * v * e) / ((e + 1) * (e + 1)).
(** misc.go:486-497 *)
Definition mish (v : R) : R := v * tanh (ln (1 + exp v)).
Definition mish_deriv (v : R) : R :=
  let e := exp v in let e2 := exp (2 * v) in let e3 := exp (3 * v) in
  let omega := 4 * (v + 1) + 4 * e2 + e3 + e * (4 * v + 6) in
  let delta := 2 * e + e2 + 2 in
  e * (omega / (delta * delta)).
(** misc.go:499-508 *)
Definition gelu (v : R) : R := 0.5 * v * (1 + tanh (sqrt (2 / PI) * (v + 0.044715 * v ^ 3))).
Definition gelu_deriv (x : R) : R :=
  let x3 := x ^ 3 in
  0.5 * tanh (0.0356774 * x3 + 0.797885 * x) +
  (0.0535161 * x3 + 0.398942 * x) * (1 / cosh (0.0356774 * x3 + 0.797885 * x)) ^ 2 + 0.5.
(** swish.go:51-55 *)
Definition swish_deriv (v : R) : R := let e := exp v in let e1 := e + 1 in e * (e1 + v) / (e1 * e1).

(** mat/gradfn/misc.go:14-229 *)
Definition tan_fn := unary_fn tan tan_deriv.
Definition tanh_fn := unary_fn tanh tanh_deriv.
Definition hard_sigmoid_fn := unary_fn hard_sigmoid hard_sigmoid_deriv.
Definition hard_tanh_fn := unary_fn hard_tanh hard_tanh_deriv.
Definition relu_fn := unary_fn relu relu_deriv.
Definition softsign_fn := unary_fn softsign softsign_deriv.
Definition cos_fn := unary_fn cos (fun v => - sin v).
Definition sin_fn := unary_fn sin cos.
Definition neg_fn := unary_fn (fun v => - v) (fun _ => -1).
Definition reciprocal_fn := unary_fn (fun v => 1 / v) (fun v => -1 / (v * v)).
Definition abs_fn := unary_fn Rabs abs_deriv.
Definition mish_fn := unary_fn mish mish_deriv.
Definition gelu_fn := unary_fn gelu gelu_deriv.

(** CELU, ELU, LeakyReLU, SoftShrink (celu.go:34-49, elu.go:34-50,
    leakyrelu.go:34-49, softshrink.go:33-48): a scalar operand that is listed
    but never handed a gradient. *)
Definition unary1_fn (f df : R -> R -> R) : gfun := mkG
  (bin (fun x a => do a <- item a; Some (m_apply (f a) x)))
  (bin_b (fun x a req gy =>
     guard (same_dims x gy) (when (req 0%nat) 0 (do a <- item a; m_prod_in (m_apply (df a) x) gy)))).
Definition celu_fn := unary1_fn celu celu_deriv.
Definition elu_fn := unary1_fn elu elu_deriv.
Definition leaky_relu_fn := unary1_fn leaky_relu leaky_relu_deriv.
Definition soft_shrink_fn := unary1_fn soft_shrink soft_shrink_deriv.

(** SELU, SoftPlus, Threshold (selu.go:35-58, softplus.go:35-58,
    threshold.go:35-59): two such operands. *)
Definition unary2_fn (f df : R -> R -> R -> R) : gfun := mkG
  (fun xs => match xs with
             | [x; a; b] => do a <- item a; do b <- item b; Some (m_apply (f a b) x)
             | _ => None end)
  (fun xs req gy => match xs with
             | [x; a; b] => guard (same_dims x gy)
                 (when (req 0%nat) 0 (do a <- item a; do b <- item b; m_prod_in (m_apply (df a b) x) gy))
             | _ => None end).
Definition selu_fn := unary2_fn selu selu_deriv.
Definition soft_plus_fn := unary2_fn soft_plus soft_plus_deriv.
Definition threshold_fn := unary2_fn threshold_f threshold_deriv.

(** mat/gradfn/sigmoid.go:31-49 *)
Definition sigmoid_fn : gfun := mkG
  (un (fun x => Some (m_sigmoid x)))
  (un_b (fun x req gy => guard (same_dims x gy)
     (when (req 0%nat) 0 (m_prod_in (m_apply (fun v => v * (1 - v)) (m_sigmoid x)) gy)))).

(** mat/gradfn/swish.go:32-49; SiLU (misc.go:226-230) is Swish *)
Definition swish_fn : gfun := mkG
  (un (fun x => m_prod_in (m_sigmoid x) x))
  (un_b (fun x req gy => guard (same_dims x gy) (when (req 0%nat) 0 (m_prod_in (m_apply swish_deriv x) gy)))).

(** mat/gradfn/swishb.go:36-62 *)
Fixpoint swish_b_loop (beta : R) (gy : mat) (i : nat) (xs : list R) (gb : mat) : option mat :=
  match xs with
  | [] => Some gb
  | x :: xs => do g <- at_ gy [Z.of_nat i];
      swish_b_loop beta gy (S i) xs (m_adds_in gb (swish_b_beta_deriv x beta * g))
  end.
Definition swish_b_fn : gfun := mkG
  (bin (fun x b => do b <- item b; Some (m_apply (swish_b b) x)))
  (bin_b (fun x b req gy => guard (same_dims x gy)
     (both (when (req 0%nat) 0 (do b <- item b; m_prod_in (m_apply (swish_b_deriv b) x) gy))
           (when (req 1%nat) 1 (do beta <- item b; swish_b_loop beta gy 0 (data x) (m_zeros_like b)))))).

(** mat/gradfn/exp.go:31-46 *)
Definition exp_fn : gfun := mkG
  (un (fun x => Some (m_unary exp x)))
  (un_b (fun x req gy => guard (same_dims x gy) (when (req 0%nat) 0 (m_prod_in (m_unary exp x) gy)))).

(** mat/gradfn/log.go:31-56: safeLogDeriv panics on a negative value *)
Definition safe_log_deriv (v : R) : R := if Rltb 0 v then 1 / v else 1 / 1e-08.
Definition log_fn : gfun := mkG
  (un (fun x => Some (m_unary ln x)))
  (un_b (fun x req gy => guard (same_dims x gy)
     (when (req 0%nat) 0 (guard (forallb (fun v => Rleb 0 v) (data x)) (m_prod_in (m_apply safe_log_deriv x) gy))))).

(** math.Pow: x^p for x > 0; for a negative x only integer powers have a value
    (NaN otherwise: arbitrary here). *)
Definition go_pow (x p : R) : R :=
  if Ris0 p then 1
  else if Rltb 0 x then Rpower x p
  else if Ris0 x then 0
  else let n := Int_part p in
       if Req_EM_T p (IZR n) then if Z.even n then Rpower (- x) p else - Rpower (- x) p
       else 0.
(** mat/gradfn/pow.go:33-48 *)
Definition pow_fn (p : R) : gfun := mkG
  (un (fun x => Some (m_unary (fun v => go_pow v p) x)))
  (un_b (fun x req gy => guard (same_dims x gy)
     (when (req 0%nat) 0 (m_prod_in (m_prods_in (m_unary (fun v => go_pow v (p - 1)) x) p) gy)))).
(** mat/gradfn/sqrt.go:31-47 *)
Definition sqrt_fn : gfun := mkG
  (un (fun x => Some (m_unary sqrt x)))
  (un_b (fun x req gy => guard (same_dims x gy)
     (when (req 0%nat) 0 (m_prod_in (m_prods_in (m_unary (fun v => go_pow v (-0.5)) x) 0.5) gy)))).

(** mat/gradfn/dropout.go:41-63, for the mask drawn by Forward: [draw] is the
    result of bernulli.Distribution; with probability 1 the mask is zero. *)
Definition dropout_mask (p : R) (draw x : mat) : mat :=
  let q := 1 - p in if Rltb 0 q then m_prods_in draw (1 / q) else m_zeros_like x.
Definition dropout_fn (p : R) (draw : mat) : gfun := mkG
  (un (fun x => m_prod x (dropout_mask p draw x)))
  (un_b (fun x req gy => guard (same_dims x gy) (when (req 0%nat) 0 (m_prod gy (dropout_mask p draw x))))).

(** ** Rearrangements *)

(** mat/gradfn/identity.go:32-43: the gradient is handed on without asking
    whether it is required *)
Definition copy_fn : gfun := mkG
  (un (fun x => Some (clone x)))
  (un_b (fun x req gy => guard (same_dims x gy) (Some [(0%nat, gy)]))).

(** mat/gradfn/transpose.go:31-45 *)
Definition transpose_fn : gfun := mkG
  (un (fun x => Some (m_t x)))
  (un_b (fun x req gy =>
     guard (negb (negb (cols x =? rows gy)%nat && negb (rows x =? cols gy)%nat)) (when (req 0%nat) 0 (Some (m_t gy))))).

Definition shape_of (x : mat) : list Z := [Z.of_nat (rows x); Z.of_nat (cols x)].
(** mat/gradfn/reshape.go:36-50 *)
Definition reshape_fn (r c : Z) : gfun := mkG
  (un (fun x => reshape x [r; c]))
  (un_b (fun x req gy =>
     guard (negb (negb (Z.of_nat (cols gy) =? c)%Z && negb (Z.of_nat (rows gy) =? r)%Z))
       (when (req 0%nat) 0 (reshape gy (shape_of x))))).
(** mat/gradfn/flatten.go:31-45 *)
Definition flatten_fn : gfun := mkG
  (un (fun x => Some (flatten x)))
  (un_b (fun x req gy =>
     guard (is_vector gy && (length (data x) =? length (data gy))%nat) (when (req 0%nat) 0 (reshape gy (shape_of x))))).

(** mat/gradfn/at.go:31-43 *)
Definition at_fn (idx : list Z) : gfun := mkG
  (un (fun x => do v <- at_ x idx; Some (scalar v)))
  (un_b (fun x req gy => when (req 0%nat) 0 (do v <- item gy; set_ (m_zeros_like x) v idx))).

(** mat/gradfn/colview.go:36-53 (NewColView refuses a negative index, 19-22) *)
Definition col_view_fn (j : Z) : gfun := mkG
  (un (fun x => extract_column 0 x j))
  (un_b (fun x req gy =>
     guard (rows x =? length (data gy))%nat
       (when (req 0%nat) 0
          (loop_opt (fun i gx => do v <- at_ gy [Z.of_nat i]; set_ gx v [Z.of_nat i; j]) 0 (rows x) (m_zeros_like x))))).
(** mat/gradfn/rowview.go:36-53 *)
Definition row_view_fn (i : Z) : gfun := mkG
  (un (fun x => extract_row x i))
  (un_b (fun x req gy =>
     guard (cols x =? length (data gy))%nat
       (when (req 0%nat) 0
          (loop_opt (fun j gx => do v <- at_ gy [0%Z; Z.of_nat j]; set_ gx v [i; Z.of_nat j]) 0 (cols x) (m_zeros_like x))))).
(** mat/gradfn/slice.go:39-60 *)
Definition slice_fn (fr fc tr tc : Z) : gfun := mkG
  (un (fun x => submatrix x fr fc tr tc))
  (un_b (fun x req gy =>
     let lx := (tr - fr)%Z in let ly := (tc - fc)%Z in
     guard ((Z.of_nat (rows gy) =? lx)%Z && (Z.of_nat (cols gy) =? ly)%Z)
       (when (req 0%nat) 0
          (loop_opt (fun i gx => loop_opt (fun j gx =>
               do v <- at_ gy [Z.of_nat i; Z.of_nat j]; set_ gx v [(Z.of_nat i + fr)%Z; (Z.of_nat j + fc)%Z])
             0 (Z.to_nat ly) gx) 0 (Z.to_nat lx) (m_zeros_like x))))).

(** rotate (mat/gradfn/rotater.go:44-49) *)
Definition rotate_m (m : mat) (i : Z) : option mat :=
  let size := Z.of_nat (length (data m)) in
  do left <- submatrix m 0 0 i 1; do right <- submatrix m i 0 size 1; concat_v [right; left].
(** mat/gradfn/rotater.go:30-42 *)
Definition rotate_fn (k : Z) : gfun := mkG
  (un (fun x => rotate_m x (Z.of_nat (length (data x)) - k)))
  (un_b (fun x req gy => when (req 0%nat) 0 (rotate_m gy k))).

(** if xs[i].RequiresGrad() { xs[i].AccGrad(gs[i]) } for every i from k on *)
Fixpoint hand_out (k : nat) (req : nat -> bool) (gs : list mat) : list (nat * mat) :=
  match gs with
  | [] => []
  | g :: gs => (if req k then [(k, g)] else []) ++ hand_out (S k) req gs
  end.
(** mat/gradfn/concat.go:33-63 *)
Definition concat_fn : gfun := mkG
  (fun xs => match xs with [] => None | _ => concat_v xs end)
  (fun xs req gy =>
     guard (fold_left (fun s x => s + length (data x)) xs 0 =? length (data gy))%nat
       (do gs <- split_v gy [] (map (fun x => Z.of_nat (length (data x))) xs); Some (hand_out 0 req gs))).

Fixpoint for_each (k : nat) (req : nat -> bool) (f : nat -> mat -> option mat) (xs : list mat) : option (list (nat * mat)) :=
  match xs with
  | [] => Some []
  | x :: xs => both (when (req k) k (f k x)) (for_each (S k) req f xs)
  end.
(** mat/gradfn/stack.go:30-55 *)
Definition stack_fn : gfun := mkG
  (fun xs => match xs with [] => None | _ => stack 0 xs end)
  (fun xs req gy =>
     guard (rows gy =? length xs)%nat
       (for_each 0 req (fun i x => do row <- extract_row gy (Z.of_nat i); reshape row (shape_of x)) xs)).
(** mat/gradfn/appendrows.go:32-62 *)
Definition append_rows_fn : gfun := mkG
  (fun xs => match xs with x :: vs => append_rows 0 x vs | [] => None end)
  (fun xs req gy => match xs with
     | x :: vs =>
         guard (rows gy =? rows x + length vs)%nat
           (both (when (req 0%nat) 0 (submatrix gy 0 0 (Z.of_nat (rows x)) (Z.of_nat (cols x))))
                 (for_each 1 req (fun i _ => extract_row gy (Z.of_nat (rows x + (i - 1)))) vs))
     | [] => None end).

(** ** Reductions and maxima *)

(** mat/gradfn/reducesum.go:31-46: the gradient is a column of size elements *)
Definition filled (n : nat) (v : R) : mat := mkDense n 1 (repeat v n).
Definition reduce_sum_fn : gfun := mkG
  (un (fun x => Some (m_sum x)))
  (un_b (fun x req gy => guard (is_scalar gy)
     (when (req 0%nat) 0 (do v <- item gy; Some (filled (length (data x)) v))))).
(** mat/gradfn/reducemean.go:31-49 *)
Definition reduce_mean_fn : gfun := mkG
  (un (fun x => Some (m_prods_in (m_sum x) (1 / INR (length (data x))))))
  (un_b (fun x req gy => guard (is_scalar gy)
     (when (req 0%nat) 0 (do v <- item gy; Some (filled (length (data x)) (v / INR (length (data x)))))))).
(** mat/gradfn/reducemax.go:33-51 *)
Definition reduce_max_fn : gfun := mkG
  (un (fun x => do k <- arg_max Rltb x; do v <- at_ x [Z.of_nat k]; Some (scalar v)))
  (un_b (fun x req gy => guard (is_scalar gy)
     (when (req 0%nat) 0 (do k <- arg_max Rltb x; do v <- item gy; set_ (m_zeros_like x) v [Z.of_nat k])))).

(** mat/gradfn/max.go:34-74, min.go:34-73: NewMatrix(WithBacking(data)) without a
    shape makes a column *)
Definition select (win : R -> R -> bool) (a b gy : mat) : mat :=
  let n := length (data gy) in
  mkDense n 1 (map (fun i => if win (nth i (data a) 0) (nth i (data b) 0) then nth i (data gy) 0 else 0) (seq 0 n)).
Definition extremum_fn (combine : mat -> mat -> option mat) (win : R -> R -> bool) : gfun := mkG
  (bin combine)
  (bin_b (fun x1 x2 req gy =>
     guard (same_dims x1 gy && same_dims x2 gy)
       (both (when (req 0%nat) 0 (Some (select win x1 x2 gy))) (when (req 1%nat) 1 (Some (select win x2 x1 gy)))))).
Definition max_fn : gfun := extremum_fn (mat_maximum 0 Rltb) (fun a b => Rltb b a).
Definition min_fn : gfun := extremum_fn (mat_minimum 0 Rltb) (fun a b => Rltb a b).

(** mat/gradfn/scalarmax.go:31-59: the running maximum starts at 0, the position at 0 *)
Fixpoint scalar_max_loop (i : nat) (xs : list mat) (mx : R) (arg : nat) : option nat :=
  match xs with
  | [] => Some arg
  | x :: xs => do v <- item x; if Rltb mx v then scalar_max_loop (S i) xs v i else scalar_max_loop (S i) xs mx arg
  end.
Definition scalar_max_fn : gfun := mkG
  (fun xs => match xs with [] => None | _ => do k <- scalar_max_loop 0 xs 0 0; do x <- nth_error xs k; Some (clone x) end)
  (fun xs req gy => guard (is_scalar gy) (do k <- scalar_max_loop 0 xs 0 0; when (req k) k (Some gy))).

(** ** Softmax *)

(** Dense.Softmax (mat/dense.go:1082-1113): the maximum is subtracted, a row is
    turned into a column, then exp, sum and scaling in place.  That turning a row
    also turns the receiver (its shape is shared) is the subject of C22. *)
Definition m_softmax (x : mat) : option mat :=
  if negb (is_vector x) then None
  else match mat_max Rltb x with
       | None => Some (mkDense 0 1 [])
       | Some mx =>
           let out := m_subs x mx in
           do out <- (if (cols out =? 1)%nat then Some out else transpose_in_place out);
           let out := m_unary exp out in
           Some (m_prods_in out (1 / mat_sum 0 Rplus out))
       end.
(** the operand after Forward: Softmax shares its shape with the result (dense.go:521, 1093-1095), so a row has become a column *)
Definition after_softmax (x : mat) : mat := if (cols x =? 1)%nat then x else mkDense (cols x) (rows x) (data x).
(** mat/gradfn/softmax.go:32-57 *)
Definition softmax_jacobian (y : mat) : mat :=
  let n := length (data y) in
  mkDense n n (initialize 0 n n (fun row col =>
    let vr := nth row (data y) 0 in
    if (row =? col)%nat then vr * (1 - vr) else - (vr * nth col (data y) 0))).
Definition softmax_fn (wide : bool) : gfun := mkG
  (un m_softmax)
  (un_b (fun x req gy => guard (same_dims (after_softmax x) gy)
     (when (req 0%nat) 0 (do y <- m_softmax x; m_mul wide (softmax_jacobian y) gy)))).
