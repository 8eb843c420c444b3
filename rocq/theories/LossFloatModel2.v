(** * Losses in floating point: the gradients of MAE, MSE and NLL (package losses)

    Backward pass of the graphs these losses build, as in LossFloatModel.v.  Definitions only. *)
From Coq Require Import List ZArith Bool.
From Flocq Require Import Core BinarySingleNaN.
From Verif Require Import FloatModel NumModel NormFloatModel LossFloatModel.
Import ListNotations.

Section Back.
Variable d : dtype.
Notation vec := (list (val d)).
Notation at_type := (conv F64 d).
Notation up := (conv d F64).

(** absDeriv (gradfn/misc.go:232-240) *)
Definition abs_deriv (v : val F64) : val F64 := if flt v fzero then fneg fone else if flt fzero v then fone else fzero.
(** ReduceMean or ReduceSum backward, the gradient of every element (gradfn/reducemean.go:37-49, reducesum.go:36-46) *)
Definition reduce_back (mean : bool) (n : nat) (gy : val d) : val d := if mean then reduce_mean_back d n gy else reduce_sum_back d gy.
(** Sub backward (gradfn/sub.go:39-54): gy for the first operand, gy * -1 for the second *)
Definition sub_grads (g : vec) : vec * vec := (g, map (minus d) g).
(** MAE (losses.go:13-19): Abs backward (gradfn/misc.go:178-186, unaryelementwise.go:32-43), then Sub; the gradients of x and y *)
Definition mae_back (mean : bool) (x y : vec) (gy : val d) : vec * vec :=
  let gs := reduce_back mean (length x) gy in
  sub_grads (map (fun v => fmul (at_type (abs_deriv (up v))) gs) (differences d x y)).
(** MSE (losses.go:22-28): ProdScalar backward by 0.5 (gradfn/prodscalar.go:36-50), Square, which is Prod of x and x and so
    accumulates the same gradient twice (gradfn/prod.go:38-53), then Sub *)
Definition mse_back (mean : bool) (x y : vec) (gy : val d) : vec * vec :=
  let gp := fmul (reduce_back mean (length x) gy) (at_type (up (at_type (lit 1 (-1))))) in
  sub_grads (map (fun v => fadd (fmul v gp) (fmul v gp)) (differences d x y)).
(** Log backward (gradfn/log.go:41-61; [None] is its panic) *)
Fixpoint log_back (x g : vec) : option vec :=
  match x, g with
  | v :: x', w :: g' => match go_log_deriv (up v), log_back x' g' with
                        | Some r, Some l => Some (fmul (at_type r) w :: l)
                        | _, _ => None
                        end
  | _, _ => Some []
  end.
(** NLL (losses.go:34-36): Neg, ReduceSum, Prod of y and Log(x), Log: the gradient of x *)
Definition nll_back (x y : vec) (gy : val d) : option vec :=
  let gs := reduce_sum_back d (neg_back d gy) in
  log_back x (map (fun t => fmul t gs) y).
End Back.
