(** * Activations by name (nn/activation/types.go, activation.go) *)
From Coq Require Import Reals List Arith Bool ZArith String Ascii.
From Verif Require Import DenseModel ArithModel GradModel OpsModel SparseModel.
Import ListNotations.
Open Scope string_scope.

(** the constants (types.go:15-43): an Activation is an int *)
Definition activation : Type := Z.
Definition Identity : activation := 0%Z.     Definition Tan : activation := 1%Z.
Definition Tanh : activation := 2%Z.         Definition Sigmoid : activation := 3%Z.
Definition HardSigmoid : activation := 4%Z.  Definition HardTanh : activation := 5%Z.
Definition Softsign : activation := 6%Z.     Definition ReLU : activation := 7%Z.
Definition CELU : activation := 8%Z.         Definition GELU : activation := 9%Z.
Definition ELU : activation := 10%Z.         Definition PositiveELU : activation := 11%Z.
Definition SwishB : activation := 12%Z.      Definition Swish : activation := 13%Z.
Definition SiLU : activation := 14%Z.        Definition Mish : activation := 15%Z.
Definition LeakyReLU : activation := 16%Z.   Definition SELU : activation := 17%Z.
Definition SoftPlus : activation := 18%Z.    Definition SoftShrink : activation := 19%Z.
Definition Threshold : activation := 20%Z.   Definition Softmax : activation := 21%Z.
Definition LogSoftmax : activation := 22%Z.  Definition SparseMax : activation := 23%Z.

(** activationsMap (types.go:45-70) *)
Definition activations_map : list (activation * string) :=
  [(Identity, "Identity"); (Tan, "Tan"); (Tanh, "Tanh"); (Sigmoid, "Sigmoid"); (HardSigmoid, "HardSigmoid");
   (HardTanh, "HardTanh"); (Softsign, "Softsign"); (ReLU, "ReLU"); (CELU, "CELU"); (GELU, "GELU"); (ELU, "ELU");
   (PositiveELU, "PositiveELU"); (SwishB, "SwishB"); (Swish, "Swish"); (SiLU, "SiLU"); (Mish, "Mish");
   (LeakyReLU, "LeakyReLU"); (SELU, "SELU"); (SoftPlus, "SoftPlus"); (SoftShrink, "SoftShrink");
   (Threshold, "Threshold"); (Softmax, "Softmax"); (LogSoftmax, "LogSoftmax"); (SparseMax, "SparseMax")].

(** strings.ToLower: only its treatment of ASCII, for every name is ASCII *)
Definition lower_char (a : ascii) : ascii :=
  let n := nat_of_ascii a in if (65 <=? n)%nat && (n <=? 90)%nat then ascii_of_nat (n + 32) else a.
Fixpoint to_lower (s : string) : string :=
  match s with EmptyString => EmptyString | String a s => String (lower_char a) (to_lower s) end.

(** a Go map from strings: writing, reading *)
Definition smap : Type := list (string * activation).
Fixpoint smap_get (m : smap) (k : string) : option activation :=
  match m with [] => None | (k', v) :: m => if String.eqb k' k then Some v else smap_get m k end.
Definition smap_set (m : smap) (k : string) (v : activation) : smap := (k, v) :: m.

(** strToActivationMap (types.go:94-101); the range statement visits the entries of the
    map in some order, and [order] is that order *)
Definition str_to_activation_map (order : list (activation * string)) : smap :=
  fold_left (fun m '(k, v) => smap_set (smap_set m v k) (to_lower v) k) order [].

(** ParseActivation (types.go:105-110): the value and whether there is an error *)
Definition parse_activation (order : list (activation * string)) (str : string) : activation * bool :=
  match smap_get (str_to_activation_map order) str with Some v => (v, false) | None => ((-1)%Z, true) end.
(** MustParseActivation (types.go:114-120) *)
Definition must_parse_activation (order : list (activation * string)) (str : string) : option activation :=
  let '(v, err) := parse_activation order str in if err then None else Some v.

Section Act.
Variable wide : bool.
(** activationFunctions (types.go:72-89); ag.X(x) runs the gradfn of that name *)
Definition activation_functions (a : activation) : option (mat -> option mat) :=
  let run f := Some (fun x => fwd f [x]) in
  if (a =? Identity)%Z then Some (fun x => Some x) else
  if (a =? Tan)%Z then run tan_fn else
  if (a =? Tanh)%Z then run tanh_fn else
  if (a =? Sigmoid)%Z then run sigmoid_fn else
  if (a =? HardSigmoid)%Z then run hard_sigmoid_fn else
  if (a =? HardTanh)%Z then run hard_tanh_fn else
  if (a =? Softsign)%Z then run softsign_fn else
  if (a =? ReLU)%Z then run relu_fn else
  if (a =? GELU)%Z then run gelu_fn else
  if (a =? PositiveELU)%Z then Some positive_elu else
  if (a =? Swish)%Z then run swish_fn else
  if (a =? SiLU)%Z then run swish_fn else
  if (a =? Mish)%Z then run mish_fn else
  if (a =? Softmax)%Z then run (softmax_fn wide) else
  if (a =? LogSoftmax)%Z then Some (log_softmax wide) else
  if (a =? SparseMax)%Z then run sparse_max_fn else None.

(** m.activationFunc (activation.go:46-72).  The outer None is the error.  A parameter is
    looked up when the function runs, so a missing one panics there (the inner None). *)
Definition activation_func (a : activation) (params : list mat) : option (mat -> option mat) :=
  match activation_functions a with
  | Some f => Some f
  | None =>
    let one f := Some (fun x => do p <- nth_error params 0; fwd f [x; p]) in
    let two f := Some (fun x => do p <- nth_error params 0; do q <- nth_error params 1; fwd f [x; p; q]) in
    if (a =? CELU)%Z then one celu_fn else
    if (a =? ELU)%Z then one elu_fn else
    if (a =? SwishB)%Z then one swish_b_fn else
    if (a =? LeakyReLU)%Z then one leaky_relu_fn else
    if (a =? SELU)%Z then two selu_fn else
    if (a =? SoftPlus)%Z then two soft_plus_fn else
    if (a =? SoftShrink)%Z then one soft_shrink_fn else
    if (a =? Threshold)%Z then two threshold_fn else None
  end.

(** Forward (activation.go:34-44): an error ends the process (log.Fatal), here None like a panic *)
Definition activation_forward (a : activation) (params : list mat) (xs : list mat) : option (list mat) :=
  do f <- activation_func a params; each f xs.
End Act.
