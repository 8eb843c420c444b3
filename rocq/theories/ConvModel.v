(** * Convolution: nn/convolution and its models, over real numbers *)
From Coq Require Import Reals List Arith Bool ZArith.
From Verif Require Import DenseModel ArithModel GradModel OpsModel.
Import ListNotations.
Open Scope nat_scope.

(** one output: the slice of x at (fr, fc) of w's size, times w *)
Definition window_dot (w x : mat) (fr fc : Z) : option mat :=
  do s <- fwd (slice_fn fr fc (fr + Z.of_nat (rows w)) (fc + Z.of_nat (cols w))) [x]; fwd dot_fn [s; w].

(** Conv1D (convolution.go:13-31): % panics for stride 0, make for a negative dim *)
Definition conv1d (w x : mat) (stride : Z) : option mat :=
  let d := (Z.of_nat (cols x) - Z.of_nat (cols w))%Z in
  if (stride =? 0)%Z then None
  else if negb (Z.rem d stride =? 0)%Z then None
  else if negb (rows x =? rows w) then None
  else
    let dim := (Z.quot d stride + 1)%Z in
    if (dim <? 0)%Z then None
    else
      do ys <- each (fun i => window_dot w x 0 (Z.of_nat i * stride)) (seq 0 (Z.to_nat dim));
      fwd concat_fn ys.

(** Conv2D (convolution.go:34-59) *)
Definition conv2d (w x : mat) (xStride yStride : Z) : option mat :=
  let dr := (Z.of_nat (rows x) - Z.of_nat (rows w))%Z in
  let dc := (Z.of_nat (cols x) - Z.of_nat (cols w))%Z in
  if (xStride =? 0)%Z then None
  else if negb (Z.rem dr xStride =? 0)%Z then None
  else if (yStride =? 0)%Z then None
  else if negb (Z.rem dc yStride =? 0)%Z then None
  else
    let dimx := (Z.quot dr xStride + 1)%Z in
    let dimy := (Z.quot dc yStride + 1)%Z in
    do out <- each (fun i => each (fun j => window_dot w x (Z.of_nat i * xStride) (Z.of_nat j * yStride)) (seq 0 (Z.to_nat dimy))) (seq 0 (Z.to_nat dimx));
    do y <- fwd concat_fn (concat out);
    fwd (reshape_fn dimx dimy) [y].

(** The forward of convolution1d.Model and convolution2d.Model (convolution1d/model.go:75-99,
    convolution2d/model.go:76-99), which differ only in the convolution called, [conv]; [act] is
    the activation.  [k], [b] are the kernels and biases; [mask] is nil or a list.
    Activating a nil node, when every channel is masked, panics. *)
Section Model.
Variable conv : mat -> mat -> option mat.
Variable act : mat -> option mat.
Fixpoint channels (mask : option (list Z)) (k b : list mat) (offset : nat) (i : nat) (xs : list mat) (out : option mat) : option (option mat) :=
  match xs with
  | [] => Some out
  | x :: xs =>
      do on <- match mask with None => Some true | Some l => do v <- nth_error l i; Some (v =? 1)%Z end;
      if on : bool then
        do w <- nth_error k (i + offset);
        do c <- conv w x;
        do s <- ag_add out c;
        do bias <- nth_error b (i + offset);
        do s <- fwd add_scalar_fn [s; bias];
        channels mask k b offset (S i) xs (Some s)
      else channels mask k b offset (S i) xs out
  end.
Definition conv_channel (depthwise : bool) (inputs : nat) (mask : option (list Z)) (k b xs : list mat) (o : nat) : option mat :=
  if depthwise then
    do w <- nth_error k o; do x <- nth_error xs o; do c <- conv w x; do bias <- nth_error b o;
    do s <- fwd add_scalar_fn [c; bias]; act s
  else
    do out <- channels mask k b (o * inputs) 0 xs None;
    match out with Some s => act s | None => None end.
Definition conv_forward (depthwise : bool) (inputs outputs : nat) (mask : option (list Z)) (k b xs : list mat) : option (list mat) :=
  each (conv_channel depthwise inputs mask k b xs) (seq 0 outputs).
End Model.

(** conv1x1.Model.Forward (conv1x1/model.go:48-59) *)
Definition conv1x1 (wide : bool) (w b : mat) (outputs : nat) (xs : list mat) : option (list mat) :=
  do xm <- fwd stack_fn xs;
  do mm <- fwd (mul_fn wide) [w; xm];
  each (fun o => do r <- fwd (row_view_fn (Z.of_nat o)) [mm]; do v <- fwd transpose_fn [r];
                 do bias <- fwd (at_fn [Z.of_nat o]) [b]; fwd add_scalar_fn [v; bias]) (seq 0 outputs).
