(** * Feed-forward layers: highway, sqrdist, flatten, pooling, sgu, gmlp, mlpmixer *)
From Coq Require Import Reals List Arith Bool ZArith.
From Verif Require Import DenseModel ArithModel GradModel OpsModel AttModel ConvModel ActModel PoolModel.
Import ListNotations.
Open Scope nat_scope.

Section Layers.
(** whether the product takes the wide path (DenseModel's matrix products) *)
Variable wide : bool.

(** nn/normalization/layernorm/layernorm.go:20-25, 45-57: the model's weights and Forward on a sequence *)
Record lnorm := mkLnorm { ln_w : mat; ln_b : mat; ln_eps : mat }.
Definition lnorm_forward (m : lnorm) (xs : list mat) : option (list mat) := each (layer_norm (ln_w m) (ln_b m) (ln_eps m)) xs.

(** nn/pooling/pooling.go:38-43 *)
Definition pooling_forward (pr pc : nat) (xs : list mat) : option (list mat) := each (fun x => fwd (max_pooling_fn pr pc) [x]) xs.

(** nn/flatten/flatten.go:32-37: one output.  ag.Map builds its nodes in order; a panic in one of them is a panic of the call. *)
Definition flatten_forward (xs : list mat) : option (list mat) :=
  do vs <- each (fun x => do f <- fwd flatten_fn [x]; fwd transpose_fn [f]) xs;
  do y <- fwd concat_fn vs; Some [y].

(** nn/sqrdist/sqrdist.go:36-47 *)
Definition sqrdist_forward (b : mat) (xs : list mat) : option (list mat) :=
  each (fun x => do bh <- fwd (mul_fn wide) [b; x]; do t <- fwd transpose_fn [bh]; fwd (mul_fn wide) [t; bh]) xs.

(** nn/highway/highway.go:20-27, 45-61.  The activation is made without parameters. *)
Record highway := mkHighway { hw_in : linear; hw_t : linear; hw_act : activation }.
Definition highway_one (m : highway) (x : mat) : option mat :=
  do a <- fwd (affine_fn wide) [lin_b (hw_t m); lin_w (hw_t m); x]; do t <- fwd sigmoid_fn [a];
  do p <- fwd (affine_fn wide) [lin_b (hw_in m); lin_w (hw_in m); x];
  do hs <- activation_forward wide (hw_act m) [] [p]; do h <- nth_error hs 0;
  do th <- fwd prod_fn [t; h]; do r <- fwd reverse_sub_fn [t; scalar 1%R]; do rx <- fwd prod_fn [r; x];
  fwd add_fn [th; rx].
Definition highway_forward (m : highway) (xs : list mat) : option (list mat) := each (highway_one m) xs.

(** nn/sgu/model.go:24-30, 46-65, 76-99: the output channels of the projection are DimSeq; an Identity activation is not built *)
Record sgu := mkSgu { sgu_norm : lnorm; sgu_w : mat; sgu_b : mat; sgu_seq : nat; sgu_act : activation }.
Definition sgu_forward (m : sgu) (xs : list mat) : option (list mat) :=
  match xs with
  | [] => None
  | x0 :: _ =>
    let size := rows x0 * cols x0 in let half := size / 2 in
    do res <- each (fun x => fwd (slice_fn 0 0 (Z.of_nat half) 1) [x]) xs;
    do gate <- each (fun x => fwd (slice_fn (Z.of_nat half) 0 (Z.of_nat size) 1) [x]) xs;
    do gate <- lnorm_forward (sgu_norm m) gate;
    do gate <- conv1x1 wide (sgu_w m) (sgu_b m) (sgu_seq m) gate;
    do gate <- (if (sgu_act m =? Identity)%Z then Some gate else activation_forward wide (sgu_act m) [] gate);
    each (fun i => do g <- nth_error gate i; do r <- nth_error res i; fwd prod_fn [g; r]) (seq 0 (length gate))
  end.

(** nn/gmlp/block.go:39-57: linear, GELU, sgu, linear *)
Record gblock := mkGblock { gb_norm : lnorm; gb_in : linear; gb_sgu : sgu; gb_out : linear }.
Definition block_forward (m : gblock) (xs : list mat) : option (list mat) :=
  module_list_forward [linear_forward wide (gb_in m); activation_forward wide GELU []; sgu_forward (gb_sgu m); linear_forward wide (gb_out m)] xs.
(** nn/gmlp/prenorm.go:38-41 and residual.go:35-42 *)
Definition prenorm_forward (m : gblock) (xs : list mat) : option (list mat) := do ns <- lnorm_forward (gb_norm m) xs; block_forward m ns.
Definition residual_forward (m : gblock) (xs : list mat) : option (list mat) :=
  do pns <- prenorm_forward m xs;
  each (fun i => do pn <- nth_error pns i; do x <- nth_error xs i; fwd add_fn [pn; x]) (seq 0 (length pns)).
(** nn/gmlp/model.go:65-76: the padding is a column of Dim zeros *)
Record gmlp := mkGmlp { gm_dim : nat; gm_seq : nat; gm_layers : list gblock }.
Definition gmlp_forward (m : gmlp) (xs : list mat) : option (list mat) :=
  if gm_seq m <? length xs then None else
  match xs with
  | [] => Some []
  | _ => do padded <- ag_pad xs (Z.of_nat (gm_seq m)) (fun _ => mkDense (gm_dim m) 1 (repeat 0%R (gm_dim m)));
         module_list_forward (map residual_forward (gm_layers m)) padded
  end.

(** nn/mlpmixer/feedforward.go:21-35 *)
Record feedforward := mkFf { ff_in : linear; ff_act : activation; ff_out : linear }.
Definition ff_forward (m : feedforward) (xs : list mat) : option (list mat) :=
  module_list_forward [linear_forward wide (ff_in m); activation_forward wide (ff_act m) []; linear_forward wide (ff_out m)] xs.
(** nn/mlpmixer/mixerblock.go:23-30, 59-84 *)
Record mixer := mkMixer { mx_channels : nat; mx_tnorm : lnorm; mx_tff : feedforward; mx_cnorm : lnorm; mx_cff : feedforward }.
Definition token_mix (m : mixer) (xs : list mat) : option (list mat) :=
  do ns <- lnorm_forward (mx_tnorm m) xs; do s <- fwd stack_fn ns; do cs <- col_views s;
  do ys <- ff_forward (mx_tff m) cs; do s' <- fwd stack_fn ys; do t <- fwd transpose_fn [s'];
  do rs <- row_views t; each (fun r => fwd transpose_fn [r]) rs.
Definition channel_mix (m : mixer) (xs : list mat) : option (list mat) :=
  do ns <- lnorm_forward (mx_cnorm m) xs; ff_forward (mx_cff m) ns.
Definition mixer_residual (xs residual : list mat) : option (list mat) :=
  do ys <- ag_map2 (fun x r => fwd add_fn [x; r]) xs residual; each (fun v => v) ys.
Definition mixer_forward (m : mixer) (xs : list mat) : option (list mat) :=
  if mx_channels m <? length xs then None else
  do t <- token_mix m xs; do xs' <- mixer_residual t xs;
  do c <- channel_mix m xs'; mixer_residual c xs'.
End Layers.
