(** * The composite operators of package ag, the losses and the normalization
    layers, over the real-valued functions of GradModel

    Every operator node's value is that of its function's Forward (FwdModel shows
    that asynchronous execution computes the same values); [None] is a panic. *)
From Coq Require Import Reals List Arith Bool ZArith.
From Verif Require Import DenseModel ArithModel GradModel.
Import ListNotations.
Open Scope R_scope.

Fixpoint each {A B} (f : A -> option B) (l : list A) : option (list B) :=
  match l with [] => Some [] | x :: l => do y <- f x; do ys <- each f l; Some (y :: ys) end.
(** a loop that threads an accumulator *)
Fixpoint fold_opt {A S} (f : S -> A -> option S) (l : list A) (s : S) : option S :=
  match l with [] => Some s | x :: l => do s <- f s x; fold_opt f l s end.

Section Ops.
Variable wide : bool.  (* which of the two product kernels runs, see ArithModel *)

(** ag/operators.go:23-28 *)
Definition ag_add (x1 : option mat) (x2 : mat) : option mat :=
  match x1 with None => fwd copy_fn [x2] | Some x1 => fwd add_fn [x1; x2] end.
(** ag/operators.go:315-318, mat/gradfn/square.go:14-18 *)
Definition ag_square (x : mat) : option mat := fwd prod_fn [x; x].
(** ag/operators.go:235-237 *)
Definition ag_reverse_sub_one (x : mat) : option mat := fwd reverse_sub_fn [x; scalar 1].

(** mat/rand/bernulli/bernulli.go:17-33, uniform.go:30-32: [draws] are the
    numbers the generator's Float64 returns *)
Definition bernoulli (r c : nat) (prob : R) (draws : nat -> R) : mat :=
  mkDense r c (map (fun k => let v := draws k * (1 - 0) + 0 in let fl := IZR (Int_part v) in
                             if Rlt_dec v prob then fl else fl + 1) (seq 0 (r * c))).
(** ag/operators.go:98-103: Dropout *)
Definition ag_dropout (p : R) (draws : nat -> R) (x : mat) : option mat :=
  if Req_EM_T p 0 then Some x else fwd (dropout_fn p (bernoulli (rows x) (cols x) p draws)) [x].

(** Map, Map2, Pad (ag/operators.go:368-407).  [Pad]'s negative seqLen panics. *)
Definition ag_map {A B} (mapping : A -> B) (xs : list A) : list B := map mapping xs.
Definition ag_map2 {A B C} (mapping : A -> B -> C) (xs1 : list A) (xs2 : list B) : option (list C) :=
  if negb (length xs1 =? length xs2)%nat then None else Some (map (fun p => mapping (fst p) (snd p)) (combine xs1 xs2)).
Definition ag_pad {A} (xs : list A) (n : Z) (padding : nat -> A) : option (list A) :=
  if (Z.of_nat (length xs) =? n)%Z then Some xs
  else if (n <? Z.of_nat (length xs))%Z then (if (n <? 0)%Z then None else Some (firstn (Z.to_nat n) xs))
  else Some (xs ++ map padding (seq (length xs) (Z.to_nat n - length xs))).

(** SeparateMatrix, SeparateVec (ag/operators.go:411-436) *)
Definition separate_matrix (x : mat) : option (list (list mat)) :=
  each (fun i => each (fun j => fwd (at_fn [Z.of_nat i; Z.of_nat j]) [x]) (seq 0 (cols x))) (seq 0 (rows x)).
Definition separate_vec (x : mat) : option (list mat) :=
  each (fun i => fwd (at_fn [Z.of_nat i]) [x]) (seq 0 (length (data x))).
(** SplitVec (ag/operators.go:439-452): size%chunks panics for chunks = 0,
    make panics for a negative chunks; the division is exact. *)
Definition split_vec (x : mat) (chunks : Z) : option (list mat) :=
  let n := Z.of_nat (length (data x)) in
  if (chunks =? 0)%Z then None
  else if negb (Z.rem n chunks =? 0)%Z then None
  else if (chunks <? 0)%Z then None
  else let size := (n / chunks)%Z in
       each (fun i => fwd (slice_fn (Z.of_nat i * size) 0 (Z.of_nat i * size + size) 1) [x]) (seq 0 (Z.to_nat chunks)).
(** RowViews, ColViews (ag/operators.go:535-553) *)
Definition row_views (x : mat) : option (list mat) := each (fun i => fwd (row_view_fn (Z.of_nat i)) [x]) (seq 0 (rows x)).
Definition col_views (x : mat) : option (list mat) := each (fun j => fwd (col_view_fn (Z.of_nat j)) [x]) (seq 0 (cols x)).

(** Sum, Mean, Maximum, Minimum (ag/operators.go:456-491) *)
Definition fold_nodes (f : gfun) (xs : list mat) : option mat :=
  match xs with [] => None | x :: xs => fold_opt (fun s x => fwd f [s; x]) xs x end.
Definition ag_sum := fold_nodes add_fn.
Definition ag_mean (xs : list mat) : option mat :=
  do s <- fold_nodes add_fn xs; fwd div_scalar_fn [s; scalar (INR (length xs))].
Definition ag_maximum := fold_nodes max_fn.
Definition ag_minimum := fold_nodes min_fn.

(** BiLinear, BiAffine, PositiveELU (ag/operators.go:494-507) *)
Definition bi_linear (w x1 x2 : mat) : option mat :=
  do a <- fwd transpose_fn [x1]; do b <- fwd (mul_fn wide) [a; w]; fwd (mul_fn wide) [b; x2].
Definition bi_affine (w u v b x1 x2 : mat) : option mat :=
  do bl <- bi_linear w x1 x2;
  do ut <- fwd transpose_fn [u]; do ux <- fwd (mul_fn wide) [ut; x1];
  do s1 <- fwd add_fn [bl; ux];
  do vt <- fwd transpose_fn [v]; do vx <- fwd (mul_fn wide) [vt; x2];
  do s2 <- fwd add_fn [s1; vx]; fwd add_fn [s2; b].
Definition positive_elu (x : mat) : option mat :=
  do e <- fwd elu_fn [x; scalar 1]; fwd add_scalar_fn [e; scalar 1].

(** LogSoftmax, LogSumExp (ag/operators.go:510-531) *)
Definition log_softmax (x : mat) : option mat := do y <- fwd (softmax_fn wide) [x]; fwd log_fn [y].
Definition log_sum_exp (xs : list mat) : option mat :=
  match xs with
  | [x] =>
      do mx <- fwd reduce_max_fn [x];
      do d <- fwd sub_scalar_fn [x; mx]; do e <- fwd exp_fn [d]; do s <- fwd reduce_sum_fn [e];
      do l <- fwd log_fn [s]; fwd add_fn [mx; l]
  | _ =>
      do mx <- fwd scalar_max_fn xs;
      do s <- fold_opt (fun s v => do d <- fwd sub_fn [v; mx]; do e <- fwd exp_fn [d]; do s <- ag_add s e; Some (Some s)) xs None;
      do s <- s; do l <- fwd log_fn [s]; fwd add_fn [mx; l]
  end.

(** ** losses/losses.go *)

(** losses.go:13-28 *)
Definition reduce (mean : bool) (x : mat) : option mat := if mean then fwd reduce_mean_fn [x] else fwd reduce_sum_fn [x].
Definition mae (x y : mat) (mean : bool) : option mat :=
  do d <- fwd sub_fn [x; y]; do a <- fwd abs_fn [d]; reduce mean a.
Definition mse (x y : mat) (mean : bool) : option mat :=
  do d <- fwd sub_fn [x; y]; do q <- ag_square d; do h <- fwd prod_scalar_fn [q; scalar 0.5]; reduce mean h.
(** losses.go:32-34 *)
Definition nll (x y : mat) : option mat :=
  do l <- fwd log_fn [x]; do p <- fwd prod_fn [y; l]; do s <- fwd reduce_sum_fn [p]; fwd neg_fn [s].
(** losses.go:39-41 *)
Definition cross_entropy (x : mat) (c : Z) : option mat :=
  do a <- fwd (at_fn [c]) [x]; do n <- fwd neg_fn [a]; do l <- log_sum_exp [x]; fwd add_fn [n; l].
(** losses.go:47-51: weights.At(c) *)
Definition weighted_cross_entropy (weights x : mat) (c : Z) : option mat :=
  do ce <- cross_entropy x c; do w <- at_ weights [c]; fwd prod_scalar_fn [ce; scalar w].
(** losses.go:59-65 *)
Definition focal_loss (x : mat) (c : Z) (gamma : R) : option mat :=
  do ce <- cross_entropy x c; do n <- fwd neg_fn [ce]; do p <- fwd exp_fn [n];
  do s <- fwd reverse_sub_fn [p; scalar 1]; do a <- fwd (pow_fn gamma) [s]; fwd prod_fn [a; ce].
(** losses.go:74-83 *)
Definition weighted_focal_loss (weights x : mat) (c : Z) (gamma : R) : option mat :=
  do fl <- focal_loss x c gamma; do w <- at_ weights [c]; fwd prod_scalar_fn [fl; scalar w].
(** losses.go:86-88 *)
Definition perplexity (x : mat) (c : Z) : option mat := do ce <- cross_entropy x c; fwd exp_fn [ce].
(** losses.go:92-110 *)
Definition zero_one_quantization (x : mat) : option mat :=
  do a <- ag_square x; do r <- fwd reverse_sub_fn [x; scalar 1]; do b <- ag_square r;
  do p <- fwd prod_fn [a; b]; fwd reduce_sum_fn [p].
Definition norm2_quantization (x : mat) : option mat :=
  do a <- ag_square x; do s <- fwd reduce_sum_fn [a]; do d <- fwd sub_scalar_fn [s; scalar 1]; ag_square d.
Definition one_hot_quantization (x : mat) (q : R) : option mat :=
  do a <- zero_one_quantization x; do b <- norm2_quantization x; do s <- fwd add_fn [a; b]; fwd prod_scalar_fn [s; scalar q].
(** losses.go:113-115 *)
Definition distance (x : mat) (target : R) : option mat :=
  do d <- fwd sub_fn [scalar target; x]; fwd abs_fn [d].
(** losses.go:118-151: the target is indexed by the prediction's position, so a
    shorter target panics and a longer one is cut *)
Definition loss_seq {P Q} (loss : P -> Q -> option mat) (predicted : list P) (target : list Q) (mean : bool) : option mat :=
  match predicted, target with
  | p :: ps, t :: ts =>
      do l0 <- loss p t;
      do l <- (fix go (ps : list P) (ts : list Q) (l : mat) : option mat :=
                 match ps, ts with
                 | [], _ => Some l
                 | p :: ps, t :: ts => do m <- loss p t; do l <- fwd add_fn [l; m]; go ps ts l
                 | _ :: _, [] => None
                 end) ps ts l0;
      if mean then fwd div_scalar_fn [l; scalar (INR (length predicted))] else Some l
  | _, _ => None
  end.
Definition mse_seq (p t : list mat) := loss_seq (fun x y => mse x y false) p t.
Definition mae_seq (p t : list mat) := loss_seq (fun x y => mae x y false) p t.
Definition cross_entropy_seq (p : list mat) (t : list Z) := loss_seq cross_entropy p t.
(** losses.go:156-162 *)
Definition spg (actions targets : list mat) : option mat :=
  do l <- (fix go (ps ts : list mat) (l : option mat) : option (option mat) :=
             match ps, ts with
             | [], _ => Some l
             | p :: ps, t :: ts => do m <- fwd prod_fn [p; t]; do l <- ag_add l m; go ps ts (Some l)
             | _ :: _, [] => None
             end) actions targets None;
  do l <- l; fwd neg_fn [l].

(** ** nn/normalization *)

(** the deviations from the mean, and their mean square
    (layernorm.go:51-53, layernormsimple.go:40-42, adanorm.go:60-77) *)
Definition deviations (x : mat) : option mat := do m <- fwd reduce_mean_fn [x]; fwd sub_scalar_fn [x; m].
Definition mean_square (d : mat) : option mat := do q <- ag_square d; fwd reduce_mean_fn [q].
(** layernorm/layernorm.go:45-57 *)
Definition layer_norm (w b eps x : mat) : option mat :=
  do dev <- deviations x; do ms <- mean_square dev; do s <- fwd add_fn [ms; eps]; do sd <- fwd sqrt_fn [s];
  do z <- fwd div_scalar_fn [dev; sd]; do p <- fwd prod_fn [z; w]; fwd add_fn [p; b].
(** layernormsimple/layernormsimple.go:36-46 *)
Definition layer_norm_simple (x : mat) : option mat :=
  do dev <- deviations x; do ms <- mean_square dev; do sd <- fwd sqrt_fn [ms];
  do dev2 <- deviations x; do s <- fwd add_fn [sd; scalar 1e-10]; fwd div_scalar_fn [dev2; s].
(** adanorm/adanorm.go:41-58 *)
Definition ada_norm (scale x : mat) : option mat :=
  do dev <- deviations x; do ms <- mean_square dev; do sd <- fwd sqrt_fn [ms]; do s <- fwd add_fn [sd; scalar 1e-10];
  do y <- fwd div_scalar_fn [dev; s];
  do ky <- fwd prod_scalar_fn [y; scalar 0.1]; do r <- fwd reverse_sub_fn [ky; scalar 1]; do fi <- fwd prod_scalar_fn [r; scale];
  fwd prod_fn [y; fi].
(** the Euclidean norm plus eps (fixnorm.go:43-44, scalenorm.go:40-41) *)
Definition over_norm (x : mat) : option mat :=
  do q <- ag_square x; do s <- fwd reduce_sum_fn [q]; do n <- fwd sqrt_fn [s];
  do n <- fwd add_scalar_fn [n; scalar 1e-10]; fwd div_scalar_fn [x; n].
(** fixnorm/fixnorm.go:36-47, scalenorm/scalenorm.go:36-44 *)
Definition fix_norm (x : mat) : option mat := over_norm x.
Definition scale_norm (gain x : mat) : option mat := do y <- over_norm x; fwd prod_fn [y; gain].
(** rmsnorm/rmsnorm.go:42-53 *)
Definition rms_norm (w b x : mat) : option mat :=
  do ms <- mean_square x; do r <- fwd sqrt_fn [ms]; do r <- fwd add_scalar_fn [r; scalar 1e-10];
  do y <- fwd div_scalar_fn [x; r]; do p <- fwd prod_fn [y; w]; fwd add_fn [p; b].

(** batchnorm/batchnorm.go: the running statistics *)
Record batch_norm := mkBN { bn_w : mat; bn_b : mat; bn_mean : mat; bn_dev : mat; bn_momentum : R }.
(** batchnorm.go:66-73 *)
Definition bn_process (m : batch_norm) (dev mean : mat) (xs : list mat) : option (list mat) :=
  do d <- fwd add_scalar_fn [dev; scalar 1e-5]; do dv <- fwd div_fn [bn_w m; d];
  each (fun x => do s <- fwd sub_fn [x; mean]; do p <- fwd prod_fn [s; dv]; fwd add_fn [p; bn_b m]) xs.
(** batchnorm.go:82-100 *)
Definition bn_batch_mean (xs : list mat) : option mat :=
  do s <- fold_nodes add_fn xs; fwd div_scalar_fn [s; scalar (INR (length xs) + 1e-5)].
Definition bn_batch_dev (mean : mat) (xs : list mat) : option mat :=
  do s <- fold_opt (fun s x => do d <- fwd sub_fn [mean; x]; do q <- ag_square d; fwd add_fn [s; q]) xs (m_zeros_like mean);
  do v <- fwd div_scalar_fn [s; scalar (INR (length xs) + 1e-5)]; fwd sqrt_fn [v].
(** batchnorm.go:75-79 *)
Definition bn_update (m : batch_norm) (mean dev : mat) : option batch_norm :=
  do a <- m_add_in (m_prods_in (bn_mean m) (bn_momentum m)) (m_prods mean (1 - bn_momentum m));
  do b <- m_add_in (m_prods_in (bn_dev m) (bn_momentum m)) (m_prods dev (1 - bn_momentum m));
  Some (mkBN (bn_w m) (bn_b m) a b (bn_momentum m)).
(** batchnorm.go:52-64 *)
Definition bn_forward (m : batch_norm) (xs : list mat) : option (list mat) := bn_process m (bn_dev m) (bn_mean m) xs.
Definition bn_forward_t (m : batch_norm) (xs : list mat) : option (batch_norm * list mat) :=
  do mean <- bn_batch_mean xs; do dev <- bn_batch_dev mean xs; do m' <- bn_update m mean dev;
  do ys <- bn_process m dev mean xs; Some (m', ys).
(** Training on a sequence of batches: ForwardT on each in turn. *)
Fixpoint bn_train (m : batch_norm) (batches : list (list mat)) : option batch_norm :=
  match batches with [] => Some m | b :: bs => do p <- bn_forward_t m b; bn_train (fst p) bs end.

(** nn/model.go:107-116: ModuleList.Forward *)
Definition module_list_forward (modules : list (list mat -> option (list mat))) (xs : list mat) : option (list mat) :=
  fold_opt (fun xs m => m xs) modules xs.

End Ops.
