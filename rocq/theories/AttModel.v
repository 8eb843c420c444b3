(** * Attention: nn/linear, nn/attention, nn/attention/selfattention, over real numbers

    Node values only: the operators here run synchronously (Run without async),
    so their values are there when they return. *)
From Coq Require Import Reals List Arith Bool ZArith.
From Verif Require Import DenseModel ArithModel GradModel OpsModel.
Import ListNotations.
Open Scope nat_scope.

(** A real number or -infinity ([None]), which only the causal mask brings in.
    The product and quotient with -infinity are never reached and so left arbitrary. *)
Notation num := (option R).
Definition num_lift2 (f : R -> R -> R) (a b : num) : num := match a, b with Some x, Some y => Some (f x y) | _, _ => None end.
Definition num_add := num_lift2 Rplus.
Definition num_mul := num_lift2 Rmult.
Definition num_opp (a : num) : num := option_map Ropp a.
Definition num_exp (a : num) : num := match a with Some x => Some (exp x) | None => Some 0%R end.
Definition num_lt (a b : num) : bool := match a, b with Some x, Some y => Rltb x y | None, Some _ => true | _, None => false end.
Definition numbers (x : mat) : dense num := mkDense (rows x) (cols x) (map Some (data x)).
(** the matrix again as a matrix of reals, if no entry is -infinity *)
Definition finite (x : dense num) : option mat := do d <- each (fun v => v) (data x); Some (mkDense (rows x) (cols x) d).

(** Dense.Softmax (mat/dense.go:1082-1113), as in GradModel.m_softmax, where entries
    may be -infinity; if all are the result is NaN, here [None]. *)
Definition num_softmax (x : dense num) : option (dense num) :=
  if negb (is_vector x) then None
  else match mat_max num_lt x with
       | None => Some (mkDense 0 1 [])
       | Some None => None
       | Some mx =>
           let out := sub_scalar (Some 0%R) num_add num_opp x mx in
           do out <- (if cols out =? 1 then Some out else transpose_in_place out);
           let out := mat_unary (Some 0%R) num_exp out in
           do sum <- mat_sum (Some 0%R) num_add out;
           Some (mat_const_in_place (Some 0%R) num_mul out (Some (1 / sum)%R))
       end.

(** makeCausalMask (attention.go:52-59) *)
Definition causal_mask (cur len : nat) : list num :=
  fold_left (fun l k => put l k None) (seq (cur + 1) (len - (cur + 1))) (repeat (Some 0%R) len).

Section Attention.
Variable wide : bool.  (* which of the two product kernels runs, see ArithModel *)

(** linear.Model.Forward (nn/linear/linear.go:44-50) *)
Record linear := mkLinear { lin_w : mat; lin_b : mat }.
Definition linear_forward (m : linear) (xs : list mat) : option (list mat) :=
  each (fun x => fwd (affine_fn wide) [lin_b m; lin_w m; x]) xs.

(** ScaledDotProductAttention (attention.go:18-50): the attention and the weights *)
Definition weights_of (k scale : mat) (masked : bool) (i : nat) (kqi : mat) : option mat :=
  do scores <- fwd prod_scalar_fn [kqi; scale];
  if masked then
    do mask <- from_slice (causal_mask i (rows k)) None;
    do scores <- mat_binary (Some 0%R) num_add (numbers scores) mask;
    do w <- num_softmax scores;
    finite w
  else fwd (softmax_fn wide) [scores].
Definition attention (q : list mat) (k v scale : mat) (causal : bool) : option (list mat * list mat) :=
  let masked := causal && (1 <? length q) in
  do kq <- each (fun qi => fwd (mul_fn wide) [k; qi]) q;
  do weights <- each (fun '(i, kqi) => weights_of k scale masked i kqi) (combine (seq 0 (length kq)) kq);
  do att <- each (fun w => fwd (mul_t_fn wide) [v; w]) weights;
  Some (att, weights).

(** selfattention.Model and Cache (nn/attention/selfattention/model.go:24-50) *)
Record self_attention := mkSelf { sa_query : linear; sa_key : linear; sa_value : linear; sa_scale : mat; sa_causal : bool; sa_cross : bool }.
Definition cache := option (mat * mat).
(** Forward (model.go:76-103): a cache with values is [Some]; a half-filled one, which
    HasValues treats as empty, is not modelled *)
Definition self_forward (m : self_attention) (c : cache) (q x : list mat) : option (list mat * list mat * (mat * mat)) :=
  do pq <- linear_forward (sa_query m) q;
  do kv <- match c, sa_cross m with
           | Some kv, true => Some kv
           | _, _ =>
               do k <- linear_forward (sa_key m) x;
               do v <- linear_forward (sa_value m) x;
               match c with
               | Some (ck, cv) => do pk <- fwd append_rows_fn (ck :: k); do pv <- fwd append_rows_fn (cv :: v); Some (pk, pv)
               | None => do pk <- fwd stack_fn k; do pv <- fwd stack_fn v; Some (pk, pv)
               end
           end;
  do r <- attention pq (fst kv) (snd kv) (sa_scale m) (sa_causal m);
  Some (fst r, snd r, kv).

(** How a caller decodes a sequence piece by piece: each piece is both query and
    input, and the returned cache goes into the next call. *)
Fixpoint decode (m : self_attention) (c : cache) (pieces : list (list mat)) : option (list mat) :=
  match pieces with
  | [] => Some []
  | p :: pieces =>
      do r <- self_forward m c p p;
      do rest <- decode m (Some (snd r)) pieces;
      Some (fst (fst r) ++ rest)
  end.
End Attention.
