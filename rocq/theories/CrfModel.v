(** * Linear-chain conditional random fields: nn/crf

    [None] is a panic. *)
From Coq Require Import Reals List Arith Bool ZArith.
From Verif Require Import DenseModel ArithModel GradModel OpsModel.
Import ListNotations.
Open Scope nat_scope.

(** ** Viterbi decoding (nn/crf/viterbi.go), over any type of scores

    [add] is the float64 addition, [lt] the float64 order and [ninf] stands for
    math.Inf(-1).  The conversion of float32 emissions and transitions to float64
    (ScalarAt(...).F64()) is the identity. *)
Section Viterbi.
Context {T : Type}.
Variable add : T -> T -> T.
Variable lt : T -> T -> bool.
Variable ninf : T.
Notation dense := (dense T).
Notation idx i := (Z.of_nat i).

(** viterbi.go:17-20 *)
Record vstructure := mkV { scores : dense; backpointers : list nat }.
(** viterbi.go:23-28 *)
Definition new_structure (size : nat) : vstructure := mkV (mkDense size 1 (repeat ninf size)) (repeat 0 size).
(** if score > yv { y.scores.SetScalar(score, k); y.backpointers[k] = i } *)
Definition improve (y : vstructure) (k i : nat) (score : T) : option vstructure :=
  do yv <- at_ (scores y) [idx k; 0%Z];
  if lt yv score then do s <- set_ (scores y) score [idx k]; Some (mkV s (put (backpointers y) k i)) else Some y.

(** viterbi.go:46-59: a matrix without rows makes a slice of length -1 *)
Definition step_start (tr maxVec : dense) : option vstructure :=
  match rows tr with
  | O => None
  | S n => loop_opt (fun i y =>
             do mv <- at_ maxVec [idx i; 0%Z]; do tv <- at_ tr [0%Z; idx (i + 1)];
             improve y i i (add mv tv)) 0 n (new_structure n)
  end.
(** viterbi.go:61-74 *)
Definition step_end (tr maxVec : dense) : option vstructure :=
  match rows tr with
  | O => None
  | S n => loop_opt (fun i y =>
             do mv <- at_ maxVec [idx i; 0%Z]; do tv <- at_ tr [idx (i + 1); 0%Z];
             improve y i i (add mv tv)) 0 n (new_structure n)
  end.
(** viterbi.go:76-93 *)
Definition step_mid (tr maxVec stepVec : dense) : option vstructure :=
  match rows tr with
  | O => None
  | S n => loop_opt (fun i y => loop_opt (fun j y =>
             do mv <- at_ maxVec [idx i; 0%Z]; do sv <- at_ stepVec [idx j; 0%Z]; do tv <- at_ tr [idx (i + 1); idx (j + 1)];
             improve y j i (add (add mv sv) tv)) 0 (cols tr - 1) y) 0 n (new_structure n)
  end.

(** viterbi.go:34-36: alpha[1], ..., alpha[len(xs)-1], the last one first *)
Fixpoint alphas (tr : dense) (xs : list dense) (prev : vstructure) (done : list vstructure) : option (vstructure * list vstructure) :=
  match xs with
  | [] => Some (prev, done)
  | x :: xs => do a <- step_mid tr (scores prev) x; alphas tr xs a (a :: done)
  end.
(** viterbi.go:41-43: ys[i] = alpha[i+1].backpointers[ys[i+1]] *)
Fixpoint trace (rest : list vstructure) (y : nat) (ys : list nat) : option (list nat) :=
  match rest with
  | [] => Some ys
  | a :: rest => do p <- nth_error (backpointers a) y; trace rest p (p :: ys)
  end.
(** viterbi.go:31-44 *)
Definition viterbi (tr : dense) (xs : list dense) : option (list nat) :=
  match xs with
  | [] => None
  | x :: xs =>
      do a0 <- step_start tr x;
      do r <- alphas tr xs a0 [];
      do e <- step_end tr (scores (fst r));
      do y <- arg_max lt (scores e);
      trace (snd r) y [y]
  end.
End Viterbi.
Arguments mkV {T}. Arguments scores {T}. Arguments backpointers {T}.

(** ** The loss (nn/crf/crf.go), over the reals *)
Section Loss.
Open Scope R_scope.
Notation idx i := (Z.of_nat i).

(** crf.go:48-58.  A target with more labels than there are emissions indexes
    out of range; with fewer, the remaining emissions are not looked at. *)
Fixpoint gold_loop (tr : mat) (es : list mat) (target : list Z) (prev : Z) (gold : mat) : option (mat * Z) :=
  match target with
  | [] => Some (gold, prev)
  | t :: target =>
      match es with
      | [] => None
      | x :: es =>
          do a <- fwd (at_fn [t]) [x]; do g <- ag_add (Some gold) a;
          do b <- fwd (at_fn [prev; (t + 1)%Z]) [tr]; do g <- ag_add (Some g) b;
          gold_loop tr es target (t + 1)%Z g
      end
  end.
Definition gold_score (tr : mat) (es : list mat) (target : list Z) : option mat :=
  match es, target with
  | x :: es, t :: target =>
      do g <- fwd (at_fn [t; 0%Z]) [x];
      do s <- fwd (at_fn [0%Z; (t + 1)%Z]) [tr]; do g <- ag_add (Some g) s;
      do r <- gold_loop tr es target (t + 1)%Z g;
      do e <- fwd (at_fn [snd r; 0%Z]) [tr]; ag_add (Some (fst r)) e
  | _, _ => None
  end.

(** crf.go:71-77; [n] is the model's Size *)
Definition total_start (n : nat) (tr x : mat) : option (list mat) :=
  each (fun i => do a <- fwd (at_fn [idx i]) [x]; do b <- fwd (at_fn [0%Z; idx (i + 1)]) [tr]; ag_add (Some a) b) (seq 0 n).
(** scores[j] = ag.Add(scores[j], ag.Exp(v)), scores[j] being nil at first *)
Definition acc_exp (scores : list (option mat)) (j : nat) (v : mat) : option (list (option mat)) :=
  do e <- fwd exp_fn [v]; do s <- ag_add (nth j scores None) e; Some (put scores j (Some s)).
(** crf.go:79-86 *)
Definition total_end (n : nat) (tr : mat) (vec : list mat) : option (list mat) :=
  do sc <- loop_opt (fun i sc =>
       do v <- nth_error vec i; do t <- fwd (at_fn [idx (i + 1); 0%Z]) [tr]; do v <- ag_add (Some v) t;
       acc_exp sc i v) 0 n (repeat None n);
  each (fun o => o) sc.
(** crf.go:88-102 *)
Definition total_step (n : nat) (tr : mat) (tot step : list mat) : option (list mat) :=
  do sc <- loop_opt (fun i sc =>
       do nodei <- nth_error tot i;
       loop_opt (fun j sc =>
         do s <- nth_error step j; do v <- ag_add (Some nodei) s;
         do t <- fwd (at_fn [idx (i + 1); idx (j + 1)]) [tr]; do v <- ag_add (Some v) t;
         acc_exp sc j v) 0 n sc) 0 n (repeat None n);
  each (fun o => do s <- o; fwd log_fn [s]) sc.
(** crf.go:61-69 *)
Definition total_score (n : nat) (tr : mat) (es : list mat) : option mat :=
  match es with
  | [] => None
  | x :: es =>
      do tot <- total_start n tr x;
      do tot <- fold_opt (fun tot x => do s <- separate_vec x; total_step n tr tot s) es tot;
      do tot <- total_end n tr tot;
      do c <- fwd concat_fn tot; do s <- fwd reduce_sum_fn [c]; fwd log_fn [s]
  end.
(** crf.go:42-46 *)
Definition negative_log_loss (n : nat) (tr : mat) (es : list mat) (target : list Z) : option mat :=
  do gold <- gold_score tr es target; do total <- total_score n tr es; fwd sub_fn [total; gold].
End Loss.
