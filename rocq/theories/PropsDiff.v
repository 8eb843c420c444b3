(** * C05: Backward computes derivatives

    [computes p env v]: v are the values of the nodes of program p for the leaf
    values env; [engine_graph]: the graph of package ag for the program;
    [all_correct]: every function taking part is the adjoint of its derivative at
    its operands (C10-C14, C17, C48 say when).  All notions are in DiffSpec. *)
From Coq Require Import Reals List Arith Bool.
From Coquelicot Require Import Coquelicot.
From Verif Require Import DenseModel DenseSpec AgModel AgSpec ArithSpec GradModel GradSpec DiffSpec DiffProofs DiffExamples.
Import ListNotations.
Open Scope R_scope.

(** C05.  After Backward on a scalar, the (i, j) entry of the gradient of a leaf is
    the partial derivative of the scalar with respect to the leaf's (i, j) entry,
    whatever the schedule of the backward pass. *)
Theorem C05_partial_derivative : forall p env v g m r m' l i j,
  ordered p -> computes p env v -> (forall x, (x < length p)%nat -> wf (v x)) -> engine_graph p v g -> all_correct p v g ->
  ready g m -> (forall x, grad (m x) = None) -> is_oper g r = true -> is_one (v r) = true -> backward padd pone g m [r] m' ->
  nth_error p l = Some (PVar true) -> (i < rows (v l))%nat -> (j < cols (v l))%nat ->
  exists Y, locally 0 (fun t => computes p (bump env l i j t) (fun x => Y x t)) /\
    is_derive (fun t => rget (Y r t) 0 0) 0 (grad_entry (grad (m' l)) i j).
Proof. exact partial_derivative. Qed.
Print Assumptions C05_partial_derivative.

(** However the leaves that require gradients move (the others standing still), the
    scalar moves with the inner product of the gradients and the velocities, and
    every gradient has the shape of its tensor. *)
Theorem C05_scalar_root : forall p E V v g m r m',
  ordered p -> computes p (E 0) v -> (forall x, (x < length p)%nat -> wf (v x)) -> engine_graph p v g -> all_correct p v g -> leaves_move p E V ->
  ready g m -> (forall x, grad (m x) = None) -> is_oper g r = true -> is_one (v r) = true -> backward padd pone g m [r] m' ->
  (forall x, (x < length p)%nat -> sound (grad (m' x)) (v x)) /\
  exists Y, locally 0 (fun t => computes p (E t) (fun x => Y x t)) /\
    is_derive (fun t => rget (Y r t) 0 0) 0 (sum_over (leaves p) (fun x => along (grad (m' x)) (V x))).
Proof. exact scalar_derivative. Qed.
Print Assumptions C05_scalar_root.

(** Several roots, of any shape, with any gradients present before the call: what
    Backward adds to the gradients of the leaves is the derivative of the inner
    product of the operators' values with the gradients they start from. *)
Theorem C05_any_roots : forall p E V v g m xs m' ys,
  ordered p -> computes p (E 0) v -> (forall x, (x < length p)%nat -> wf (v x)) -> engine_graph p v g -> all_correct p v g -> leaves_move p E V ->
  ready g m -> (forall x, (x < length p)%nat -> sound (grad (m x)) (v x)) -> backward padd pone g m xs m' -> lists_reached g xs ys ->
  (forall x, (x < length p)%nat -> sound (grad (m' x)) (v x)) /\
  exists Y, locally 0 (fun t => computes p (E t) (fun x => Y x t)) /\
    is_derive (fun t => sum_over ys (fun y => along (oadd padd (grad (m y)) (seed pone g m xs y)) (Y y t))) 0
      (sum_over (leaves p) (fun x => along (grad (m' x)) (V x)) - sum_over (leaves p) (fun x => along (grad (m x)) (V x))).
Proof. exact backward_derivative. Qed.
Print Assumptions C05_any_roots.

(** The values of a program are determined by its leaves, so the curves Y above are
    the values recomputed at time t. *)
Theorem C05_values_determined : forall p env v v', ordered p -> computes p env v -> computes p env v' ->
  forall x, (x < length p)%nat -> v x = v' x.
Proof. exact computes_unique. Qed.
Print Assumptions C05_values_determined.

(** The hypotheses are those of the engine's guarantees: such a graph is well
    formed (C01-C04 apply), Backward can return; and every program of correct
    functions has a graph. *)
Theorem C05_backward_returns : forall p env v g m r, ordered p -> computes p env v -> (forall x, (x < length p)%nat -> wf (v x)) ->
  engine_graph p v g -> all_correct p v g -> ready g m -> is_one (v r) = true ->
  well_formed g /\ exists m', backward padd pone g m [r] m'.
Proof. exact backward_exists. Qed.
Print Assumptions C05_backward_returns.
Theorem C05_graph_exists : forall p env v, computes p env v -> ordered p -> all_correct p v (compile p v) -> engine_graph p v (compile p v).
Proof. exact compile_graph. Qed.
Print Assumptions C05_graph_exists.

(** y = W x, z = y * y, d = y . z satisfies all hypotheses, for Backward on d. *)
Example C05_hypotheses_met : exists v, let g := compile sample v in
  ordered sample /\ computes sample sample_env v /\ (forall x, (x < length sample)%nat -> wf (v x)) /\ engine_graph sample v g /\ all_correct sample v g /\
  ready g empty_mem /\ (forall x, grad (empty_mem x) = None) /\ is_oper g 4 = true /\ is_one (v 4%nat) = true /\
  nth_error sample 0 = Some (PVar true) /\ rows (v 0%nat) = 2%nat /\ cols (v 0%nat) = 3%nat.
Proof. exact sample_met. Qed.
