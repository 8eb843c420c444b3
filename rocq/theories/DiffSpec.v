(** * Programs of differentiable functions, and the graphs the engine sees

    A program lists the nodes of a computation graph in creation order: leaves,
    and operators made by ag.NewOperator (ag/operator.go:64-75) from a function of
    GradModel and the numbers of its operands. *)
From Coq Require Import Reals List Arith Bool Permutation.
From Coquelicot Require Import Coquelicot.
From Verif Require Import DenseModel DenseSpec AgModel AgSpec ArithSpec GradModel GradSpec.
Import ListNotations.
Open Scope R_scope.

Inductive pnode := PVar (req : bool) | POp (f : gfun) (operands : list nat).
Definition program := list pnode.

(** Operands are created before the operators that use them. *)
Definition ordered (p : program) : Prop :=
  forall x f ops k, nth_error p x = Some (POp f ops) -> In k ops -> (k < x)%nat.

(** [v] are the values the program computes from the leaf values [env]. *)
Definition computes (p : program) (env v : nat -> mat) : Prop :=
  forall x nd, nth_error p x = Some nd ->
    match nd with
    | PVar _ => v x = env x
    | POp f ops => fwd f (map v ops) = Some (v x)
    end.

(** A gradient in the engine: [None] is a panic (of a backward function, or of
    Dense.AddInPlace in AccGrad, mat/dense_grad.go:21-29). *)
Definition pgrad := option mat.
Definition padd (a b : pgrad) : pgrad :=
  match a, b with Some a, Some b => m_add_in a b | _, _ => None end.
Definition pone : pgrad := Some (DenseModel.scalar 1).

Definition is_one (v : mat) : bool := (length (data v) =? 1)%nat.

(** The operand numbers that require gradients, for an operator with operands [ops]. *)
Definition required (g : @graph pgrad) (ops : list nat) (k : nat) : bool := requires g (nth k ops 0%nat).

(** [g] is what the engine sees of the program: its leaves and operators; the
    AccGrad calls of an operator that takes part in the backward pass are those of
    its function's Backward at the operand values. *)
Definition engine_graph (p : program) (v : nat -> mat) (g : @graph pgrad) : Prop :=
  length g = length p /\
  forall x nd, nth_error p x = Some nd ->
    match nd with
    | PVar r => nth_error g x = Some (mkNode (Leaf r) (is_one (v x)))
    | POp f ops => exists sends, nth_error g x = Some (mkNode (Oper ops sends) (is_one (v x))) /\
        (forall t, In t (map fst sends) -> In t ops) /\
        (requires g x = true -> forall gy, wf gy -> same_shape gy (v x) ->
           let live := filter (fun s => requires g (fst s)) sends in
           match bwd f (map v ops) (required g ops) gy with
           | Some calls => Permutation (map (fun s => (fst s, snd s (Some gy))) live)
                                       (map (fun c => (nth (fst c) ops 0%nat, Some (snd c))) calls)
           | None => forall s, In s live -> snd s (Some gy) = None
           end)
    end.

(** Every function that takes part in the backward pass is differentiated
    correctly at the operand values. *)
Definition all_correct (p : program) (v : nat -> mat) (g : @graph pgrad) : Prop :=
  forall x f ops, nth_error p x = Some (POp f ops) -> requires g x = true -> correct f (required g ops) (map v ops).

(** The leaves move along [E]: those that require gradients with velocity [V],
    the others stand still. *)
Definition leaves_move (p : program) (E : R -> nat -> mat) (V : nat -> mat) : Prop :=
  forall x r, nth_error p x = Some (PVar r) ->
    if r then moves (fun t => E t x) (V x) else wf (E 0 x) /\ forall t, E t x = E 0 x.

(** The inner product of a gradient, if there is one, with a velocity. *)
Definition along (g : option pgrad) (V : mat) : R :=
  match g with Some (Some u) => inner u V | _ => 0 end.
(** [g], if present, is a matrix (no panic) of the shape of [x] *)
Definition sound (g : option pgrad) (x : mat) : Prop :=
  match g with None => True | Some None => False | Some (Some u) => wf u /\ same_shape u x end.

Definition sum_over (l : list nat) (f : nat -> R) : R := fold_right (fun x s => f x + s) 0 l.
(** the leaves that require gradients *)
Definition leaves (p : program) : list nat :=
  filter (fun x => match nth_error p x with Some (PVar true) => true | _ => false end) (seq 0 (length p)).

(** The leaf values [env] with the entry (i, j) of leaf l increased by t. *)
Definition bump (env : nat -> mat) (l i j : nat) (t : R) (x : nat) : mat :=
  if (x =? l)%nat
  then mkDense (rows (env l)) (cols (env l))
         (map (fun k => nth k (data (env l)) 0 + (if (k =? i * cols (env l) + j)%nat then t else 0)) (seq 0 (length (data (env l)))))
  else env x.
(** The entry (i, j) of a gradient; a tensor without gradient has gradient zero. *)
Definition grad_entry (g : option pgrad) (i j : nat) : R :=
  match g with Some (Some u) => rget u i j | _ => 0 end.

(** ** The graph the engine builds for a program (an [engine_graph] if every
    function is differentiated correctly) *)
Definition send_of (f : gfun) (ops : list nat) (v : nat -> mat) (req : nat -> bool) (k : nat) : nat * (pgrad -> pgrad) :=
  (nth k ops 0%nat,
   fun gp => match gp with
             | Some gy => match bwd f (map v ops) req gy with
                          | Some calls => option_map snd (find (fun c => (fst c =? k)%nat) calls)
                          | None => None
                          end
             | None => None
             end).
Definition skeleton (p : program) : @graph pgrad :=
  map (fun nd => match nd with PVar r => mkNode (Leaf r) false | POp f ops => mkNode (Oper ops []) false end) p.
Definition compile_node (p : program) (v : nat -> mat) (x : nat) : @node pgrad :=
  match nth x p (PVar false) with
  | PVar r => mkNode (Leaf r) (is_one (v x))
  | POp f ops => mkNode (Oper ops (map (send_of f ops v (required (skeleton p) ops)) (seq 0 (length ops)))) (is_one (v x))
  end.
Definition compile (p : program) (v : nat -> mat) : @graph pgrad := map (compile_node p v) (seq 0 (length p)).
