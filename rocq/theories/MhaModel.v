(** * Multi-head attention: nn/attention/multiheadattention

    Nodes are followed as well as values, because the slice the heads' outputs
    are collected in is shared with the slice of the results. *)
From Coq Require Import Reals List Arith Bool ZArith.
From Verif Require Import DenseModel GradModel OpsModel AttModel.
Import ListNotations.
Open Scope nat_scope.

(** An interface value of type mat.Tensor: nil, the output of head [j] at position
    [i], or the [i]-th Concat operator made in project. *)
Inductive node := Nil | HeadOut (j i : nat) (v : mat) | Cat (i : nat) (v : mat).
Definition value (x : node) : option mat := match x with Nil => None | HeadOut _ _ v | Cat _ v => Some v end.

Section Mha.
Variable wide : bool.
Record multi_head := mkMulti { mh_heads : list self_attention; mh_merge : linear }.

(** project (model.go:95-108): [buf] holds seqLen*n tensors and [concat], its first
    [i] cells, the operators made so far.  ag.Concat(buf2...) hands the cells
    themselves, not a copy, to the function (ag/operators.go:61-63,
    gradfn/concat.go:20-24), and its value is computed at once.  append stores the
    operator in cell i, which is within the capacity (seqLen*n) unless n = 0, when
    Concat has already failed. *)
Fixpoint project_loop (heads : list (list node)) (i fuel : nat) (buf : list node) (concat : list node) : option (list node * list node) :=
  match fuel with
  | O => Some (buf, concat)
  | S fuel =>
      let n := length heads in
      do row <- each (fun h => nth_error h i) heads;
      let buf := blit buf (i * n) row in
      do vs <- each value (slice buf (i * n) (i * n + n));
      do v <- fwd concat_fn vs;
      project_loop heads (S i) fuel (put buf i (Cat i v)) (concat ++ [Cat i v])
  end.
Definition project (heads : list (list node)) (seqLen : nat) : option (list node * list node) :=
  project_loop heads 0 seqLen (repeat Nil (seqLen * length heads)) [].
(** Operands() of the i-th Concat once project is done: its n cells of the buffer *)
Definition operands (n : nat) (buf : list node) (i : nat) : list node := slice buf (i * n) (i * n + n).

(** Forward (model.go:77-93): the merged outputs, the caches, and the buffer *)
Definition mha_forward (m : multi_head) (caches : list cache) (q x : list mat) : option (list mat * list (mat * mat) * list node) :=
  do rs <- each (fun '(h, c) => self_forward wide h c q x) (combine (mh_heads m) caches);
  let heads := map (fun '(j, r) => map (fun '(i, v) => HeadOut j i v) (combine (seq 0 (length (fst (fst r)))) (fst (fst r)))) (combine (seq 0 (length rs)) rs) in
  do p <- project heads (length q);
  do vs <- each value (snd p);
  do out <- linear_forward wide (mh_merge m) vs;
  Some (out, map snd rs, fst p).
End Mha.

(** RequiresGrad of an operator (ag/operator.go:197-208): sync.Once runs the loop
    over the operands at the first call; a call made while it is running, by the
    goroutine that runs it, waits for ever.  [busy] are the operators whose loop is
    running; [head_req] tells whether a head's output requires gradients. *)
Inductive answer := Answers (b : bool) | Blocks | OutOfFuel.
Section Req.
Variable ops : nat -> list node.
Variable head_req : nat -> nat -> bool.
Fixpoint requires_grad (fuel : nat) (busy : list nat) (x : node) : answer :=
  match fuel with
  | O => OutOfFuel
  | S fuel =>
      match x with
      | Nil => OutOfFuel
      | HeadOut j i _ => Answers (head_req j i)
      | Cat i _ =>
          if existsb (Nat.eqb i) busy then Blocks
          else (fix loop (l : list node) : answer :=
                  match l with
                  | [] => Answers false
                  | y :: l => match requires_grad fuel (i :: busy) y with Answers false => loop l | a => a end
                  end) (ops i)
      end
  end.
End Req.
