(** * What a program sees of parameters and buffers *)
From Coq Require Import List Arith Bool.
From Verif Require Import ParamModel.
Import ListNotations.

Section Spec.
Context {T S : Type}.
Variable add : T -> T -> T.
Variable conv : precision -> precision -> T -> T.

(** the dimensions and the elements of a matrix *)
Definition dims (s : state T S) (x : ref) : option (nat * nat) :=
  match tensor_at s x with Some t => nth_error (shapes s) (shape_ref t) | None => None end.
Definition elements (s : state T S) (x : ref) : option (list T) := option_map data (tensor_at s x).
Definition precision_of (s : state T S) (x : ref) : option precision := option_map prec (tensor_at s x).
(** the elements of the accumulated gradient, when there is one *)
Definition gradient (s : state T S) (x : ref) : option (option (list T)) :=
  match tensor_at s x with
  | Some t => match grad t with
              | Some g => match nth_error (tensors s) g with Some u => Some (Some (data u)) | None => None end
              | None => Some None end
  | None => None end.
(** its dimensions *)
Definition gradient_dims (s : state T S) (x : ref) : option (nat * nat) :=
  match tensor_at s x with
  | Some t => match grad t with
              | Some g => match nth_error (tensors s) g with Some u => nth_error (shapes s) (shape_ref u) | None => None end
              | None => None end
  | None => None end.
Definition state_of (s : state T S) (k : nat) : option (option S) := option_map opt_state (nth_error (params s) k).

(** the calls through which a program changes parameter [k], or gets hold of its matrix or of its gradient *)
Definition changes (k : nat) (c : call T S) : bool :=
  match c with
  | Value (Par j) | Grad (Par j) | Write (Par j) _ | Reshape (Par j) _ _ | SetRequiresGrad (Par j) _ | AccGrad (Par j) _ | ZeroGrad (Par j)
  | WithGrad j _ | ReplaceValue j _ | Optimize j _ _ => j =? k
  | _ => false end.
(** the calls through which it gets hold of the matrix or of the gradient, or gives the parameter another matrix *)
Definition exposes (k : nat) (c : call T S) : bool :=
  match c with Value (Par j) | Grad (Par j) | ReplaceValue j _ => j =? k | _ => false end.
Definition reshapes (c : call T S) : bool := match c with Reshape _ _ _ => true | _ => false end.
Definition replaces (k : nat) (c : call T S) : bool := match c with ReplaceValue j _ => j =? k | _ => false end.

(** calls that zero a gradient, or give [x] another matrix *)
Definition ends_gradient (x : ref) (c : call T S) : bool :=
  match c, x with ZeroGrad _, _ => true | ReplaceValue j _, Par k => j =? k | _, _ => false end.

(** what a call makes the elements, the flag and the optimizer state of parameter [k] *)
Definition written (k : nat) (c : call T S) : option (list T) :=
  match c with Write (Par j) l | Optimize j l _ => if j =? k then Some l else None | _ => None end.
Definition flagged (k : nat) (c : call T S) : option bool :=
  match c with SetRequiresGrad (Par j) b | WithGrad j b => if j =? k then Some b else None | _ => None end.
Definition stated (k : nat) (c : call T S) : option (option S) :=
  match c with Optimize j _ o => if j =? k then Some o else None | _ => None end.
(** the last of these in a history, or what there was before *)
Definition latest {A} (f : call T S -> option A) (cs : list (call T S)) (a : A) : A :=
  fold_left (fun a c => match f c with Some b => b | None => a end) cs a.

(** the elements of [g] in the precision of [x] *)
Definition elements_as (s : state T S) (x g : ref) : option (list T) :=
  match tensor_at s x, tensor_at s g with
  | Some t, Some u => Some (if same_precision (prec u) (prec t) then data u else map (conv (prec u) (prec t)) (data u))
  | _, _ => None end.
(** the gradients given to parameter [k] since it was last zeroed, each as it was when it was given, in the
    precision of the parameter *)
Fixpoint since_zero (k : nat) (s : state T S) (cs : list (call T S)) (given : list (list T)) : list (list T) :=
  match cs with
  | [] => given
  | c :: cs =>
      match step add conv s c with
      | Some s' => since_zero k s' cs
          (match c with
           | AccGrad (Par j) g => if j =? k then match elements_as s (Par k) g with Some d => given ++ [d] | None => given end else given
           | ZeroGrad (Par j) => if j =? k then [] else given
           | _ => given end)
      | None => given end
  end.
(** their sum *)
Definition total (given : list (list T)) : option (list T) :=
  match given with [] => None | d :: ds => Some (fold_left (add_data add) ds d) end.
End Spec.
