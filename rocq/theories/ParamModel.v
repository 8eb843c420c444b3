(** * Parameters, buffers and the memory they share (nn/param.go, nn/buffer.go, ag/gradientblocker.go, mat/dense_grad.go)

    A program holds variables: matrices it created, cloned, or was given by Value() or Grad().  A matrix in memory holds a
    reference to its shape slice, its data, a pointer to the matrix of its gradient and the flag that says whether it
    requires gradients.  Programs are histories of calls; a call that panics stops the program.  A matrix is of float32 or of float64.  Slices of
    data passed by the caller are copied (mat.NewDense with WithBacking shares them instead, which is the subject of
    HeapModel.v); the values given to ReplaceValue and Buf are matrices, not other parameters. *)
From Coq Require Import List Arith Bool.
Import ListNotations.

Section Param.
(** the elements, and the structures optimizers keep in Param.State *)
Context {T S : Type}.
(** the addition of elements *)
Variable add : T -> T -> T.
(** the precisions, and the conversion of an element from one to another *)
Inductive precision := Float32 | Float64.
Definition same_precision (p q : precision) : bool := match p, q with Float32, Float32 | Float64, Float64 => true | _, _ => false end.
Variable conv : precision -> precision -> T -> T.

(** mat/dense.go:22-28 (Dense), without the mutex *)
Record tensor := mkTensor { prec : precision; shape_ref : nat; data : list T; grad : option nat; requires_grad : bool }.
(** nn/param.go:9-12 (Param) *)
Record param := mkParam { matrix : nat; opt_state : option S }.
(** the memory and what the program holds: a buffer (nn/buffer.go:17-19) is a blocker around a matrix *)
Record state := mkState { shapes : list (nat * nat); tensors : list tensor; vars : list nat; params : list param; bufs : list nat }.
Definition start : state := mkState [] [] [] [] [].

(** the receiver of a call: a variable, or a parameter, whose embedded matrix provides the methods *)
Inductive ref := Var (v : nat) | Par (k : nat).
Definition resolve (s : state) (r : ref) : option nat :=
  match r with Var v => nth_error (vars s) v | Par k => option_map matrix (nth_error (params s) k) end.

Fixpoint upd {A} (l : list A) (i : nat) (x : A) : list A :=
  match l, i with [], _ => [] | _ :: l, 0 => x :: l | y :: l, Datatypes.S i => y :: upd l i x end.

Definition put_tensor (s : state) (i : nat) (t : tensor) : state := mkState (shapes s) (upd (tensors s) i t) (vars s) (params s) (bufs s).
Definition put_param (s : state) (k : nat) (p : param) : state := mkState (shapes s) (tensors s) (vars s) (upd (params s) k p) (bufs s).
Definition put_shape (s : state) (i : nat) (z : nat * nat) : state := mkState (upd (shapes s) i z) (tensors s) (vars s) (params s) (bufs s).
Definition alloc (s : state) (t : tensor) : state := mkState (shapes s) (tensors s ++ [t]) (vars s) (params s) (bufs s).
Definition alloc_shape (s : state) (z : nat * nat) : state := mkState (shapes s ++ [z]) (tensors s) (vars s) (params s) (bufs s).
Definition hold (s : state) (i : nat) : state := mkState (shapes s) (tensors s) (vars s ++ [i]) (params s) (bufs s).
Definition hold_param (s : state) (p : param) : state := mkState (shapes s) (tensors s) (vars s) (params s ++ [p]) (bufs s).
Definition hold_buf (s : state) (i : nat) : state := mkState (shapes s) (tensors s) (vars s) (params s) (bufs s ++ [i]).

(** mat/dense.go:31-39 (makeDense) of a fresh shape slice and fresh data *)
Definition new_dense (s : state) (p : precision) (r c : nat) (l : list T) : option state :=
  if length l =? r * c
  then Some (hold (alloc (alloc_shape s (r, c)) (mkTensor p (length (shapes s)) l None false)) (length (tensors s)))
  else None.
(** mat/dense.go:1435-1440 (Clone): the data are copied, the shape slice is passed on *)
Definition clone_of (t : tensor) : tensor := mkTensor (prec t) (shape_ref t) (data t) None false.
Definition clone (s : state) (i : nat) : option state :=
  match nth_error (tensors s) i with
  | Some t => Some (hold (alloc s (clone_of t)) (length (tensors s)))
  | None => None end.
(** every method that writes the data of its receiver and keeps their number (mat/dense.go:66-75, 103-129, 432-677, 822-838,
    1197-1210, 1339-1404, 1444-1449) *)
Definition write (s : state) (i : nat) (l : list T) : option state :=
  match nth_error (tensors s) i with
  | Some t => if length l =? length (data t) then Some (put_tensor s i (mkTensor (prec t) (shape_ref t) l (grad t) (requires_grad t))) else None
  | None => None end.
(** mat/dense.go:270-303 (ReshapeInPlace, FlattenInPlace): the shape slice is written *)
Definition reshape (s : state) (i r c : nat) : option state :=
  match nth_error (tensors s) i with
  | Some t => if r * c =? length (data t) then Some (put_shape s (shape_ref t) (r, c)) else None
  | None => None end.
(** mat/dense_grad.go:45-48 (SetRequiresGrad) *)
Definition set_requires (s : state) (i : nat) (b : bool) : option state :=
  match nth_error (tensors s) i with
  | Some t => Some (put_tensor s i (mkTensor (prec t) (shape_ref t) (data t) (grad t) b))
  | None => None end.
(** mat/matrix.go:260-277 (SameDims) *)
Definition same_dims (s : state) (t u : tensor) : bool :=
  match nth_error (shapes s) (shape_ref t), nth_error (shapes s) (shape_ref u) with
  | Some a, Some b => (fst a =? fst b) && (snd a =? snd b)
  | _, _ => false end.
Fixpoint add_data (a b : list T) : list T :=
  match a, b with x :: a, y :: b => add x y :: add_data a b | _, _ => [] end.
(** float32Data and float64Data (mat/matrix.go): the data of a matrix, converted unless it has the precision *)
Definition data_as (p : precision) (t : tensor) : list T := if same_precision (prec t) p then data t else map (conv (prec t) p) (data t).
(** mat/dense_grad.go:20-31 (AccGrad): the first gradient is cloned, and must be of the precision of the receiver (the type
    assertion panics); the next ones are added to it in place, converted to that precision, which is that of the gradient *)
Definition acc_grad (s : state) (i j : nat) : option state :=
  match nth_error (tensors s) i, nth_error (tensors s) j with
  | Some t, Some u =>
      match grad t with
      | None => if same_precision (prec u) (prec t)
                then Some (put_tensor (alloc s (clone_of u)) i (mkTensor (prec t) (shape_ref t) (data t) (Some (length (tensors s))) (requires_grad t)))
                else None
      | Some g =>
          match nth_error (tensors s) g with
          | Some w => if same_dims s w u
                      then Some (put_tensor s g (mkTensor (prec w) (shape_ref w) (add_data (data w) (data_as (prec t) u)) (grad w) (requires_grad w)))
                      else None
          | None => None end
      end
  | _, _ => None end.
(** mat/dense_grad.go:50-55 (ZeroGrad) *)
Definition zero_grad (s : state) (i : nat) : option state :=
  match nth_error (tensors s) i with
  | Some t => Some (put_tensor s i (mkTensor (prec t) (shape_ref t) (data t) None (requires_grad t)))
  | None => None end.
(** mat/dense_grad.go:12-17 (Grad): the program gets the matrix of the gradient itself, when there is one *)
Definition get_grad (s : state) (i : nat) : option state :=
  match nth_error (tensors s) i with
  | Some t => match grad t with Some g => Some (hold s g) | None => Some s end
  | None => None end.

(** nn/param.go:15-25 (NewParam) *)
Definition new_param (s : state) (i : nat) : option state :=
  match nth_error (tensors s) i with
  | Some t => set_requires (hold_param (alloc s (clone_of t)) (mkParam (length (tensors s)) None)) (length (tensors s)) true
  | None => None end.
(** nn/param.go:28-31 (WithGrad) *)
Definition with_grad (s : state) (k : nat) (b : bool) : option state :=
  match nth_error (params s) k with Some p => set_requires s (matrix p) b | None => None end.
(** nn/param.go:33-36 (ReplaceValue) *)
Definition replace_value (s : state) (k i : nat) : option state :=
  match nth_error (params s) k with Some _ => Some (put_param s k (mkParam i None)) | None => None end.
(** what the OptimizeParams of the optimizers do to a parameter: p.SubInPlace and p.State (for instance
    optimizers/adam/adam.go:103-135, optimizers/sgd/sgd.go:60-88) *)
Definition optimize (s : state) (k : nat) (l : list T) (o : option S) : option state :=
  match nth_error (params s) k with
  | Some p => write (put_param s k (mkParam (matrix p) o)) (matrix p) l
  | None => None end.

Inductive call :=
| New (p : precision) (r c : nat) (l : list T)
| Clone (x : ref)
| Value (x : ref)
| Grad (x : ref)
| Write (x : ref) (l : list T)
| Reshape (x : ref) (r c : nat)
| SetRequiresGrad (x : ref) (b : bool)
| AccGrad (x g : ref)
| ZeroGrad (x : ref)
| NewParam (x : ref)
| WithGrad (k : nat) (b : bool)
| ReplaceValue (k : nat) (v : nat)
| Optimize (k : nat) (l : list T) (o : option S)
| Buf (v : nat)
| BufValue (b : nat)
| BufAccGrad (b : nat) (g : ref)
| BufZeroGrad (b : nat)
| BufSetRequiresGrad (b : nat) (v : bool).

Definition on (s : state) (x : ref) (f : nat -> option state) : option state := match resolve s x with Some i => f i | None => None end.
Definition on_buf (s : state) (b : nat) (f : nat -> option state) : option state := match nth_error (bufs s) b with Some i => f i | None => None end.

Definition step (s : state) (c : call) : option state :=
  match c with
  | New p r c l => new_dense s p r c l
  | Clone x => on s x (clone s)
  (* mat/dense.go: Value returns the receiver *)
  | Value x => on s x (fun i => Some (hold s i))
  | Grad x => on s x (get_grad s)
  | Write x l => on s x (fun i => write s i l)
  | Reshape x r c => on s x (fun i => reshape s i r c)
  | SetRequiresGrad x b => on s x (fun i => set_requires s i b)
  | AccGrad x g => on s x (fun i => on s g (acc_grad s i))
  | ZeroGrad x => on s x (zero_grad s)
  | NewParam x => on s x (new_param s)
  | WithGrad k b => with_grad s k b
  | ReplaceValue k v => on s (Var v) (replace_value s k)
  | Optimize k l o => optimize s k l o
  (* nn/buffer.go:26-30 and ag/gradientblocker.go:25-29 (Buf, StopGrad): nothing is copied *)
  | Buf v => on s (Var v) (fun i => Some (hold_buf s i))
  (* promoted methods of the wrapped matrix *)
  | BufValue b => on_buf s b (fun i => Some (hold s i))
  (* ag/gradientblocker.go:34-35, 43-44: no effect *)
  | BufAccGrad b _ => on_buf s b (fun _ => Some s)
  | BufZeroGrad b => on_buf s b (fun _ => Some s)
  (* promoted too *)
  | BufSetRequiresGrad b v => on_buf s b (fun i => set_requires s i v)
  end.
Fixpoint run (s : state) (cs : list call) : option state :=
  match cs with [] => Some s | c :: cs => match step s c with Some s => run s cs | None => None end end.

(** what calls report.  Grad() returns an interface value; that of a matrix holds a pointer, which may be nil, and an
    interface value that holds a nil pointer differs from nil (mat/dense_grad.go:12-17). *)
Inductive interface := NilInterface | Pointer (p : option nat).
Definition equals_nil (i : interface) : bool := match i with NilInterface => true | Pointer _ => false end.
Definition tensor_at (s : state) (x : ref) : option tensor := match resolve s x with Some i => nth_error (tensors s) i | None => None end.
Definition grad_result (s : state) (x : ref) : option interface := option_map (fun t => Pointer (grad t)) (tensor_at s x).
(** mat/dense_grad.go:34-38 (HasGrad), 40-43 (RequiresGrad) *)
Definition has_grad (s : state) (x : ref) : option bool :=
  option_map (fun t => match grad t with Some _ => true | None => false end) (tensor_at s x).
Definition requires (s : state) (x : ref) : option bool := option_map requires_grad (tensor_at s x).
(** ag/gradientblocker.go:31-41 *)
Definition buf_grad_result (s : state) (b : nat) : option interface := option_map (fun _ => NilInterface) (nth_error (bufs s) b).
Definition buf_has_grad (s : state) (b : nat) : option bool := option_map (fun _ => false) (nth_error (bufs s) b).
Definition buf_requires (s : state) (b : nat) : option bool := option_map (fun _ => false) (nth_error (bufs s) b).
End Param.
Arguments tensor : clear implicits.
Arguments param : clear implicits.
Arguments state : clear implicits.
Arguments call : clear implicits.
