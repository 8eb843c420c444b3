(** * Which slices matrices share (mat/dense.go, dense_new.go)

    A matrix object is a pair of references: its shape slice and its data slice.  Go passes the argument [d.shape...]
    of a variadic function without copying it, so makeDense(array, d.shape...) and NewDense(WithShape(d.shape...)) give
    the new matrix the shape slice of the receiver.  The numbers the methods compute are the subject of DenseModel.v and
    ArithModel.v; here they are parameters, and the model says which slices each method allocates, shares and writes.
    A call that panics is taken to leave the memory as it was. *)
From Coq Require Import List Arith Bool.
From Verif Require Import DenseModel GradModel.
Import ListNotations.

(** methods and functions that allocate both slices (dense.go:119-122, 187-346, 681-816, 1013-1072, 1117-1177, 1181-1193,
    1214-1298; matrix.go:281-321); SplitV returns several such matrices *)
Inductive fresh_method :=
  ExtractRow | ExtractColumn | Slice | Reshape | Flatten | ResizeVector | TransposeM | Mul | MulT | DotUnitary | At | Sum | Max | Min
| CumSum | Range | SplitV | Augment | PadRows | PadColumns | AppendRows | Norm | ConcatV | Stack.
(** methods that allocate the data and pass on the receiver's shape slice (dense.go:78-92, 413-428, 452-463, 482-497, 519-530,
    549-570, 591-602, 640-655, 845-1010, 1303-1336, 1365-1388, 1435-1440), and NewDense(WithShape(m.Shape()...)) *)
Inductive same_method :=
  ZerosLike | OnesLike | Add | AddScalar | Sub | SubScalar | Prod | ProdScalar | Div | Maximum | Minimum | Abs | Pow | Sqrt | Log | Exp
| Sigmoid | Normalize2 | Apply | ApplyWithAlpha | Clone | NewLikeShape.
(** methods that write the receiver's data and no shape (dense.go:66-75, 103-129, 432-447, 467-478, 501-516, 534-545, 574-588,
    606-637, 659-677, 822-838, 1197-1210, 1339-1361, 1393-1404, 1444-1449) *)
Inductive write_method :=
  SetData | Zeros | SetAt | SetScalar | AddInPlace | AddScalarInPlace | SubInPlace | SubScalarInPlace | ProdInPlace | ProdScalarInPlace
| ProdMatrixScalarInPlace | DivInPlace | ClipInPlace | SwapInPlace | ApplyInPlace | ApplyWithAlphaInPlace | Copy.

Section Heap.
(** the elements, and whatever other arguments the methods take *)
Context {T A : Type}.
(** what the methods compute *)
Variable fresh_value : fresh_method -> A -> dense T -> list (dense T) -> option (dense T).
Variable same_value : same_method -> A -> dense T -> list (dense T) -> option (list T).
Variable write_value : write_method -> A -> dense T -> list (dense T) -> option (list T).
Variable softmax_value : dense T -> list T.

Record obj := mkObj { sh : nat; ar : nat }.
Record heap := mkHeap { shapes : list (nat * nat); arrays : list (list T); objs : list obj }.
Definition empty : heap := mkHeap [] [] [].

(** what an object is at the moment *)
Definition value (h : heap) (o : nat) : option (dense T) :=
  do b <- nth_error (objs h) o; do s <- nth_error (shapes h) (sh b); do l <- nth_error (arrays h) (ar b); Some (mkDense (fst s) (snd s) l).
Fixpoint values (h : heap) (os : list nat) : option (list (dense T)) :=
  match os with [] => Some [] | o :: os => do v <- value h o; do vs <- values h os; Some (v :: vs) end.

(** allocations *)
Definition new_both (h : heap) (d : dense T) : heap :=
  mkHeap (shapes h ++ [(rows d, cols d)]) (arrays h ++ [data d]) (objs h ++ [mkObj (length (shapes h)) (length (arrays h))]).
Definition new_data (h : heap) (s : nat) (l : list T) : heap :=
  mkHeap (shapes h) (arrays h ++ [l]) (objs h ++ [mkObj s (length (arrays h))]).
Definition new_shape (h : heap) (s : nat * nat) (a : nat) : heap :=
  mkHeap (shapes h ++ [s]) (arrays h) (objs h ++ [mkObj (length (shapes h)) a]).
Definition write_shape (h : heap) (s : nat) (v : nat * nat) : heap := mkHeap (put (shapes h) s v) (arrays h) (objs h).
Definition write_data (h : heap) (a : nat) (l : list T) : heap := mkHeap (shapes h) (put (arrays h) a l) (objs h).

Inductive call :=
| NewDense (r c : nat) (l : list T)
| NewBacking (r c : nat) (o : nat)
| Fresh (m : fresh_method) (a : A) (o : nat) (others : list nat)
| Same (m : same_method) (a : A) (o : nat) (others : list nat)
| Write (m : write_method) (a : A) (o : nat) (others : list nat)
| Softmax (o : nat)
| ReshapeInPlace (o r c : nat)
| FlattenInPlace (o : nat)
| TransposeInPlace (o : nat).

(** TransposeInPlace (dense.go:353-408) on object b: the two entries of the shape slice are exchanged, and the data permuted *)
Definition transpose_at (h : heap) (b : obj) : option heap :=
  do s <- nth_error (shapes h) (sh b); do l <- nth_error (arrays h) (ar b);
  do t <- transpose_in_place (mkDense (fst s) (snd s) l);
  Some (write_data (write_shape h (sh b) (snd s, fst s)) (ar b) (data t)).

Definition step (h : heap) (c : call) : option heap :=
  match c with
  (* NewDense(WithShape(r, c), WithBacking(l)) with slices of the caller's that nothing else refers to (dense_new.go:40-91) *)
  | NewDense r c l => if length l =? r * c then Some (new_both h (mkDense r c l)) else None
  (* NewDense(WithShape(r, c), WithBacking(Data(m))), also as m.NewMatrix: the data slice is kept (dense_new.go:86-90, floatslice.go:121-124) *)
  | NewBacking r c o => do b <- nth_error (objs h) o; do l <- nth_error (arrays h) (ar b);
      if length l =? r * c then Some (new_shape h (r, c) (ar b)) else None
  | Fresh m a o os => do v <- value h o; do vs <- values h os; do d <- fresh_value m a v vs; Some (new_both h d)
  | Same m a o os => do b <- nth_error (objs h) o; do v <- value h o; do vs <- values h os; do l <- same_value m a v vs;
      if length l =? length (data v) then Some (new_data h (sh b) l) else None
  | Write m a o os => do b <- nth_error (objs h) o; do v <- value h o; do vs <- values h os; do l <- write_value m a v vs;
      if length l =? length (data v) then Some (write_data h (ar b) l) else None
  (* Softmax (dense.go:1082-1113): SubScalar, which shares the shape slice, then TransposeInPlace of the result if it is a row *)
  | Softmax o => do b <- nth_error (objs h) o; do v <- value h o;
      if negb (is_vector v) then None
      else if length (data v) =? 0 then Some (new_both h (mkDense 0 1 []))
      else if negb (length (softmax_value v) =? length (data v)) then None
      else let h' := new_data h (sh b) (softmax_value v) in
           if cols v =? 1 then Some h' else transpose_at h' (mkObj (sh b) (length (arrays h)))
  (* ReshapeInPlace, FlattenInPlace (dense.go:270-284, 299-303) *)
  | ReshapeInPlace o r c => do b <- nth_error (objs h) o; do v <- value h o;
      if r * c =? length (data v) then Some (write_shape h (sh b) (r, c)) else None
  | FlattenInPlace o => do b <- nth_error (objs h) o; do v <- value h o; Some (write_shape h (sh b) (1, length (data v)))
  | TransposeInPlace o => do b <- nth_error (objs h) o; transpose_at h b
  end.

(** a history: a call that panics changes nothing *)
Fixpoint run (h : heap) (cs : list call) : heap :=
  match cs with [] => h | c :: cs => run (match step h c with Some h' => h' | None => h end) cs end.
End Heap.
Arguments call : clear implicits.
Arguments heap : clear implicits.
