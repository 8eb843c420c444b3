(** * Dense matrices: arithmetic

    Model of the computing methods of [Dense[T]] (/repo/mat/dense.go) and of the
    pure Go kernels they call (/repo/mat/internal/matfuncs/*_purego.go,
    /repo/mat/internal/f32, /repo/mat/internal/f64; the amd64 assembly versions
    of the same kernels are in AsmModel and GemModel).  The element type and its operations
    are parameters; loops that assign elements one by one are modelled as such,
    the in-place ones reading the array they are writing.  [None] is a panic.
    Indices read by a loop are in range by the dimension check that precedes
    it; reads outside give [zero]. *)
From Coq Require Import List Arith Bool.
From Verif Require Import DenseModel.
Import ListNotations.

Section Arith.
Context {T : Type}.
Variable zero one : T.
Variable add sub mul div : T -> T -> T.
Variable opp : T -> T.
Variable lt : T -> T -> bool.       (* Go's < *)
Variable is_zero : T -> bool.       (* Go's v == 0 *)
Notation dense := (dense T).
Notation "l .[ i ]" := (nth i l zero) (at level 2, format "l .[ i ]").

(** [for i := range x { body }], and counting down; [body i] updates the array. *)
Fixpoint loop_up (body : nat -> list T -> list T) (i fuel : nat) (st : list T) : list T :=
  match fuel with O => st | S fuel => loop_up body (S i) fuel (body i st) end.
Fixpoint loop_down (body : nat -> list T -> list T) (fuel : nat) (st : list T) : list T :=
  match fuel with O => st | S fuel => loop_down body fuel (body fuel st) end.

(** add, sub, div (matfuncs/add_purego.go:19-28, sub_purego.go, div_purego.go): y distinct from x1 *)
Definition binary_kernel (op : T -> T -> T) (x1 x2 y : list T) : list T :=
  loop_up (fun i y => put y i (op x1.[i] x2.[i])) 0 (length x1) y.
(** the same called with y = x1, as the in-place methods do *)
Definition binary_kernel_in_place (op : T -> T -> T) (x1 x2 : list T) : list T :=
  loop_up (fun i st => put st i (op st.[i] x2.[i])) 0 (length x1) x1.
(** the same with y = x1 = x2 (x.AddInPlace(x)) *)
Definition binary_kernel_self (op : T -> T -> T) (x : list T) : list T :=
  loop_up (fun i st => put st i (op st.[i] st.[i])) 0 (length x) x.
(** addConst, mulConst (matfuncs/addconst_purego.go:19-27, mulconst_purego.go:19-27) *)
Definition const_kernel (op : T -> T -> T) (c : T) (x y : list T) : list T :=
  loop_up (fun i y => put y i (op x.[i] c)) 0 (length x) y.
Definition const_kernel_in_place (op : T -> T -> T) (c : T) (x : list T) : list T :=
  loop_up (fun i st => put st i (op st.[i] c)) 0 (length x) x.
(** sum (matfuncs/sum_purego.go), dotProd (matfuncs/dotprod_purego.go:21-30),
    DotUnitary (f64/asm64/dot.go:16-21) *)
Definition sum_kernel (x : list T) : T := fold_left add x zero.
Fixpoint dot_loop (acc : T) (x1 x2 : list T) : T :=
  match x1, x2 with
  | a :: x1, b :: x2 => dot_loop (add acc (mul a b)) x1 x2
  | _, _ => acc
  end.
Definition dot_kernel (x1 x2 : list T) : T := dot_loop zero x1 x2.
(** AxpyUnitary (f32/asm32/stubs_noasm.go:15-19, f64/asm64/axpy.go:15-19) *)
Definition axpy (alpha : T) (x y : list T) : list T :=
  loop_up (fun i y => put y i (add y.[i] (mul alpha x.[i]))) 0 (length x) y.
(** AxpyUnitaryTo with dst = y (f32/asm32/stubs_noasm.go:26-30, f64/asm64/axpy.go:26-30) *)
Definition axpy_to (alpha : T) (x y : list T) : list T :=
  loop_up (fun i y => put y i (add (mul alpha x.[i]) y.[i])) 0 (length x) y.

(** MatrixMul (f32/gonum.go:11-22, f64/gonum.go:11-22) *)
Fixpoint mul_row (bCols l : nat) (vs : list T) (b ctmp : list T) : list T :=
  match vs with
  | [] => ctmp
  | v :: vs => mul_row bCols (S l) vs b
                 (if is_zero v then ctmp else axpy v (slice b (l * bCols) (l * bCols + bCols)) ctmp)
  end.
Fixpoint mul_rows (aCols bCols : nat) (a b : list T) (i fuel : nat) (c : list T) : list T :=
  match fuel with
  | O => c
  | S fuel =>
      let ctmp := slice c (i * bCols) (i * bCols + bCols) in
      let row := mul_row bCols 0 (slice a (i * aCols) (i * aCols + aCols)) b ctmp in
      mul_rows aCols bCols a b (S i) fuel (blit c (i * bCols) row)
  end.
Definition matrix_mul (aRows aCols bCols : nat) (a b c : list T) : list T :=
  mul_rows aCols bCols a b 0 aRows c.
(** The matrix-vector path of float32 (dense.go:715-727). *)
Fixpoint mul_vec32 (dCols from : nat) (a b : list T) (i fuel : nat) (out : list T) : list T :=
  match fuel with
  | O => out
  | S fuel => let to := from + dCols in
              mul_vec32 dCols to a b (S i) fuel (put out i (dot_kernel (slice a from to) b))
  end.
(** The matrix-vector path of float64: GemvN with alpha 1, beta 0, unit strides
    (dense.go:743-755, f64/asm64/ge_noasm.go:44-61); DotUnitary multiplies y[i]*v. *)
Fixpoint dot_unitary (acc : T) (x y : list T) : T :=
  match x, y with
  | v :: x, w :: y => dot_unitary (add acc (mul w v)) x y
  | _, _ => acc
  end.
Fixpoint gemv_n (n : nat) (a x : list T) (i fuel : nat) (y : list T) : list T :=
  match fuel with
  | O => y
  | S fuel => gemv_n n a x (S i) fuel (put y i (mul one (dot_unitary zero (slice a (n * i) (n * i + n)) x)))
  end.
(** Mul (dense.go:681-758); [wide] is true for float64. *)
Definition mat_mul (wide : bool) (d o : dense) : option dense :=
  if negb (cols d =? rows o) then None
  else
    let out := repeat zero (rows d * cols o) in
    if negb (cols o =? 1) then Some (mkDense (rows d) (cols o) (matrix_mul (rows d) (cols d) (cols o) (data d) (data o) out))
    else if wide then Some (mkDense (rows d) (cols o) (gemv_n (cols d) (data d) (data o) 0 (rows d) out))
    else Some (mkDense (rows d) (cols o) (mul_vec32 (cols d) 0 (data d) (data o) 0 (length out) out)).
(** MulT (dense.go:757-802) *)
Fixpoint mul_t_loop (dCols from : nat) (a other : list T) (out : list T) : list T :=
  match other with
  | [] => out
  | v :: other => let to := from + dCols in mul_t_loop dCols to a other (axpy_to v (slice a from to) out)
  end.
Definition mat_mul_t (d o : dense) : option dense :=
  if negb (rows d =? rows o) then None
  else if negb (cols o =? 1) then None
  else Some (mkDense (cols d) (cols o) (mul_t_loop (cols d) 0 (data d) (data o) (repeat zero (cols d * cols o)))).
(** DotUnitary (dense.go:805-819) *)
Definition mat_dot (d o : dense) : option dense :=
  if same_dims d o then Some (scalar (dot_kernel (data d) (data o))) else None.

(** Add, Sub, Div (dense.go:413-430, 482-499, 640-657) *)
Definition mat_binary (op : T -> T -> T) (d o : dense) : option dense :=
  if same_dims d o
  then Some (mkDense (rows d) (cols d) (binary_kernel op (data d) (data o) (repeat zero (rows d * cols d))))
  else None.
(** AddInPlace, SubInPlace, DivInPlace (dense.go:432-449, 501-516, 659-676) *)
Definition mat_binary_in_place (op : T -> T -> T) (d o : dense) : option dense :=
  if same_dims d o then Some (mkDense (rows d) (cols d) (binary_kernel_in_place op (data d) (data o))) else None.
Definition mat_binary_self (op : T -> T -> T) (d : dense) : dense :=
  mkDense (rows d) (cols d) (binary_kernel_self op (data d)).
(** AddScalar, AddScalarInPlace (dense.go:452-479), ProdScalar, ProdScalarInPlace (591-619) *)
Definition mat_const (op : T -> T -> T) (d : dense) (n : T) : dense :=
  mkDense (rows d) (cols d) (const_kernel op n (data d) (repeat zero (length (data d)))).
Definition mat_const_in_place (op : T -> T -> T) (d : dense) (n : T) : dense :=
  mkDense (rows d) (cols d) (const_kernel_in_place op n (data d)).
(** SubScalar, SubScalarInPlace (dense.go:519-546): the negated constant is added. *)
Definition sub_scalar (d : dense) (n : T) : dense := mat_const add d (opp n).
Definition sub_scalar_in_place (d : dense) (n : T) : dense := mat_const_in_place add d (opp n).
(** Prod (dense.go:549-571): the loop runs downwards. *)
Definition mat_prod (d o : dense) : option dense :=
  if same_dims d o
  then Some (mkDense (rows d) (cols d)
         (loop_down (fun i out => put out i (mul (data d).[i] (data o).[i])) (length (data o)) (repeat zero (length (data d)))))
  else None.
(** ProdInPlace (dense.go:574-588) *)
Definition mat_prod_in_place (d o : dense) : option dense :=
  if same_dims d o then Some (mkDense (rows d) (cols d) (binary_kernel_in_place mul (data d) (data o))) else None.
(** ProdMatrixScalarInPlace (dense.go:622-637) *)
Definition prod_matrix_scalar_in_place (d m : dense) (n : T) : option dense :=
  if same_dims d m then Some (mkDense (rows d) (cols d) (const_kernel mul n (data m) (data d))) else None.
(** Maximum, Minimum (dense.go:845-896) *)
Definition mat_maximum (d o : dense) : option dense :=
  mat_binary (fun a b => if lt b a then a else b) d o.
Definition mat_minimum (d o : dense) : option dense :=
  mat_binary (fun a b => if lt a b then a else b) d o.
(** Abs, Pow, Sqrt, Log, Exp (dense.go:899-986): one assignment per element *)
Definition mat_unary (f : T -> T) (d : dense) : dense :=
  mkDense (rows d) (cols d) (loop_up (fun i out => put out i (f (data d).[i])) 0 (length (data d)) (repeat zero (length (data d)))).
(** Sigmoid (dense.go:989-1010): multiply by -1, exponentiate in place, then 1/(1+v) in place. *)
Definition mat_sigmoid (exp : T -> T) (d : dense) : dense :=
  let out := data (mat_const mul d (opp one)) in
  let out := loop_up (fun i st => put st i (exp st.[i])) 0 (length out) out in
  mkDense (rows d) (cols d) (loop_up (fun i st => put st i (div one (add one st.[i]))) 0 (length out) out).
(** ClipInPlace (dense.go:822-842) *)
Definition clip_in_place (d : dense) (mn mx : T) : option dense :=
  if lt mx mn then None
  else Some (mkDense (rows d) (cols d)
         (loop_up (fun i st => let v := st.[i] in if lt v mn then put st i mn else if lt mx v then put st i mx else st)
            0 (length (data d)) (data d))).
(** Sum (dense.go:1013-1026) *)
Definition mat_sum (d : dense) : T := sum_kernel (data d).
(** max, Min (dense.go:1033-1058) *)
Definition max_loop (m : T) (vs : list T) : T := fold_left (fun m v => if lt m v then v else m) vs m.
Definition min_loop (m : T) (vs : list T) : T := fold_left (fun m v => if lt v m then v else m) vs m.
Definition mat_max (d : dense) : option T := match data d with [] => None | v :: vs => Some (max_loop v vs) end.
Definition mat_min (d : dense) : option T := match data d with [] => None | v :: vs => Some (min_loop v vs) end.
(** ArgMax (dense.go:1061-1079) *)
Fixpoint arg_max_loop (i maxIndex : nat) (maxValue : T) (vs : list T) : nat :=
  match vs with
  | [] => maxIndex
  | v :: vs => if lt maxValue v then arg_max_loop (S i) i v vs else arg_max_loop (S i) maxIndex maxValue vs
  end.
Definition arg_max (d : dense) : option nat :=
  if negb (is_vector d) then None
  else match data d with [] => None | v :: _ => Some (arg_max_loop 0 0 v (data d)) end.
(** CumSum (dense.go:1117-1138; f32/gonum.go:56-66, f64/asm64/stubs_noasm.go:70-79) *)
Fixpoint cum_sum_loop (i : nat) (vs : list T) (dst : list T) : list T :=
  match vs with
  | [] => dst
  | v :: vs => cum_sum_loop (S i) vs (put dst (S i) (add dst.[i] v))
  end.
Definition cum_sum (d : dense) : option dense :=
  if negb (is_vector d) then None
  else match data d with
       | [] => Some (mkDense 0 1 [])
       | v :: vs => Some (mkDense (length (data d)) 1 (cum_sum_loop 0 vs (put (repeat zero (length (data d))) 0 v)))
       end.
(** DoVecNonZero (dense.go:1422-1432): the calls made, in order. *)
Fixpoint vec_nonzero_loop (i : nat) (vs : list T) : list (nat * T) :=
  match vs with
  | [] => []
  | v :: vs => if is_zero v then vec_nonzero_loop (S i) vs else (i, v) :: vec_nonzero_loop (S i) vs
  end.
Definition do_vec_non_zero (d : dense) : option (list (nat * T)) :=
  if is_vector d then Some (vec_nonzero_loop 0 (data d)) else None.
End Arith.
