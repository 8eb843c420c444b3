(** * The products of matrices on amd64: the Go code around the assembly

    Memory is that of AsmModel.  A slice is its address and its length; slicing is checked against the length (the code checks
    the capacity, which is not smaller).  A call of an assembly function starts with arbitrary registers and flags. *)
From Coq Require Import ZArith String Bool List Arith.
From Flocq Require Import Core BinarySingleNaN.
From Verif Require Import AsmModel AsmCalls FloatModel NumModel.
From Verif Require GemModel GemCode.
Import ListNotations.
Local Open Scope string_scope.
Local Open Scope nat_scope.

Record gslice := mkSlice { ptr : Z; len : nat }.

Section Calls.
Variable A : lanes.
Variable esize : Z.
Variable half : nat.
Notation L := (lane A).
(** COMISD on two elements; Go's v == 0 *)
Variable equal : L -> L -> bool.
Variable is_zero : L -> bool.
Notation memory := (Z -> option L).

(** s[i:j] *)
Definition sub (s : gslice) (i j : nat) : option gslice :=
  if (i <=? j) && (j <=? len s) then Some (mkSlice (ptr s + esize * Z.of_nat i)%Z (j - i)) else None.
Definition get (m : memory) (s : gslice) (i : nat) : option L := if i <? len s then m (ptr s + esize * Z.of_nat i)%Z else None.
Definition set (m : memory) (s : gslice) (i : nat) (v : L) : option memory := if i <? len s then write A esize m (ptr s + esize * Z.of_nat i)%Z [v] else None.
(** the integers in a frame *)
Definition frame (l : list (string * Z)) : string -> Z :=
  fun s => match find (fun p => String.eqb (fst p) s) l with Some p => snd p | None => 0%Z end.
Definition slice_args (name : string) (s : gslice) : list (string * Z) := [(name ++ "_base", ptr s); (name ++ "_len", Z.of_nat (len s))]%string.
(** The statements below have the form: the program, started in memory m, ends without a panic or a fault, and the memory it
    leaves meets Q.  The function c, called with these arguments in memory m (and any registers and flags): *)
Definition call (c : GemModel.code) (farg : string -> L) (fr : list (string * Z)) (m : memory) (Q : memory -> Prop) : Prop :=
  forall st : GemModel.state A, GemModel.mem A st = m -> GemModel.args A st = frame fr ->
  exists st', GemModel.returns A esize half equal farg c st st' /\ Q (GemModel.mem A st').

(** MatrixMul (f32/gonum.go:11-22, f64/gonum.go:11-22): from element l on, k elements of the row remain *)
Fixpoint mul_row (axpy : GemModel.code) (bCols : nat) (row b ctmp : gslice) (l k : nat) (m : memory) (Q : memory -> Prop) : Prop :=
  match k with
  | O => Q m
  | S k => exists v, get m row l = Some v /\
             if is_zero v then mul_row axpy bCols row b ctmp (S l) k m Q
             else exists x, sub b (l * bCols) (l * bCols + bCols) = Some x /\
                    call axpy (fun _ => v) (slice_args "x" x ++ slice_args "y" ctmp) m (fun m1 => mul_row axpy bCols row b ctmp (S l) k m1 Q)
  end.
Fixpoint mul_rows (axpy : GemModel.code) (aCols bCols : nat) (a b c : gslice) (i k : nat) (m : memory) (Q : memory -> Prop) : Prop :=
  match k with
  | O => Q m
  | S k => exists ctmp row, sub c (i * bCols) (i * bCols + bCols) = Some ctmp /\ sub a (i * aCols) (i * aCols + aCols) = Some row /\
             mul_row axpy bCols row b ctmp 0 (len row) m (fun m1 => mul_rows axpy aCols bCols a b c (S i) k m1 Q)
  end.
Definition MatrixMul (axpy : GemModel.code) (aRows aCols bCols : nat) (a b c : gslice) (m : memory) (Q : memory -> Prop) : Prop :=
  mul_rows axpy aCols bCols a b c 0 aRows m Q.

(** MulT (dense.go:777-782, 792-797): the loop over the elements of the other matrix, from element i on *)
Fixpoint mul_t (axpy_to : GemModel.code) (dCols from : nat) (d other out : gslice) (i k : nat) (m : memory) (Q : memory -> Prop) : Prop :=
  match k with
  | O => Q m
  | S k => exists v x, get m other i = Some v /\ sub d from (from + dCols) = Some x /\
             call axpy_to (fun _ => v) (slice_args "dst" out ++ slice_args "x" x ++ slice_args "y" out) m
               (fun m1 => mul_t axpy_to dCols (from + dCols) d other out (S i) k m1 Q)
  end.
Definition MulT (axpy_to : GemModel.code) (dCols : nat) (d other out : gslice) (m : memory) (Q : memory -> Prop) : Prop :=
  mul_t axpy_to dCols 0 d other out 0 (len other) m Q.

(** The matrix-vector path of float32 (dense.go:713-718); [dot] is DotProd32 on the processor at hand. *)
Definition dot_call (dot : code) (x1 x2 : gslice) (m : memory) (Q : L -> memory -> Prop) : Prop :=
  forall st : state A, mem A st = m ->
  exists st' v, returns A esize half (mkFrame A (frame (slice_args "x1" x1 ++ slice_args "x2" x2)) (fun _ => zero A)) dot st st' /\ ret A st' = Some v /\ Q v (mem A st').
Fixpoint mul_vec (dot : code) (dCols from : nat) (d other out : gslice) (i k : nat) (m : memory) (Q : memory -> Prop) : Prop :=
  match k with
  | O => Q m
  | S k => exists x, sub d from (from + dCols) = Some x /\
             dot_call dot x other m (fun v m => exists m1, set m out i v = Some m1 /\ mul_vec dot dCols (from + dCols) d other out (S i) k m1 Q)
  end.
Definition MulVec (dot : code) (dCols : nat) (d other out : gslice) (m : memory) (Q : memory -> Prop) : Prop :=
  mul_vec dot dCols 0 d other out 0 (len out) m Q.

(** The matrix-vector path of float64 (dense.go:735-746) *)
Definition MulVecGemv (gemv : GemModel.code) (one : L) (dRows dCols : nat) (d other out : gslice) (m : memory) (Q : memory -> Prop) : Prop :=
  call gemv (fun s => if String.eqb s "alpha" then one else zero A)
    ([("m", Z.of_nat dRows); ("n", Z.of_nat dCols); ("lda", Z.of_nat dCols); ("incX", 1%Z); ("incY", 1%Z)] ++ slice_args "a" d ++ slice_args "x" other ++ slice_args "y" out) m Q.

(** CumSum of float64 (dense.go:1132) *)
Definition CumSum (cumsum : GemModel.code) (out d : gslice) (m : memory) (Q : memory -> Prop) : Prop :=
  call cumsum (fun _ => zero A) (slice_args "dst" out ++ slice_args "s" d) m Q.
End Calls.

(** ** The methods of Dense[float32] and Dense[float64] (dense.go:680-797, 1117-1138) after their dimension checks, in IEEE 754
    arithmetic; the result slice is the one that malloc returned *)
Definition esize_of (d : dtype) : Z := match d with F32 => 4 | F64 => 8 end.
Definition half_of (d : dtype) : nat := match d with F32 => 4 | F64 => 2 end.
(** the zero flag of COMISD (Intel's manual, volume 2): equal, or one operand is a NaN *)
Definition comis {d} (x y : val d) : bool := match Bcompare x y with Some Eq | None => true | _ => false end.
(** Go's v == 0 *)
Definition go_zero {d} (v : val d) : bool := Beqb v fzero.
(** AxpyUnitary and AxpyUnitaryTo of asm32 and asm64 *)
Definition Axpy (d : dtype) : GemModel.code := match d with F32 => GemCode.axpy_unitary32 | F64 => GemCode.axpy_unitary64 end.
Definition AxpyTo (d : dtype) : GemModel.code := match d with F32 => GemCode.axpy_unitary_to32 | F64 => GemCode.axpy_unitary_to64 end.
(** Mul (dense.go:680-750) of a matrix a (rows, cols) and a matrix b with bCols columns *)
Definition MatMul (d : dtype) (c : cpu) (rows cols bCols : nat) (a b out : gslice) (m : Z -> option (val d)) (Q : (Z -> option (val d)) -> Prop) : Prop :=
  if bCols =? 1 then
    match d return (Z -> option (val d)) -> ((Z -> option (val d)) -> Prop) -> Prop with
    | F32 => MulVec (floats F32) 4 4 (DotProd32 c) cols a b out
    | F64 => MulVecGemv (floats F64) 8 2 comis GemCode.gemv_n64 fone rows cols a b out
    end m Q
  else MatrixMul (floats d) (esize_of d) (half_of d) comis go_zero (Axpy d) rows cols bCols a b out m Q.
(** MulT (dense.go:756-799) *)
Definition MatMulT (d : dtype) (cols : nat) (a b out : gslice) (m : Z -> option (val d)) (Q : (Z -> option (val d)) -> Prop) : Prop :=
  MulT (floats d) (esize_of d) (half_of d) comis (AxpyTo d) cols a b out m Q.
(** CumSum of float32 (f32/gonum.go:57-66): from element i of s[1:] on, k elements remain *)
Fixpoint cumsum_loop (dst s : gslice) (i k : nat) (m : Z -> option (val F32)) (Q : (Z -> option (val F32)) -> Prop) : Prop :=
  match k with
  | O => Q m
  | S k => exists v w m1, get (floats F32) 4 m s (S i) = Some v /\ get (floats F32) 4 m dst i = Some w /\
             set (floats F32) 4 m dst (S i) (fadd w v) = Some m1 /\ cumsum_loop dst s (S i) k m1 Q
  end.
Definition CumSum32 (dst s : gslice) (m : Z -> option (val F32)) (Q : (Z -> option (val F32)) -> Prop) : Prop :=
  match len s with
  | O => Q m
  | S k => exists v m1, get (floats F32) 4 m s 0 = Some v /\ set (floats F32) 4 m dst 0 v = Some m1 /\ cumsum_loop dst s 0 k m1 Q
  end.
(** CumSum (dense.go:1117-1138) *)
Definition MatCumSum (d : dtype) (out s : gslice) (m : Z -> option (val d)) (Q : (Z -> option (val d)) -> Prop) : Prop :=
  match len s with
  | O => Q m
  | S _ => match d return (Z -> option (val d)) -> ((Z -> option (val d)) -> Prop) -> Prop with
           | F32 => CumSum32 out s
           | F64 => CumSum (floats F64) 8 2 comis GemCode.cum_sum64 out s
           end m Q
  end.
