(** * Softmax and Sigmoid on amd64 (mat/dense.go:989-1010, 1082-1112)

    The methods, after their checks of the shape, over the kernels of AsmCode.v.  For float32 the memory holds words of 32
    bits (AsmWords.v), for float64 it holds values: Exp64 is a Go loop.  The statements have the form of GemCalls.v: the
    method, started in memory m, ends without a panic or a fault, and the memory it leaves meets Q.  Not modelled: the shape
    of the result (TransposeInPlace of a vector exchanges its two dimensions only). *)
From Coq Require Import ZArith String Bool List Arith.
From Flocq Require Import Core BinarySingleNaN.
From Verif Require Import AsmModel AsmCalls FloatModel NumModel.
From Verif Require AsmWords GemCalls.
Import ListNotations.
Local Open Scope string_scope.
Local Open Scope nat_scope.

(** the cells, and the values in them *)
Definition lanes_at (d : dtype) : lanes := match d with F32 => AsmWords.words | F64 => floats F64 end.
Definition dec {d : dtype} : lane (lanes_at d) -> val d := match d with F32 => AsmWords.decode | F64 => fun v => v end.
Definition enc {d : dtype} : val d -> lane (lanes_at d) := match d with F32 => AsmWords.encode | F64 => fun v => v end.
Notation esize_of := GemCalls.esize_of.
Notation half_of := GemCalls.half_of.

Section Methods.
Variable g : libm.
Variable d : dtype.
Variable c : cpu.
Notation A := (lanes_at d).
Notation memory := (Z -> option (lane A)).
Notation cell a i := (a + esize_of d * Z.of_nat i)%Z.

(** A call of AddConst32/64 or MulConst32/64 with the constant k, from the n elements at x to those at y (dense.go:524-526, 596-598, 610-613) *)
Definition const_call (f : code) (k : val d) (x y : Z) (n : nat) (m : memory) (Q : memory -> Prop) : Prop :=
  forall st : state A, mem A st = m ->
  exists st', returns A (esize_of d) (half_of d)
    (mkFrame A (GemCalls.frame [("x_base", x); ("x_len", Z.of_nat n); ("y_base", y); ("y_len", Z.of_nat n)]) (fun _ => enc k)) f st st' /\ Q (mem A st').
Definition AddConst : code := match d with F32 => AddConst32 c | F64 => AddConst64 c end.
Definition MulConst : code := match d with F32 => MulConst32 c | F64 => MulConst64 c end.
(** sum (dense.go:1017-1026) *)
Definition SumConst : code := match d with F32 => Sum32 c | F64 => Sum64 c end.
Definition sum_call (x : Z) (n : nat) (m : memory) (Q : val d -> memory -> Prop) : Prop :=
  forall st : state A, mem A st = m ->
  exists st' v, returns A (esize_of d) (half_of d) (mkFrame A (GemCalls.frame [("x_base", x); ("x_len", Z.of_nat n)]) (fun _ => zero A)) SumConst st st' /\
    ret A st' = Some v /\ Q (dec v) (mem A st').

(** a loop that replaces the elements at y, from index i on, by f of the elements at x; [None]: outside the cells *)
Fixpoint map_loop (f : val d -> val d) (x y : Z) (i n : nat) (m : memory) : option memory :=
  match n with
  | O => Some m
  | S n => match m (cell x i), m (cell y i) with
           | Some v, Some _ => map_loop f x y (S i) n (fun p => if Z.eqb p (cell y i) then Some (enc (f (dec v))) else m p)
           | _, _ => None
           end
  end.
(** max (dense.go:1032-1043): the loop over the n elements from index i on *)
Fixpoint max_loop (x : Z) (i n : nat) (m : memory) (mx : val d) : option (val d) :=
  match n with
  | O => Some mx
  | S n => match m (cell x i) with Some v => max_loop x (S i) n m (if flt mx (dec v) then dec v else mx) | None => None end
  end.
End Methods.

(** Exp32 (exp_amd64.go:10-42), Exp64 (exp_amd64.go:45-47, exp.go:9-17) *)
Definition exp_call (g : libm) (d : dtype) (c : cpu) (x y : Z) (n : nat) : (Z -> option (lane (lanes_at d))) -> ((Z -> option (lane (lanes_at d))) -> Prop) -> Prop :=
  match d return (Z -> option (lane (lanes_at d))) -> ((Z -> option (lane (lanes_at d))) -> Prop) -> Prop with
  | F32 => fun m Q => (exists m', AsmWords.Exp32 (Exp g) c x y n m m') /\ forall m', AsmWords.Exp32 (Exp g) c x y n m m' -> Q m'
  | F64 => fun m Q => exists m', map_loop F64 (Exp g) x y 0 n m = Some m' /\ Q m'
  end.

Section Methods2.
Variable g : libm.
Variable d : dtype.
Variable c : cpu.
Notation memory := (Z -> option (lane (lanes_at d))).
(** Softmax (dense.go:1082-1112) of the n elements at x, into the new slice at y: SubScalar (dense.go:519-531) adds
    float32(-float64(max)), ProdScalarInPlace (dense.go:606-618) multiplies by float32(float64(1 / sum)) *)
Definition softmax (x y : Z) (n : nat) (m : memory) (Q : memory -> Prop) : Prop :=
  match n with
  | O => Q m
  | S k =>
      exists v mx, m x = Some v /\ max_loop d x 1 k m (dec v) = Some mx /\
      const_call d (AddConst d c) (conv F64 d (fneg (conv d F64 mx))) x y n m (fun m1 =>
      exp_call g d c y y n m1 (fun m2 =>
      sum_call d c y n m2 (fun s m3 =>
      const_call d (MulConst d c) (conv F64 d (conv d F64 (fdiv fone s))) y y n m3 Q)))
  end.
(** Sigmoid (dense.go:989-1010): ProdScalar(-1), the exponential, 1 / (1 + val) *)
Definition sigmoid (x y : Z) (n : nat) (m : memory) (Q : memory -> Prop) : Prop :=
  match n with
  | O => Q m
  | S _ =>
      const_call d (MulConst d c) (conv F64 d (lit (-1) 0)) x y n m (fun m1 =>
      exp_call g d c y y n m1 (fun m2 =>
      exists m3, map_loop d (fun v => fdiv fone (fadd fone v)) y y 0 n m2 = Some m3 /\ Q m3))
  end.
End Methods2.
