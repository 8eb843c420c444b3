(** * Lanes of 32 bits, and Exp32 and Log32 (mat/internal/matfuncs/exp_amd64.go, log_amd64.go)

    The kernels of Exp32 and Log32 use floats also by their bits, so a lane is here a word of 32 bits.  The payload of a
    NaN that arithmetic gives is not modelled (it is always the same one): the two kernels use NaNs only as NaNs. *)
From Coq Require Import ZArith String Bool List.
From Flocq Require Import Core BinarySingleNaN Binary Bits.
From Verif Require Import AsmModel AsmCode AsmCalls FloatModel NumModel.
Import ListNotations.
Local Open Scope Z_scope.

(** the float32 of a word, and the word of a float32 *)
Definition decode (w : Z) : val F32 := B2BSN 24 128 (b32_of_bits w).
Definition encode (x : val F32) : Z := bits_of_b32 (BSN2B 24 128 default_nan_pl32 x).
Definition wrap (z : Z) : Z := z mod 2 ^ 32.
Definition arith (f : val F32 -> val F32 -> val F32) (a b : Z) : Z := encode (f (decode a) (decode b)).
Definition mask (b : bool) : Z := if b then 2 ^ 32 - 1 else 0.
(** the greatest integer below s m 2^e, and the integer nearest to it towards zero *)
Definition floor_of (s : bool) (m : positive) (e : Z) : Z := let v := SpecFloat.cond_Zopp s (Zpos m) in if 0 <=? e then v * 2 ^ e else v / 2 ^ - e.
Definition trunc_of (s : bool) (m : positive) (e : Z) : Z := SpecFloat.cond_Zopp s (if 0 <=? e then Zpos m * 2 ^ e else Zpos m / 2 ^ - e).
(** ROUNDPS with the immediate 1; it keeps infinities, NaNs and zeros *)
Definition round_down (w : Z) : Z :=
  match decode w with
  | BinarySingleNaN.B754_finite s m e _ => encode (lit (floor_of s m e) 0)
  | _ => w
  end.
(** CVTTPS2DQ: 2^31, the integer indefinite, for what does not fit *)
Definition to_int (w : Z) : Z :=
  match decode w with
  | BinarySingleNaN.B754_zero _ => 0
  | BinarySingleNaN.B754_finite s m e _ => let n := trunc_of s m e in if (- 2 ^ 31 <=? n) && (n <? 2 ^ 31) then wrap n else 2 ^ 31
  | _ => 2 ^ 31
  end.
(** CVTDQ2PS *)
Definition of_int (w : Z) : Z := encode (lit (if w <? 2 ^ 31 then w else w - 2 ^ 32) 0).
(** MINPS and MAXPS give the second operand when neither is less (NaNs, zeros of both signs) *)
Definition words : lanes := {|
  lane := Z;
  zero := 0;
  bin := fun op => match op with
    | Add => arith fadd | Sub => arith fsub | Mul => arith fmul | Div => arith fdiv
    | Min => fun a b => if flt (decode a) (decode b) then a else b
    | Max => fun a b => if flt (decode b) (decode a) then a else b
    | Cmplt => fun a b => mask (flt (decode a) (decode b))
    | Cmple => fun a b => mask (fle (decode a) (decode b))
    | And => Z.land | Or => Z.lor
    | Addd => fun a b => wrap (a + b)
    end;
  un := fun op => match op with
    | Floor => round_down | Trunc => to_int | OfInt => of_int
    | Shl n => fun w => wrap (Z.shiftl w n) | Shr n => fun w => Z.shiftr w n
    end;
  fma := fun a b c => encode (ffma (decode a) (decode b) (decode c));
  imm := fun b => b |}.

(** ** The Go code around the kernels *)
Section Calls.
(** math.Exp or math.Log *)
Variable f : val F64 -> val F64.
Notation memory := (Z -> option Z).
(** F(math.Exp(float64(xv))) (exp.go:15, log.go) *)
Definition scalar (w : Z) : Z := encode (conv F64 F32 (f (conv F32 F64 (decode w)))).
Definition set (m : memory) (a v : Z) : memory := fun p => if p =? a then Some v else m p.
(** exp, log (exp.go:9-17, log.go:9-17) on the n elements from index i on; [None]: a read or write outside the cells *)
Fixpoint scalar_loop (x y : Z) (i n : nat) (m : memory) : option memory :=
  match n with
  | O => Some m
  | S n => match m (x + 4 * Z.of_nat i), m (y + 4 * Z.of_nat i) with
           | Some w, Some _ => scalar_loop x y (S i) n (set m (y + 4 * Z.of_nat i) (scalar w))
           | _, _ => None
           end
  end.
(** the loop over the vectors (exp_amd64.go:17-19): n calls from index i on; what the registers hold before a call is not known *)
Definition call_frame (x y : Z) : frame words := mkFrame words (fun s => if String.eqb s "x_base" then x else if String.eqb s "y_base" then y else 0) (fun _ => 0).
Inductive vector_loop (kernel : code) (width : nat) (x y : Z) : nat -> nat -> memory -> memory -> Prop :=
| vector_done i m : vector_loop kernel width x y i 0 m m
| vector_call i n st st' m' : returns words 4 4 (call_frame (x + 4 * Z.of_nat i) (y + 4 * Z.of_nat i)) kernel st st' ->
    vector_loop kernel width x y (i + width) n (mem words st') m' -> vector_loop kernel width x y i (S n) (mem words st) m'.
(** if v == 0.0 { y[i] = -Inf } for the first n elements (log_amd64.go:24-30) *)
Fixpoint zero_loop (x y : Z) (i n : nat) (m : memory) : option memory :=
  match n with
  | O => Some m
  | S n => match m (x + 4 * Z.of_nat i), m (y + 4 * Z.of_nat i) with
           | Some w, Some _ => zero_loop x y (S i) n (if eq_val (decode w) fzero then set m (y + 4 * Z.of_nat i) (encode (BinarySingleNaN.B754_infinity true)) else m)
           | _, _ => None
           end
  end.
Definition width (c : cpu) : nat := if avx2 c then 8%nat else 4%nat.
(** Exp32 (exp_amd64.go:10-42) on slices of n elements at x and y *)
Definition Exp32 (c : cpu) (x y : Z) (n : nat) (m m' : memory) : Prop :=
  exists m1, vector_loop (ExpKernel32 c) (width c) x y 0 (n / width c) m m1 /\
    scalar_loop x y (n - n mod width c) (n mod width c) m1 = Some m'.
(** Log32 (log_amd64.go:12-62): the zeros are looked for in x[:max+1] if max = len(x) - 8 (or 4) is positive *)
Definition Log32 (c : cpu) (x y : Z) (n : nat) (m m' : memory) : Prop :=
  exists m1 m2, vector_loop (LogKernel32 c) (width c) x y 0 (n / width c) m m1 /\
    (if Nat.ltb (width c) n then zero_loop x y 0 (n - width c + 1) m1 else Some m1) = Some m2 /\
    scalar_loop x y (n - n mod width c) (n mod width c) m2 = Some m'.
End Calls.

(** ** The function that a kernel computes in each lane: the instructions, run on one lane *)
Definition operand_lane (rs : nat -> Z) (o : operand) : Z := match o with Reg r => rs r | Sym b => b | AsmModel.Mem _ _ => 0 end.
Definition set_reg (rs : nat -> Z) (r : nat) (v : Z) : nat -> Z := fun q => if Nat.eqb q r then v else rs q.
Fixpoint lane_run (is : list instr) (rs : nat -> Z) : Z :=
  match is with
  | Move _ _ o dst :: is => lane_run is (set_reg rs dst (operand_lane rs o))
  | Bin op _ _ o src dst :: is => lane_run is (set_reg rs dst (bin words op (rs src) (operand_lane rs o)))
  | Un op _ _ src dst :: is => lane_run is (set_reg rs dst (un words op (rs src)))
  | Clear _ _ dst :: is => lane_run is (set_reg rs dst 0)
  | Store _ src _ _ :: _ => rs src
  | _ => 0
  end.
(** after the two arguments and the load of the vector into register 0 *)
Definition lane_function (c : code) (w : Z) : Z := match c with (_, is) :: _ => lane_run (skipn 3 is) (fun _ => w) | [] => 0 end.
