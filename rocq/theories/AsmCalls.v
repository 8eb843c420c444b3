(** * The functions of mat/internal/matfuncs that the vector kernels implement

    [Add32] and the others call the kernel that an init function chose from the features of the processor; where there is
    no assembly (other processors, the purego tag) they are the plain loops of the *_purego.go files. *)
From Coq Require Import ZArith String Bool List.
From Flocq Require Import Core BinarySingleNaN.
From Verif Require Import AsmModel AsmCode FloatModel NumModel.
Import ListNotations.

(** hasAVX, hasAVX2, hasFMA (matfuncs_amd64.go:11-15); [sse3] is not consulted by the code *)
Record cpu := mkCpu { sse3 : bool; avx : bool; avx2 : bool; has_fma : bool }.
(** What cpu/cpu_x86.go:69-112 and the processors guarantee: AVX2 comes with AVX, and AVX with SSE3. *)
Definition real_cpu (c : cpu) : Prop := (avx2 c = true -> avx c = true) /\ (avx c = true -> sse3 c = true).

Definition choose (b : bool) (fast slow : code) : code := if b then fast else slow.
(** add_amd64.go:9-29 *)
Definition Add32 (c : cpu) : code := choose (avx c) add_avx32 add_sse32.
Definition Add64 (c : cpu) : code := choose (avx c) add_avx64 add_sse64.
(** sub_amd64.go:9-29 *)
Definition Sub32 (c : cpu) : code := choose (avx c) sub_avx32 sub_sse32.
Definition Sub64 (c : cpu) : code := choose (avx c) sub_avx64 sub_sse64.
(** div_amd64.go:9-29 *)
Definition Div32 (c : cpu) : code := choose (avx c) div_avx32 div_sse32.
Definition Div64 (c : cpu) : code := choose (avx c) div_avx64 div_sse64.
(** addconst_amd64.go:9-29 *)
Definition AddConst32 (c : cpu) : code := choose (avx2 c) add_const_avx32 add_const_sse32.
Definition AddConst64 (c : cpu) : code := choose (avx2 c) add_const_avx64 add_const_sse64.
(** mulconst_amd64.go:9-29 *)
Definition MulConst32 (c : cpu) : code := choose (avx2 c) mul_const_avx32 mul_const_sse32.
Definition MulConst64 (c : cpu) : code := choose (avx2 c) mul_const_avx64 mul_const_sse64.
(** sum_amd64.go:9-29 *)
Definition Sum32 (c : cpu) : code := choose (avx c) sum_avx32 sum_sse32.
Definition Sum64 (c : cpu) : code := choose (avx c) sum_avx64 sum_sse64.
(** dotprod_amd64.go:9-29 *)
Definition DotProd32 (c : cpu) : code := choose (avx c && has_fma c) dot_prod_avx32 dot_prod_sse32.
Definition DotProd64 (c : cpu) : code := choose (avx c && has_fma c) dot_prod_avx64 dot_prod_sse64.
(** the kernels that Exp32 and Log32 call (exp_amd64.go:13-25, log_amd64.go:15-27) *)
Definition ExpKernel32 (c : cpu) : code := choose (avx2 c) exp_avx32 exp_sse32.
Definition LogKernel32 (c : cpu) : code := choose (avx2 c) log_avx32 log_sse32.

(** ** The plain loops *)
Section Plain.
Context {T : Type}.
(** the loop of add, sub and div (add_purego.go:26-28): x1 from index i on, over x2 and y *)
Fixpoint loop2 (op : T -> T -> T) (x1 x2 : list T) (i : nat) (y : list T) : option (list T) :=
  match x1 with
  | [] => Some y
  | a :: x1 => match nth_error x2 i with
               | None => None
               | Some b => if Nat.ltb i (length y) then loop2 op x1 x2 (S i) (firstn i y ++ op a b :: skipn (S i) y) else None
               end
  end.
(** add, sub, div (add_purego.go:19-29, sub_purego.go, div_purego.go) for slices that do not overlap: y afterwards,
    [None] for a panic *)
Definition plain2 (op : T -> T -> T) (x1 x2 y : list T) : option (list T) :=
  match x1 with
  | [] => Some y
  | _ => if Nat.ltb (length y) (length x1) then None
         else if Nat.ltb (length x2) (length x1) then None else loop2 op x1 x2 0 y
  end.
(** addConst, mulConst (addconst_purego.go:19-27, mulconst_purego.go) *)
Fixpoint loop1 (op : T -> T -> T) (c : T) (x : list T) (i : nat) (y : list T) : option (list T) :=
  match x with
  | [] => Some y
  | a :: x => if Nat.ltb i (length y) then loop1 op c x (S i) (firstn i y ++ op a c :: skipn (S i) y) else None
  end.
Definition plain1 (op : T -> T -> T) (c : T) (x y : list T) : option (list T) :=
  match x with
  | [] => Some y
  | _ => if Nat.ltb (length y) (length x) then None else loop1 op c x 0 y
  end.
(** sum (sum_purego.go:19-24) *)
Definition plain_sum (zero : T) (add : T -> T -> T) (x : list T) : T := fold_left add x zero.
(** dotProd (dotprod_purego.go:19-29); the compilers of some processors may fuse the product and the sum, gc does not on amd64 *)
Fixpoint loop_dot (add mul : T -> T -> T) (x1 x2 : list T) (y : T) : option T :=
  match x1, x2 with
  | [], _ => Some y
  | a :: x1, b :: x2 => loop_dot add mul x1 x2 (add y (mul a b))
  | _, [] => None
  end.
Definition plain_dot (zero : T) (add mul : T -> T -> T) (x1 x2 : list T) : option T :=
  match x1 with
  | [] => Some zero
  | _ => if Nat.ltb (length x2) (length x1) then None else loop_dot add mul x1 x2 zero
  end.
End Plain.

(** ** The arithmetic of the lanes in IEEE 754 floating point

    Only what the kernels above use: the operations on bit patterns, which the kernels of Exp32 and Log32 need, are not
    part of this instance (they give NaN here). *)
Definition ffma {d} (x y z : val d) : val d := @Bfma (prec d) (emax d) (prec_pos d) (prec_emax d) mode_NE x y z.
Definition floats (d : dtype) : lanes := {|
  lane := val d;
  zero := fzero;
  bin := fun op => match op with Add => fadd | Sub => fsub | Mul => fmul | Div => fdiv | _ => fun _ _ => B754_nan end;
  un := fun _ _ => B754_nan;
  fma := ffma;
  imm := fun _ => B754_nan |}.

(** ** The instructions that a processor has (Intel's manual, volume 2) *)
Definition available (c : cpu) (i : instr) : bool :=
  let ymm s := match s with Y => avx c | X => true end in
  let vex (v : bool) := if v then avx c else true in
  (* on integers of 32 bits, 256 bits wide *)
  let ints s := match s with Y => avx2 c | X => true end in
  match i with
  | Load s v _ _ _ | Clear s v _ => ymm s && vex v
  | Move s v _ _ => ymm s && vex v
  | Store s _ _ _ => ymm s
  | LoadS v _ _ _ => vex v
  | Bin Addd s v _ _ _ => ymm s && vex v && ints s
  | Bin _ s v _ _ _ => ymm s && vex v
  | BinS _ v _ _ _ => vex v
  | Un (Shl _) s v _ _ | Un (Shr _) s v _ _ => ymm s && vex v && ints s
  | Un Floor s v _ _ => ymm s && vex v && v          (* ROUNDPS without VEX is SSE4.1, which is not in this table *)
  | Un _ s v _ _ => ymm s && vex v
  | Fma s _ _ _ => ymm s && has_fma c
  | FmaS _ _ _ => has_fma c
  | ClearAll | Extract _ _ => avx c
  | Hadd v _ _ _ => vex v && sse3 c
  | Spread s true _ _ => avx2 c                      (* VBROADCASTSS from a register *)
  | Spread s false _ _ => ymm s                      (* SHUFPS *)
  | _ => true
  end.
Definition runs_on (c : cpu) (f : code) : bool := forallb (fun b => forallb (available c) (snd b)) f.
