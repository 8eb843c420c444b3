(** * The amd64 vector kernels of mat/internal/matfuncs

    A machine for the instructions that the files mat/internal/matfuncs/*_amd64.s use, in Go's assembler syntax (operands
    source first).  The kernels themselves are in AsmCode.v, generated from those files line by line.

    The machine is polymorphic in the values of the lanes and in the arithmetic on them.  Memory is made of cells of one
    element each; a load or a store outside the cells that exist faults, and so does a packed legacy SSE operand in memory
    whose address is not a multiple of 16.  Simplified: addresses and lengths are unbounded integers (64-bit registers do
    not wrap for the slices of a Go program); unaligned cells are not represented (a slice begins at a multiple of its
    element size); bits of the vector registers above the widest lane used are not represented. *)
From Coq Require Import ZArith String Bool List.
Import ListNotations.

Inductive greg := AX | BX | CX | DX | SI.
Definition greg_eqb (a b : greg) : bool :=
  match a, b with AX, AX | BX, BX | CX, CX | DX, DX | SI, SI => true | _, _ => false end.
(** lanewise operations of two operands; [Cmp] is CMPPS with its immediate 1 (less) or 2 (less or equal) *)
Inductive bop := Add | Sub | Mul | Div | Min | Max | Cmplt | Cmple | And | Or | Addd.
(** lanewise operations of one operand: ROUNDPS $1, CVTTPS2DQ, CVTDQ2PS, and shifts of 32-bit integers *)
Inductive uop := Floor | Trunc | OfInt | Shl (n : Z) | Shr (n : Z).
(** XMM (128 bits), YMM (256 bits) *)
Inductive size := X | Y.
(** an operand: a vector register, memory, or a constant in every lane (a DATA symbol, by its bits) *)
Inductive operand := Reg (r : nat) | Mem (b : greg) (disp : Z) | Sym (bits : Z).

(** [vex]: the VEX form (its 128-bit results clear the upper half of the register, and its memory operands need no alignment) *)
Inductive instr :=
| Load (s : size) (vex : bool) (b : greg) (disp : Z) (dst : nat)      (* MOVUPS m, r *)
| Store (s : size) (src : nat) (b : greg) (disp : Z)                   (* MOVUPS r, m *)
| LoadS (vex : bool) (b : greg) (disp : Z) (dst : nat)                (* MOVSS m, r *)
| StoreS (src : nat) (b : greg) (disp : Z)                             (* MOVSS r, m *)
| Move (s : size) (vex : bool) (o : operand) (dst : nat)              (* MOVAPS o, r; VBROADCASTSS symbol, r *)
| Bin (op : bop) (s : size) (vex : bool) (o : operand) (src dst : nat) (* dst := src op o *)
| BinS (op : bop) (vex : bool) (o : operand) (src dst : nat)          (* the same on the lowest lane *)
| Un (op : uop) (s : size) (vex : bool) (src dst : nat)
| Fma (s : size) (o : operand) (src dst : nat)                         (* dst := src * o + dst *)
| FmaS (o : operand) (src dst : nat)
| Clear (s : size) (vex : bool) (dst : nat)                            (* XORPS r, r *)
| ClearAll                                                             (* VZEROALL *)
| Extract (src dst : nat)                                              (* VEXTRACTF128 $1 *)
| Hadd (vex : bool) (o src dst : nat)                                  (* HADDPS *)
| Spread (s : size) (vex : bool) (src dst : nat)                      (* VBROADCASTSS r, r; SHUFPS $0, r, r *)
| Arg (name : string) (dst : greg)                                     (* MOVQ name(FP), r *)
| ArgS (name : string) (dst : nat)                                     (* MOVSS name(FP), r *)
| Result (src : nat)                                                   (* MOVSS r, ret(FP) *)
| MovQ (src dst : greg) | AddQ (n : Z) (dst : greg) | SubQ (n : Z) (dst : greg) | DecQ (dst : greg) | IncQ (dst : greg)
| AndQ (n : Z) (dst : greg) | XorQ (n : Z) (dst : greg) | ShrQ (n : Z) (dst : greg)
| CmpQ (r : greg) (n : Z)
| Jl (label : string) | Je (label : string) | Jne (label : string) | Jmp (label : string) | Ret.

(** A function: its basic blocks, each under its label; the end of a block continues with the next one. *)
Definition code := list (string * list instr).

(** The arithmetic of one lane *)
Record lanes := mkLanes {
  lane : Type;
  zero : lane;
  bin : bop -> lane -> lane -> lane;
  un : uop -> lane -> lane;
  fma : lane -> lane -> lane -> lane;  (* fma a b c = a * b + c *)
  imm : Z -> lane                       (* by its bits *)
}.

Section Machine.
Variable A : lanes.
(** bytes of an element: 4 (float32) or 8 (float64) *)
Variable esize : Z.
(** elements in 128 bits: 4 or 2 *)
Variable half : nat.
Let L := lane A.

Record state := mkState {
  gpr : greg -> Z;
  vec : nat -> list L;      (* 2 * half lanes *)
  mem : Z -> option L;      (* by address; [None]: not a cell of the program *)
  zf : bool; lf : bool;     (* the last comparison: equal (or a result of zero), less *)
  ret : option L
}.
(** what follows an instruction *)
Inductive next := Seq | Goto (label : string) | Return.

(** the arguments of the function, by the names in its frame *)
Record frame := mkFrame { iarg : string -> Z; farg : string -> L }.
Variable F : frame.

Definition lanes_of (s : size) : nat := match s with X => half | Y => half + half end.
Definition set_gpr (st : state) (r : greg) (v : Z) : state :=
  mkState (fun q => if greg_eqb q r then v else gpr st q) (vec st) (mem st) (zf st) (lf st) (ret st).
Definition set_zf (st : state) (z : bool) : state := mkState (gpr st) (vec st) (mem st) z (lf st) (ret st).
Definition set_vec (st : state) (r : nat) (v : list L) : state :=
  mkState (gpr st) (fun q => if Nat.eqb q r then v else vec st q) (mem st) (zf st) (lf st) (ret st).
Definition set_mem (st : state) (m : Z -> option L) : state := mkState (gpr st) (vec st) m (zf st) (lf st) (ret st).
(** the lower lanes [v] of a result, above them zeros or the old lanes of the destination *)
Definition extend (st : state) (vex : bool) (dst : nat) (v : list L) : list L :=
  v ++ if vex then repeat (zero A) (half + half - length v) else skipn (length v) (vec st dst).

(** n cells from address a on *)
Fixpoint read (m : Z -> option L) (a : Z) (n : nat) : option (list L) :=
  match n with
  | O => Some []
  | S n => match m a, read m (a + esize)%Z n with Some x, Some l => Some (x :: l) | _, _ => None end
  end.
Fixpoint write (m : Z -> option L) (a : Z) (l : list L) : option (Z -> option L) :=
  match l with
  | [] => Some m
  | x :: l => match m a with
              | Some _ => write (fun b => if Z.eqb b a then Some x else m b) (a + esize)%Z l
              | None => None
              end
  end.
(** the value of an operand of n lanes; [aligned]: memory must be aligned to 16 bytes *)
Definition value (st : state) (o : operand) (n : nat) (aligned : bool) : option (list L) :=
  match o with
  | Reg r => Some (firstn n (vec st r))
  | Sym b => Some (repeat (imm A b) n)
  | Mem b d => let a := (gpr st b + d)%Z in
               if aligned && negb (Z.eqb (a mod 16) 0) then None else read (mem st) a n
  end.
Fixpoint map2 (f : L -> L -> L) (a b : list L) : list L :=
  match a, b with x :: a, y :: b => f x y :: map2 f a b | _, _ => [] end.
Fixpoint map3 (f : L -> L -> L -> L) (a b c : list L) : list L :=
  match a, b, c with x :: a, y :: b, z :: c => f x y z :: map3 f a b c | _, _, _ => [] end.
Fixpoint pairs (a : list L) : list L :=
  match a with x :: y :: a => bin A Add x y :: pairs a | _ => [] end.

Definition step (i : instr) (st : state) : option (state * next) :=
  let seq st := Some (st, Seq) in
  match i with
  | Load s vex b d dst =>
      match read (mem st) (gpr st b + d)%Z (lanes_of s) with None => None | Some v => seq (set_vec st dst (extend st vex dst v)) end
  | Store s src b d =>
      match write (mem st) (gpr st b + d)%Z (firstn (lanes_of s) (vec st src)) with None => None | Some m => seq (set_mem st m) end
  | LoadS vex b d dst =>
      match mem st (gpr st b + d)%Z with
      | None => None
      | Some x => seq (set_vec st dst (extend st vex dst (x :: repeat (zero A) (half - 1))))
      end
  | StoreS src b d =>
      match write (mem st) (gpr st b + d)%Z (firstn 1 (vec st src)) with None => None | Some m => seq (set_mem st m) end
  | Move s vex o dst =>
      match value st o (lanes_of s) (negb vex) with None => None | Some v => seq (set_vec st dst (extend st vex dst v)) end
  | Bin op s vex o src dst =>
      match value st o (lanes_of s) (negb vex) with
      | None => None
      | Some v => seq (set_vec st dst (extend st vex dst (map2 (bin A op) (firstn (lanes_of s) (vec st src)) v)))
      end
  | BinS op vex o src dst =>
      match value st o 1 false with
      | None => None
      | Some v => seq (set_vec st dst (extend st vex dst (map2 (bin A op) (vec st src) v ++ skipn 1 (firstn half (vec st src)))))
      end
  | Un op s vex src dst => seq (set_vec st dst (extend st vex dst (map (un A op) (firstn (lanes_of s) (vec st src)))))
  | Fma s o src dst =>
      match value st o (lanes_of s) false with
      | None => None
      | Some v => seq (set_vec st dst (extend st true dst (map3 (fma A) (firstn (lanes_of s) (vec st src)) v (vec st dst))))
      end
  | FmaS o src dst =>
      match value st o 1 false with
      | None => None
      | Some v => seq (set_vec st dst (extend st true dst (map3 (fma A) (vec st src) v (vec st dst) ++ skipn 1 (firstn half (vec st dst)))))
      end
  | Clear s vex dst => seq (set_vec st dst (extend st vex dst (repeat (zero A) (lanes_of s))))
  | ClearAll => seq (mkState (gpr st) (fun _ => repeat (zero A) (half + half)) (mem st) (zf st) (lf st) (ret st))
  | Extract src dst => seq (set_vec st dst (extend st true dst (skipn half (vec st src))))
  | Hadd vex o src dst => seq (set_vec st dst (extend st vex dst (pairs (firstn half (vec st src)) ++ pairs (firstn half (vec st o)))))
  | Spread s vex src dst =>
      seq (set_vec st dst (extend st vex dst (repeat (hd (zero A) (vec st src)) (lanes_of s))))
  | Arg name dst => seq (set_gpr st dst (iarg F name))
  | ArgS name dst => seq (set_vec st dst (extend st false dst (farg F name :: repeat (zero A) (half - 1))))
  | Result src => seq (mkState (gpr st) (vec st) (mem st) (zf st) (lf st) (hd_error (vec st src)))
  | MovQ src dst => seq (set_gpr st dst (gpr st src))
  | AddQ n dst => let v := (gpr st dst + n)%Z in seq (set_zf (set_gpr st dst v) (Z.eqb v 0))
  | SubQ n dst => let v := (gpr st dst - n)%Z in seq (set_zf (set_gpr st dst v) (Z.eqb v 0))
  | DecQ dst => let v := (gpr st dst - 1)%Z in seq (set_zf (set_gpr st dst v) (Z.eqb v 0))
  | IncQ dst => let v := (gpr st dst + 1)%Z in seq (set_zf (set_gpr st dst v) (Z.eqb v 0))
  | AndQ n dst => let v := Z.land (gpr st dst) n in seq (set_zf (set_gpr st dst v) (Z.eqb v 0))
  | XorQ n dst => let v := Z.lxor (gpr st dst) n in seq (set_zf (set_gpr st dst v) (Z.eqb v 0))
  | ShrQ n dst => let v := Z.shiftr (gpr st dst) n in seq (set_zf (set_gpr st dst v) (Z.eqb v 0))
  | CmpQ r n => seq (mkState (gpr st) (vec st) (mem st) (Z.eqb (gpr st r) n) (Z.ltb (gpr st r) n) (ret st))
  | Jl l => Some (st, if lf st then Goto l else Seq)
  | Je l => Some (st, if zf st then Goto l else Seq)
  | Jne l => Some (st, if zf st then Seq else Goto l)
  | Jmp l => Some (st, Goto l)
  | Ret => Some (st, Return)
  end.

(** a basic block, up to its first taken jump *)
Fixpoint block (is : list instr) (st : state) : option (state * next) :=
  match is with
  | [] => Some (st, Seq)
  | i :: is => match step i st with
               | None => None
               | Some (st, Seq) => block is st
               | Some (st, n) => Some (st, n)
               end
  end.
Fixpoint from_label (c : code) (l : string) : option code :=
  match c with
  | [] => None
  | (k, is) :: c' => if String.eqb k l then Some c else from_label c' l
  end.
(** A run from the beginning of the blocks [c] of the function [whole]: [None] if it faults, [Some None] if it needs more steps. *)
Fixpoint run (fuel : nat) (whole c : code) (st : state) : option (option state) :=
  match fuel with
  | O => Some None
  | S fuel =>
      match c with
      | [] => None
      | (_, is) :: c =>
          match block is st with
          | None => None
          | Some (st, Seq) => run fuel whole c st
          | Some (st, Return) => Some (Some st)
          | Some (st, Goto l) => match from_label whole l with None => None | Some c => run fuel whole c st end
          end
      end
  end.
(** the function returns in the state st' *)
Definition returns (c : code) (st st' : state) : Prop := exists fuel, run fuel c c st = Some (Some st').
End Machine.
