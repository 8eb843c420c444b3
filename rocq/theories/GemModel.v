(** * The amd64 kernels of the matrix products (mat/internal/f32/asm32, mat/internal/f64/asm64)

    A machine for the instructions of axpyunitary_amd64.s, axpyunitaryto_amd64.s, gemvN_amd64.s and cumsum_amd64.s, in Go's
    assembler syntax (operands source first); the functions themselves are in GemCode.v, generated from those files.  Values,
    memory cells and simplifications are those of AsmModel.v.  All vector instructions here are of the legacy SSE kind, so a
    register is the list of the lanes of its lower 128 bits. *)
From Coq Require Import ZArith String Bool List.
From Verif Require Import AsmModel.
Import ListNotations.

Inductive ireg := AX | BX | CX | DX | SI | DI | R8 | R9 | R10 | R11 | R12 | R13 | R14 | R15.
Definition number (r : ireg) : nat :=
  match r with AX => 0 | BX => 1 | CX => 2 | DX => 3 | SI => 4 | DI => 5 | R8 => 6 | R9 => 7 | R10 => 8 | R11 => 9 | R12 => 10 | R13 => 11 | R14 => 12 | R15 => 13 end.
Definition ireg_eqb (a b : ireg) : bool := Nat.eqb (number a) (number b).
(** disp(base)(index*scale) *)
Record addr := At { base : ireg; index : option (ireg * Z); disp : Z }.
(** an integer operand: register, argument in the frame (name(FP)), constant *)
Inductive iop := R (r : ireg) | FP (name : string) | N (n : Z).
(** a vector operand *)
Inductive vop := V (r : nat) | M (a : addr).

Inductive instr :=
| Load (a : addr) (dst : nat)                 (* MOVUPS m, r *)
| Store (src : nat) (a : addr)                (* MOVUPS r, m *)
| LoadS (a : addr) (dst : nat)                (* MOVSS m, r; MOVSD m, r: the other lanes become zero *)
| StoreS (src : nat) (a : addr)               (* MOVSS r, m; MOVSD r, m; MOVLPD r, m *)
| LoadH (a : addr) (dst : nat)                (* MOVHPD m, r *)
| StoreH (src : nat) (a : addr)               (* MOVHPD r, m *)
| Dup (a : addr) (dst : nat)                  (* MOVDDUP m, r *)
| DupArg (name : string) (dst : nat)          (* MOVDDUP name(FP), r *)
| ArgS (name : string) (dst : nat)            (* MOVSS name(FP), r; MOVSD name(FP), r *)
| Move (src dst : nat)                        (* MOVUPS r, r; MOVAPS r, r *)
| Bin (op : bop) (o : vop) (dst : nat)        (* dst := dst op o *)
| BinS (op : bop) (o : vop) (dst : nat)       (* the same on the lowest lane *)
| Clear (dst : nat)                           (* XORPS r, r; PXOR r, r; MOVSD $0.0, r *)
| Spread (dst : nat)                          (* SHUFPS $0, r, r; SHUFPD $0, r, r *)
| Shuf (low high : nat) (src dst : nat)       (* SHUFPD $(low + 2 high), src, dst *)
| Hadd (src dst : nat)                        (* HADDPD *)
| Comis (a b : nat)                           (* COMISD: compares the lowest lanes *)
| MovQ (src dst : iop) | CmpQ (a b : iop) | CmovLE (src dst : iop) | CmovLT (src dst : iop)
| AddQ (src dst : iop) | SubQ (src dst : iop) | AndQ (src dst : iop) | XorQ (src dst : iop) | ShrQ (src dst : iop) | ShlQ (src dst : iop)
| ImulQ (src dst : iop) | NegQ (dst : iop) | IncQ (dst : iop) | DecQ (dst : iop) | TestQ (a b : iop) | Lea (a : addr) (dst : ireg)
| Je (label : string) | Jne (label : string) | Jmp (label : string)
| Loop (label : string)                       (* LOOP: decrements CX and jumps unless it became zero *)
| Ret.
Definition code := list (string * list instr).

Section Machine.
Variable A : lanes.
Variable esize : Z.
Variable half : nat.
Let L := lane A.
(** the comparison of COMISD: the zero flag (equal, or one operand is a NaN) *)
Variable equal : L -> L -> bool.

(** [args]: the integers in the frame of the call, where the code also keeps some variables *)
Record state := mkState { gpr : ireg -> Z; vec : nat -> list L; mem : Z -> option L; args : string -> Z; zf : bool; lf : bool }.
(** the floating-point arguments *)
Variable farg : string -> L.

Definition set_vec (st : state) (r : nat) (v : list L) : state :=
  mkState (gpr st) (fun q => if Nat.eqb q r then v else vec st q) (mem st) (args st) (zf st) (lf st).
Definition set_mem (st : state) (m : Z -> option L) : state := mkState (gpr st) (vec st) m (args st) (zf st) (lf st).
Definition set_flags (st : state) (z l : bool) : state := mkState (gpr st) (vec st) (mem st) (args st) z l.
Definition set_zf (st : state) (z : bool) : state := set_flags st z (lf st).
Definition set_gpr (st : state) (r : ireg) (v : Z) : state :=
  mkState (fun q => if ireg_eqb q r then v else gpr st q) (vec st) (mem st) (args st) (zf st) (lf st).
Definition put (st : state) (o : iop) (v : Z) : state :=
  match o with
  | R r => set_gpr st r v
  | FP s => mkState (gpr st) (vec st) (mem st) (fun t => if String.eqb t s then v else args st t) (zf st) (lf st)
  | N _ => st
  end.
Definition get (st : state) (o : iop) : Z := match o with R r => gpr st r | FP s => args st s | N n => n end.
Definition address (st : state) (a : addr) : Z :=
  (gpr st (base a) + match index a with Some (i, s) => gpr st i * s | None => 0 end + disp a)%Z.
(** dst := dst f src, and the zero flag *)
Definition arith (st : state) (f : Z -> Z -> Z) (src dst : iop) : state :=
  let v := f (get st dst) (get st src) in set_zf (put st dst v) (Z.eqb v 0).
(** n lanes of an operand; memory of packed operations must be aligned to 16 bytes *)
Definition value (st : state) (o : vop) (n : nat) : option (list L) :=
  match o with
  | V r => Some (firstn n (vec st r))
  | M a => let p := address st a in
           if Nat.ltb 1 n && negb (Z.eqb (p mod 16) 0) then None else read A esize (mem st) p n
  end.
Definition lane_of (l : list L) (i : nat) : L := nth i l (zero A).

Definition step (i : instr) (st : state) : option (state * next) :=
  let seq st := Some (st, Seq) in
  match i with
  | Load a dst => match read A esize (mem st) (address st a) half with None => None | Some v => seq (set_vec st dst v) end
  | Store src a => match write A esize (mem st) (address st a) (vec st src) with None => None | Some m => seq (set_mem st m) end
  | LoadS a dst => match mem st (address st a) with None => None | Some x => seq (set_vec st dst (x :: repeat (zero A) (half - 1))) end
  | StoreS src a => match write A esize (mem st) (address st a) (firstn 1 (vec st src)) with None => None | Some m => seq (set_mem st m) end
  | LoadH a dst => match mem st (address st a) with None => None | Some x => seq (set_vec st dst [lane_of (vec st dst) 0; x]) end
  | StoreH src a => match write A esize (mem st) (address st a) [lane_of (vec st src) 1] with None => None | Some m => seq (set_mem st m) end
  | Dup a dst => match mem st (address st a) with None => None | Some x => seq (set_vec st dst (repeat x half)) end
  | DupArg name dst => seq (set_vec st dst (repeat (farg name) half))
  | ArgS name dst => seq (set_vec st dst (farg name :: repeat (zero A) (half - 1)))
  | Move src dst => seq (set_vec st dst (vec st src))
  | Bin op o dst => match value st o half with None => None | Some v => seq (set_vec st dst (map2 A (bin A op) (vec st dst) v)) end
  | BinS op o dst =>
      match value st o 1 with None => None | Some v => seq (set_vec st dst (map2 A (bin A op) (vec st dst) v ++ skipn 1 (vec st dst))) end
  | Clear dst => seq (set_vec st dst (repeat (zero A) half))
  | Spread dst => seq (set_vec st dst (repeat (lane_of (vec st dst) 0) half))
  | Shuf low high src dst => seq (set_vec st dst [lane_of (vec st dst) low; lane_of (vec st src) high])
  | Hadd src dst => seq (set_vec st dst (pairs A (vec st dst) ++ pairs A (vec st src)))
  | Comis a b => seq (set_flags st (equal (lane_of (vec st b) 0) (lane_of (vec st a) 0)) false)
  | MovQ src dst => seq (put st dst (get st src))
  | CmpQ a b => seq (set_flags st (Z.eqb (get st a) (get st b)) (Z.ltb (get st a) (get st b)))
  | CmovLE src dst => seq (if zf st || lf st then put st dst (get st src) else st)
  | CmovLT src dst => seq (if lf st then put st dst (get st src) else st)
  | AddQ src dst => seq (arith st Z.add src dst)
  | SubQ src dst => seq (arith st Z.sub src dst)
  | AndQ src dst => seq (arith st Z.land src dst)
  | XorQ src dst => seq (arith st Z.lxor src dst)
  | ShrQ src dst => seq (arith st Z.shiftr src dst)
  | ShlQ src dst => seq (arith st Z.shiftl src dst)
  | ImulQ src dst => seq (put st dst (get st dst * get st src)%Z)
  | NegQ dst => seq (arith st (fun v _ => - v)%Z dst dst)
  | IncQ dst => seq (arith st Z.add (N 1) dst)
  | DecQ dst => seq (arith st Z.sub (N 1) dst)
  | TestQ a b => seq (set_zf st (Z.eqb (Z.land (get st a) (get st b)) 0))
  | Lea a dst => seq (set_gpr st dst (address st a))
  | Je l => Some (st, if zf st then Goto l else Seq)
  | Jne l => Some (st, if zf st then Seq else Goto l)
  | Jmp l => Some (st, Goto l)
  | Loop l => let v := (gpr st CX - 1)%Z in Some (set_gpr st CX v, if Z.eqb v 0 then Seq else Goto l)
  | Ret => Some (st, Return)
  end.
Fixpoint block (is : list instr) (st : state) : option (state * next) :=
  match is with
  | [] => Some (st, Seq)
  | i :: is => match step i st with
               | None => None
               | Some (st, Seq) => block is st
               | Some (st, n) => Some (st, n)
               end
  end.
Fixpoint from_label (c : code) (l : string) : option code :=
  match c with
  | [] => None
  | (k, is) :: c' => if String.eqb k l then Some c else from_label c' l
  end.
(** as in AsmModel *)
Fixpoint run (fuel : nat) (whole c : code) (st : state) : option (option state) :=
  match fuel with
  | O => Some None
  | S fuel =>
      match c with
      | [] => None
      | (_, is) :: c =>
          match block is st with
          | None => None
          | Some (st, Seq) => run fuel whole c st
          | Some (st, Return) => Some (Some st)
          | Some (st, Goto l) => match from_label whole l with None => None | Some c => run fuel whole c st end
          end
      end
  end.
Definition returns (c : code) (st st' : state) : Prop := exists fuel, run fuel c c st = Some (Some st').
End Machine.
