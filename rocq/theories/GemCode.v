(** Generated from the files cited by tools/gem2coq.py, which expands their macros and renames mnemonics. *)
From Coq Require Import ZArith String List.
From Verif Require Import AsmModel GemModel.
Import ListNotations.
Local Open Scope Z_scope.
Local Open Scope string_scope.

(** AxpyUnitary: mat/internal/f32/asm32/axpyunitary_amd64.s:10-97 *)
Definition axpy_unitary32 : code := [
  ("entry", [MovQ (FP "x_base") (R SI);
      MovQ (FP "y_base") (R DI);
      MovQ (FP "x_len") (R BX);
      CmpQ (FP "y_len") (R BX);
      CmovLE (FP "y_len") (R BX);
      CmpQ (R BX) (N 0);
      Je "axpy_end";
      ArgS "alpha" 0;
      Spread 0;
      XorQ (R AX) (R AX);
      Clear 2;
      Clear 3;
      MovQ (R DI) (R CX);
      AndQ (N 15) (R CX);
      Je "axpy_no_trim";
      XorQ (N 15) (R CX);
      IncQ (R CX);
      ShrQ (N 2) (R CX)]);
  ("axpy_align", [LoadS (At SI (Some (AX, 4)) 0) 2;
      BinS Mul (V 0) 2;
      BinS Add (M (At DI (Some (AX, 4)) 0)) 2;
      StoreS 2 (At DI (Some (AX, 4)) 0);
      IncQ (R AX);
      DecQ (R BX);
      Je "axpy_end";
      Loop "axpy_align"]);
  ("axpy_no_trim", [Move 0 1;
      MovQ (R BX) (R CX);
      AndQ (N 15) (R BX);
      ShrQ (N 4) (R CX);
      Je "axpy_tail4_start"]);
  ("axpy_loop", [Load (At SI (Some (AX, 4)) 0) 2;
      Load (At SI (Some (AX, 4)) 16) 3;
      Load (At SI (Some (AX, 4)) 32) 4;
      Load (At SI (Some (AX, 4)) 48) 5;
      Bin Mul (V 0) 2;
      Bin Mul (V 1) 3;
      Bin Mul (V 0) 4;
      Bin Mul (V 1) 5;
      Bin Add (M (At DI (Some (AX, 4)) 0)) 2;
      Bin Add (M (At DI (Some (AX, 4)) 16)) 3;
      Bin Add (M (At DI (Some (AX, 4)) 32)) 4;
      Bin Add (M (At DI (Some (AX, 4)) 48)) 5;
      Store 2 (At DI (Some (AX, 4)) 0);
      Store 3 (At DI (Some (AX, 4)) 16);
      Store 4 (At DI (Some (AX, 4)) 32);
      Store 5 (At DI (Some (AX, 4)) 48);
      AddQ (N 16) (R AX);
      Loop "axpy_loop";
      CmpQ (R BX) (N 0);
      Je "axpy_end"]);
  ("axpy_tail4_start", [MovQ (R BX) (R CX);
      ShrQ (N 2) (R CX);
      Je "axpy_tail_start"]);
  ("axpy_tail4", [Load (At SI (Some (AX, 4)) 0) 2;
      Bin Mul (V 0) 2;
      Bin Add (M (At DI (Some (AX, 4)) 0)) 2;
      Store 2 (At DI (Some (AX, 4)) 0);
      AddQ (N 4) (R AX);
      Loop "axpy_tail4"]);
  ("axpy_tail_start", [MovQ (R BX) (R CX);
      AndQ (N 3) (R CX);
      Je "axpy_end"]);
  ("axpy_tail", [LoadS (At SI (Some (AX, 4)) 0) 1;
      BinS Mul (V 0) 1;
      BinS Add (M (At DI (Some (AX, 4)) 0)) 1;
      StoreS 1 (At DI (Some (AX, 4)) 0);
      IncQ (R AX);
      Loop "axpy_tail"]);
  ("axpy_end", [Ret])].

(** AxpyUnitaryTo: mat/internal/f32/asm32/axpyunitaryto_amd64.s:10-98 *)
Definition axpy_unitary_to32 : code := [
  ("entry", [MovQ (FP "dst_base") (R DI);
      MovQ (FP "x_base") (R SI);
      MovQ (FP "y_base") (R DX);
      MovQ (FP "x_len") (R BX);
      CmpQ (FP "y_len") (R BX);
      CmovLE (FP "y_len") (R BX);
      CmpQ (FP "dst_len") (R BX);
      CmovLE (FP "dst_len") (R BX);
      CmpQ (R BX) (N 0);
      Je "axpy_end";
      ArgS "alpha" 0;
      Spread 0;
      XorQ (R AX) (R AX);
      MovQ (R DX) (R CX);
      AndQ (N 15) (R CX);
      Je "axpy_no_trim";
      XorQ (N 15) (R CX);
      IncQ (R CX);
      ShrQ (N 2) (R CX)]);
  ("axpy_align", [LoadS (At SI (Some (AX, 4)) 0) 2;
      BinS Mul (V 0) 2;
      BinS Add (M (At DX (Some (AX, 4)) 0)) 2;
      StoreS 2 (At DI (Some (AX, 4)) 0);
      IncQ (R AX);
      DecQ (R BX);
      Je "axpy_end";
      Loop "axpy_align"]);
  ("axpy_no_trim", [Move 0 1;
      MovQ (R BX) (R CX);
      AndQ (N 15) (R BX);
      ShrQ (N 4) (R CX);
      Je "axpy_tail4_start"]);
  ("axpy_loop", [Load (At SI (Some (AX, 4)) 0) 2;
      Load (At SI (Some (AX, 4)) 16) 3;
      Load (At SI (Some (AX, 4)) 32) 4;
      Load (At SI (Some (AX, 4)) 48) 5;
      Bin Mul (V 0) 2;
      Bin Mul (V 1) 3;
      Bin Mul (V 0) 4;
      Bin Mul (V 1) 5;
      Bin Add (M (At DX (Some (AX, 4)) 0)) 2;
      Bin Add (M (At DX (Some (AX, 4)) 16)) 3;
      Bin Add (M (At DX (Some (AX, 4)) 32)) 4;
      Bin Add (M (At DX (Some (AX, 4)) 48)) 5;
      Store 2 (At DI (Some (AX, 4)) 0);
      Store 3 (At DI (Some (AX, 4)) 16);
      Store 4 (At DI (Some (AX, 4)) 32);
      Store 5 (At DI (Some (AX, 4)) 48);
      AddQ (N 16) (R AX);
      Loop "axpy_loop";
      CmpQ (R BX) (N 0);
      Je "axpy_end"]);
  ("axpy_tail4_start", [MovQ (R BX) (R CX);
      ShrQ (N 2) (R CX);
      Je "axpy_tail_start"]);
  ("axpy_tail4", [Load (At SI (Some (AX, 4)) 0) 2;
      Bin Mul (V 0) 2;
      Bin Add (M (At DX (Some (AX, 4)) 0)) 2;
      Store 2 (At DI (Some (AX, 4)) 0);
      AddQ (N 4) (R AX);
      Loop "axpy_tail4"]);
  ("axpy_tail_start", [MovQ (R BX) (R CX);
      AndQ (N 3) (R CX);
      Je "axpy_end"]);
  ("axpy_tail", [LoadS (At SI (Some (AX, 4)) 0) 1;
      BinS Mul (V 0) 1;
      BinS Add (M (At DX (Some (AX, 4)) 0)) 1;
      StoreS 1 (At DI (Some (AX, 4)) 0);
      IncQ (R AX);
      Loop "axpy_tail"]);
  ("axpy_end", [Ret])].

(** AxpyUnitary: mat/internal/f64/asm64/axpyunitary_amd64.s:51-134 *)
Definition axpy_unitary64 : code := [
  ("entry", [MovQ (FP "x_base") (R SI);
      MovQ (FP "y_base") (R DI);
      MovQ (FP "x_len") (R CX);
      CmpQ (FP "y_len") (R CX);
      CmovLE (FP "y_len") (R CX);
      CmpQ (R CX) (N 0);
      Je "end";
      XorQ (R AX) (R AX);
      ArgS "alpha" 0;
      Spread 0;
      Move 0 1;
      MovQ (R DI) (R BX);
      AndQ (N 15) (R BX);
      Je "no_trim";
      LoadS (At SI None 0) 2;
      BinS Mul (V 0) 2;
      BinS Add (M (At DI None 0)) 2;
      StoreS 2 (At DI None 0);
      IncQ (R AX);
      DecQ (R CX);
      Je "end"]);
  ("no_trim", [MovQ (R CX) (R BX);
      AndQ (N 7) (R BX);
      ShrQ (N 3) (R CX);
      Je "tail_start"]);
  ("loop", [Load (At SI (Some (AX, 8)) 0) 2;
      Load (At SI (Some (AX, 8)) 16) 3;
      Load (At SI (Some (AX, 8)) 32) 4;
      Load (At SI (Some (AX, 8)) 48) 5;
      Bin Mul (V 0) 2;
      Bin Mul (V 1) 3;
      Bin Mul (V 0) 4;
      Bin Mul (V 1) 5;
      Bin Add (M (At DI (Some (AX, 8)) 0)) 2;
      Bin Add (M (At DI (Some (AX, 8)) 16)) 3;
      Bin Add (M (At DI (Some (AX, 8)) 32)) 4;
      Bin Add (M (At DI (Some (AX, 8)) 48)) 5;
      Store 2 (At DI (Some (AX, 8)) 0);
      Store 3 (At DI (Some (AX, 8)) 16);
      Store 4 (At DI (Some (AX, 8)) 32);
      Store 5 (At DI (Some (AX, 8)) 48);
      AddQ (N 8) (R AX);
      DecQ (R CX);
      Jne "loop";
      CmpQ (R BX) (N 0);
      Je "end"]);
  ("tail_start", [MovQ (R BX) (R CX);
      ShrQ (N 1) (R CX);
      Je "tail_one"]);
  ("tail_two", [Load (At SI (Some (AX, 8)) 0) 2;
      Bin Mul (V 0) 2;
      Bin Add (M (At DI (Some (AX, 8)) 0)) 2;
      Store 2 (At DI (Some (AX, 8)) 0);
      AddQ (N 2) (R AX);
      DecQ (R CX);
      Jne "tail_two";
      AndQ (N 1) (R BX);
      Je "end"]);
  ("tail_one", [LoadS (At SI (Some (AX, 8)) 0) 2;
      BinS Mul (V 0) 2;
      BinS Add (M (At DI (Some (AX, 8)) 0)) 2;
      StoreS 2 (At DI (Some (AX, 8)) 0)]);
  ("end", [Ret])].

(** AxpyUnitaryTo: mat/internal/f64/asm64/axpyunitaryto_amd64.s:51-140 *)
Definition axpy_unitary_to64 : code := [
  ("entry", [MovQ (FP "dst_base") (R DI);
      MovQ (FP "x_base") (R SI);
      MovQ (FP "y_base") (R DX);
      MovQ (FP "x_len") (R CX);
      CmpQ (FP "y_len") (R CX);
      CmovLE (FP "y_len") (R CX);
      CmpQ (FP "dst_len") (R CX);
      CmovLE (FP "dst_len") (R CX);
      CmpQ (R CX) (N 0);
      Je "end";
      XorQ (R AX) (R AX);
      ArgS "alpha" 0;
      Spread 0;
      MovQ (R DX) (R BX);
      AndQ (N 15) (R BX);
      Je "no_trim";
      LoadS (At SI None 0) 2;
      BinS Mul (V 0) 2;
      BinS Add (M (At DX None 0)) 2;
      StoreS 2 (At DI None 0);
      IncQ (R AX);
      DecQ (R CX);
      Je "end"]);
  ("no_trim", [MovQ (R CX) (R BX);
      AndQ (N 7) (R BX);
      ShrQ (N 3) (R CX);
      Je "tail_start";
      Move 0 1]);
  ("loop", [Load (At SI (Some (AX, 8)) 0) 2;
      Load (At SI (Some (AX, 8)) 16) 3;
      Load (At SI (Some (AX, 8)) 32) 4;
      Load (At SI (Some (AX, 8)) 48) 5;
      Bin Mul (V 0) 2;
      Bin Mul (V 1) 3;
      Bin Mul (V 0) 4;
      Bin Mul (V 1) 5;
      Bin Add (M (At DX (Some (AX, 8)) 0)) 2;
      Bin Add (M (At DX (Some (AX, 8)) 16)) 3;
      Bin Add (M (At DX (Some (AX, 8)) 32)) 4;
      Bin Add (M (At DX (Some (AX, 8)) 48)) 5;
      Store 2 (At DI (Some (AX, 8)) 0);
      Store 3 (At DI (Some (AX, 8)) 16);
      Store 4 (At DI (Some (AX, 8)) 32);
      Store 5 (At DI (Some (AX, 8)) 48);
      AddQ (N 8) (R AX);
      DecQ (R CX);
      Jne "loop";
      CmpQ (R BX) (N 0);
      Je "end"]);
  ("tail_start", [MovQ (R BX) (R CX);
      ShrQ (N 1) (R CX);
      Je "tail_one"]);
  ("tail_two", [Load (At SI (Some (AX, 8)) 0) 2;
      Bin Mul (V 0) 2;
      Bin Add (M (At DX (Some (AX, 8)) 0)) 2;
      Store 2 (At DI (Some (AX, 8)) 0);
      AddQ (N 2) (R AX);
      DecQ (R CX);
      Jne "tail_two";
      AndQ (N 1) (R BX);
      Je "end"]);
  ("tail_one", [LoadS (At SI (Some (AX, 8)) 0) 2;
      BinS Mul (V 0) 2;
      BinS Add (M (At DX (Some (AX, 8)) 0)) 2;
      StoreS 2 (At DI (Some (AX, 8)) 0)]);
  ("end", [Ret])].

(** CumSum: mat/internal/f64/asm64/cumsum_amd64.s:9-64 *)
Definition cum_sum64 : code := [
  ("entry", [MovQ (FP "dst_base") (R DI);
      MovQ (FP "dst_len") (R CX);
      MovQ (FP "s_base") (R SI);
      CmpQ (FP "s_len") (R CX);
      CmovLE (FP "s_len") (R CX);
      MovQ (R CX) (FP "ret_len");
      CmpQ (R CX) (N 0);
      Je "cs_end";
      XorQ (R AX) (R AX);
      Clear 5;
      MovQ (R CX) (R BX);
      AndQ (N 3) (R BX);
      ShrQ (N 2) (R CX);
      Je "cs_tail_start"]);
  ("cs_loop", [Load (At SI (Some (AX, 8)) 0) 0;
      Load (At SI (Some (AX, 8)) 16) 2;
      Move 0 1;
      Move 2 3;
      Shuf 1 0 1 1;
      Shuf 1 0 3 3;
      Bin Add (V 0) 1;
      Bin Add (V 2) 3;
      Shuf 0 1 1 0;
      Shuf 1 1 1 1;
      Shuf 0 1 3 2;
      Shuf 1 1 3 3;
      Bin Add (V 5) 0;
      Bin Add (V 1) 5;
      Bin Add (V 5) 2;
      Store 0 (At DI (Some (AX, 8)) 0);
      Store 2 (At DI (Some (AX, 8)) 16);
      Bin Add (V 3) 5;
      AddQ (N 4) (R AX);
      Loop "cs_loop";
      CmpQ (R BX) (N 0);
      Je "cs_end"]);
  ("cs_tail_start", [MovQ (R BX) (R CX)]);
  ("cs_tail", [BinS Add (M (At SI (Some (AX, 8)) 0)) 5;
      StoreS 5 (At DI (Some (AX, 8)) 0);
      IncQ (R AX);
      Loop "cs_tail"]);
  ("cs_end", [MovQ (R DI) (FP "ret_base");
      MovQ (FP "dst_cap") (R SI);
      MovQ (R SI) (FP "ret_cap");
      Ret])].

(** GemvN: mat/internal/f64/asm64/gemvN_amd64.s:233-685 *)
Definition gemv_n64 : code := [
  ("entry", [MovQ (FP "m") (R CX);
      MovQ (FP "n") (R BX);
      CmpQ (R CX) (N 0);
      Je "end";
      CmpQ (R BX) (N 0);
      Je "end";
      DupArg "alpha" 15;
      DupArg "beta" 14;
      MovQ (FP "x_base") (R SI);
      MovQ (FP "y_base") (R DX);
      MovQ (FP "a_base") (R AX);
      MovQ (FP "incY") (R R10);
      MovQ (FP "lda") (R R12);
      ShlQ (N 3) (R R12);
      Lea (At R12 (Some (R12, 2)) 0) R13;
      MovQ (R AX) (R DI);
      XorQ (R R15) (R R15);
      MovQ (R CX) (R R14);
      SubQ (N 1) (R R14);
      ImulQ (R R10) (R R14);
      NegQ (R R14);
      CmpQ (R R10) (N 0);
      CmovLT (R R14) (R R15);
      Lea (At DX (Some (R15, 8)) 0) DX;
      MovQ (R DX) (FP "y_base");
      ShlQ (N 3) (R R10);
      Lea (At R10 (Some (R10, 2)) 0) R11;
      Clear 0;
      Comis 14 0;
      Jne "gemv_start"]);
  ("gemv_clear", [Clear 0;
      Clear 1;
      Clear 2;
      Clear 3;
      CmpQ (FP "incY") (N 1);
      Jne "inc_clear";
      ShrQ (N 3) (R CX);
      Je "clear4"]);
  ("clear8", [Store 0 (At DX None 0);
      Store 1 (At DX None 16);
      Store 2 (At DX None 32);
      Store 3 (At DX None 48);
      AddQ (N 64) (R DX);
      DecQ (R CX);
      Jne "clear8"]);
  ("clear4", [TestQ (N 4) (FP "m");
      Je "clear2";
      Store 0 (At DX None 0);
      Store 1 (At DX None 16);
      AddQ (N 32) (R DX)]);
  ("clear2", [TestQ (N 2) (FP "m");
      Je "clear1";
      Store 0 (At DX None 0);
      AddQ (N 16) (R DX)]);
  ("clear1", [TestQ (N 1) (FP "m");
      Je "prep_end";
      StoreS 0 (At DX None 0);
      Jmp "prep_end"]);
  ("inc_clear", [ShrQ (N 2) (R CX);
      Je "inc_clear2"]);
  ("inc_clear4", [StoreS 0 (At DX None 0);
      StoreS 1 (At DX (Some (R10, 1)) 0);
      StoreS 2 (At DX (Some (R10, 2)) 0);
      StoreS 3 (At DX (Some (R11, 1)) 0);
      Lea (At DX (Some (R10, 4)) 0) DX;
      DecQ (R CX);
      Jne "inc_clear4"]);
  ("inc_clear2", [TestQ (N 2) (FP "m");
      Je "inc_clear1";
      StoreS 0 (At DX None 0);
      StoreS 1 (At DX (Some (R10, 1)) 0);
      Lea (At DX (Some (R10, 2)) 0) DX]);
  ("inc_clear1", [TestQ (N 1) (FP "m");
      Je "prep_end";
      StoreS 0 (At DX None 0)]);
  ("prep_end", [MovQ (FP "y_base") (R DX);
      MovQ (FP "m") (R CX)]);
  ("gemv_start", [CmpQ (FP "incX") (N 1);
      Jne "inc";
      ShrQ (N 2) (R CX);
      Je "r2"]);
  ("r4", [Clear 0;
      Clear 1;
      Clear 2;
      Clear 3;
      MovQ (FP "n") (R BX);
      ShrQ (N 2) (R BX);
      Je "r4c2"]);
  ("r4c4", [Load (At SI None 0) 12;
      Load (At SI None 16) 13;
      Load (At DI None 0) 4;
      Load (At DI None 16) 5;
      Load (At DI (Some (R12, 1)) 0) 6;
      Load (At DI (Some (R12, 1)) 16) 7;
      Load (At DI (Some (R12, 2)) 0) 8;
      Load (At DI (Some (R12, 2)) 16) 9;
      Load (At DI (Some (R13, 1)) 0) 10;
      Load (At DI (Some (R13, 1)) 16) 11;
      Bin Mul (V 12) 4;
      Bin Mul (V 13) 5;
      Bin Mul (V 12) 6;
      Bin Mul (V 13) 7;
      Bin Mul (V 12) 8;
      Bin Mul (V 13) 9;
      Bin Mul (V 12) 10;
      Bin Mul (V 13) 11;
      Bin Add (V 4) 0;
      Bin Add (V 5) 0;
      Bin Add (V 6) 1;
      Bin Add (V 7) 1;
      Bin Add (V 8) 2;
      Bin Add (V 9) 2;
      Bin Add (V 10) 3;
      Bin Add (V 11) 3;
      AddQ (N 32) (R DI);
      AddQ (N 32) (R SI);
      DecQ (R BX);
      Jne "r4c4"]);
  ("r4c2", [TestQ (N 2) (FP "n");
      Je "r4c1";
      Load (At SI None 0) 12;
      Load (At DI None 0) 4;
      Load (At DI (Some (R12, 1)) 0) 5;
      Load (At DI (Some (R12, 2)) 0) 6;
      Load (At DI (Some (R13, 1)) 0) 7;
      Bin Mul (V 12) 4;
      Bin Mul (V 12) 5;
      Bin Mul (V 12) 6;
      Bin Mul (V 12) 7;
      Bin Add (V 4) 0;
      Bin Add (V 5) 1;
      Bin Add (V 6) 2;
      Bin Add (V 7) 3;
      AddQ (N 16) (R DI);
      AddQ (N 16) (R SI)]);
  ("r4c1", [Hadd 1 0;
      Hadd 3 2;
      TestQ (N 1) (FP "n");
      Je "r4end";
      Dup (At SI None 0) 12;
      LoadS (At DI None 0) 4;
      LoadH (At DI (Some (R12, 1)) 0) 4;
      LoadS (At DI (Some (R12, 2)) 0) 5;
      LoadH (At DI (Some (R13, 1)) 0) 5;
      Bin Mul (V 12) 4;
      Bin Mul (V 12) 5;
      Bin Add (V 4) 0;
      Bin Add (V 5) 2;
      AddQ (N 8) (R DI);
      AddQ (N 8) (R SI)]);
  ("r4end", [CmpQ (R R10) (N 8);
      Jne "r4st_inc";
      Load (At DX None 0) 4;
      Load (At DX None 16) 5;
      Bin Mul (V 15) 0;
      Bin Mul (V 15) 2;
      Bin Mul (V 14) 4;
      Bin Mul (V 14) 5;
      Bin Add (V 0) 4;
      Bin Add (V 2) 5;
      Store 4 (At DX None 0);
      Store 5 (At DX None 16);
      AddQ (N 32) (R DX);
      Jmp "r4inc"]);
  ("r4st_inc", [LoadS (At DX None 0) 4;
      LoadH (At DX (Some (R10, 1)) 0) 4;
      LoadS (At DX (Some (R10, 2)) 0) 5;
      LoadH (At DX (Some (R11, 1)) 0) 5;
      Bin Mul (V 15) 0;
      Bin Mul (V 15) 2;
      Bin Mul (V 14) 4;
      Bin Mul (V 14) 5;
      Bin Add (V 0) 4;
      Bin Add (V 2) 5;
      StoreS 4 (At DX None 0);
      StoreH 4 (At DX (Some (R10, 1)) 0);
      StoreS 5 (At DX (Some (R10, 2)) 0);
      StoreH 5 (At DX (Some (R11, 1)) 0);
      Lea (At DX (Some (R10, 4)) 0) DX]);
  ("r4inc", [MovQ (FP "x_base") (R SI);
      Lea (At AX (Some (R12, 4)) 0) AX;
      MovQ (R AX) (R DI);
      DecQ (R CX);
      Jne "r4"]);
  ("r2", [TestQ (N 2) (FP "m");
      Je "r1";
      Clear 0;
      Clear 1;
      MovQ (FP "n") (R BX);
      ShrQ (N 2) (R BX);
      Je "r2c2"]);
  ("r2c4", [Load (At SI None 0) 12;
      Load (At SI None 16) 13;
      Load (At DI None 0) 8;
      Load (At DI None 16) 9;
      Load (At DI (Some (R12, 1)) 0) 10;
      Load (At DI (Some (R12, 1)) 16) 11;
      Bin Mul (V 12) 8;
      Bin Mul (V 13) 9;
      Bin Mul (V 12) 10;
      Bin Mul (V 13) 11;
      Bin Add (V 8) 0;
      Bin Add (V 10) 1;
      Bin Add (V 9) 0;
      Bin Add (V 11) 1;
      AddQ (N 32) (R DI);
      AddQ (N 32) (R SI);
      DecQ (R BX);
      Jne "r2c4"]);
  ("r2c2", [TestQ (N 2) (FP "n");
      Je "r2c1";
      Load (At SI None 0) 12;
      Load (At DI None 0) 8;
      Load (At DI (Some (R12, 1)) 0) 9;
      Bin Mul (V 12) 8;
      Bin Mul (V 12) 9;
      Bin Add (V 8) 0;
      Bin Add (V 9) 1;
      AddQ (N 16) (R DI);
      AddQ (N 16) (R SI)]);
  ("r2c1", [Hadd 1 0;
      TestQ (N 1) (FP "n");
      Je "r2end";
      Dup (At SI None 0) 12;
      LoadS (At DI None 0) 8;
      LoadH (At DI (Some (R12, 1)) 0) 8;
      Bin Mul (V 12) 8;
      Bin Add (V 8) 0;
      AddQ (N 8) (R DI);
      AddQ (N 8) (R SI)]);
  ("r2end", [CmpQ (R R10) (N 8);
      Jne "r2st_inc";
      Load (At DX None 0) 4;
      Bin Mul (V 15) 0;
      Bin Mul (V 14) 4;
      Bin Add (V 0) 4;
      Store 4 (At DX None 0);
      AddQ (N 16) (R DX);
      Jmp "r2inc"]);
  ("r2st_inc", [LoadS (At DX None 0) 4;
      LoadH (At DX (Some (R10, 1)) 0) 4;
      Bin Mul (V 15) 0;
      Bin Mul (V 14) 4;
      Bin Add (V 0) 4;
      StoreS 4 (At DX None 0);
      StoreH 4 (At DX (Some (R10, 1)) 0);
      Lea (At DX (Some (R10, 2)) 0) DX]);
  ("r2inc", [MovQ (FP "x_base") (R SI);
      Lea (At AX (Some (R12, 2)) 0) AX;
      MovQ (R AX) (R DI)]);
  ("r1", [TestQ (N 1) (FP "m");
      Je "end";
      Clear 0;
      MovQ (FP "n") (R BX);
      ShrQ (N 2) (R BX);
      Je "r1c2"]);
  ("r1c4", [Load (At SI None 0) 12;
      Load (At SI None 16) 13;
      Load (At DI None 0) 8;
      Load (At DI None 16) 9;
      Bin Mul (V 12) 8;
      Bin Mul (V 13) 9;
      Bin Add (V 8) 0;
      Bin Add (V 9) 0;
      AddQ (N 32) (R DI);
      AddQ (N 32) (R SI);
      DecQ (R BX);
      Jne "r1c4"]);
  ("r1c2", [TestQ (N 2) (FP "n");
      Je "r1c1";
      Load (At SI None 0) 12;
      Load (At DI None 0) 8;
      Bin Mul (V 12) 8;
      Bin Add (V 8) 0;
      AddQ (N 16) (R DI);
      AddQ (N 16) (R SI)]);
  ("r1c1", [TestQ (N 1) (FP "n");
      Je "r1end";
      LoadS (At SI None 0) 12;
      LoadS (At DI None 0) 8;
      BinS Mul (V 12) 8;
      BinS Add (V 8) 0;
      AddQ (N 8) (R DI)]);
  ("r1end", [Hadd 0 0;
      LoadS (At DX None 0) 4;
      BinS Mul (V 15) 0;
      BinS Mul (V 14) 4;
      BinS Add (V 0) 4;
      StoreS 4 (At DX None 0)]);
  ("end", [Ret]);
  ("inc", [MovQ (FP "incX") (R R8);
      XorQ (R R15) (R R15);
      MovQ (R BX) (R R14);
      SubQ (N 1) (R R14);
      NegQ (R R14);
      ImulQ (R R8) (R R14);
      CmpQ (R R8) (N 0);
      CmovLT (R R14) (R R15);
      Lea (At SI (Some (R15, 8)) 0) SI;
      MovQ (R SI) (FP "x_base");
      ShlQ (N 3) (R R8);
      Lea (At R8 (Some (R8, 2)) 0) R9;
      ShrQ (N 2) (R CX);
      Je "inc_r2"]);
  ("inc_r4", [Clear 0;
      Clear 1;
      Clear 2;
      Clear 3;
      MovQ (FP "n") (R BX);
      ShrQ (N 2) (R BX);
      Je "inc_r4c2"]);
  ("inc_r4c4", [LoadS (At SI None 0) 12;
      LoadH (At SI (Some (R8, 1)) 0) 12;
      LoadS (At SI (Some (R8, 2)) 0) 13;
      LoadH (At SI (Some (R9, 1)) 0) 13;
      Load (At DI None 0) 4;
      Load (At DI None 16) 5;
      Load (At DI (Some (R12, 1)) 0) 6;
      Load (At DI (Some (R12, 1)) 16) 7;
      Load (At DI (Some (R12, 2)) 0) 8;
      Load (At DI (Some (R12, 2)) 16) 9;
      Load (At DI (Some (R13, 1)) 0) 10;
      Load (At DI (Some (R13, 1)) 16) 11;
      Bin Mul (V 12) 4;
      Bin Mul (V 13) 5;
      Bin Mul (V 12) 6;
      Bin Mul (V 13) 7;
      Bin Mul (V 12) 8;
      Bin Mul (V 13) 9;
      Bin Mul (V 12) 10;
      Bin Mul (V 13) 11;
      Bin Add (V 4) 0;
      Bin Add (V 5) 0;
      Bin Add (V 6) 1;
      Bin Add (V 7) 1;
      Bin Add (V 8) 2;
      Bin Add (V 9) 2;
      Bin Add (V 10) 3;
      Bin Add (V 11) 3;
      AddQ (N 32) (R DI);
      Lea (At SI (Some (R8, 4)) 0) SI;
      DecQ (R BX);
      Jne "inc_r4c4"]);
  ("inc_r4c2", [TestQ (N 2) (FP "n");
      Je "inc_r4c1";
      LoadS (At SI None 0) 12;
      LoadH (At SI (Some (R8, 1)) 0) 12;
      Load (At DI None 0) 4;
      Load (At DI (Some (R12, 1)) 0) 5;
      Load (At DI (Some (R12, 2)) 0) 6;
      Load (At DI (Some (R13, 1)) 0) 7;
      Bin Mul (V 12) 4;
      Bin Mul (V 12) 5;
      Bin Mul (V 12) 6;
      Bin Mul (V 12) 7;
      Bin Add (V 4) 0;
      Bin Add (V 5) 1;
      Bin Add (V 6) 2;
      Bin Add (V 7) 3;
      AddQ (N 16) (R DI);
      Lea (At SI (Some (R8, 2)) 0) SI]);
  ("inc_r4c1", [Hadd 1 0;
      Hadd 3 2;
      TestQ (N 1) (FP "n");
      Je "inc_r4end";
      Dup (At SI None 0) 12;
      LoadS (At DI None 0) 4;
      LoadH (At DI (Some (R12, 1)) 0) 4;
      LoadS (At DI (Some (R12, 2)) 0) 5;
      LoadH (At DI (Some (R13, 1)) 0) 5;
      Bin Mul (V 12) 4;
      Bin Mul (V 12) 5;
      Bin Add (V 4) 0;
      Bin Add (V 5) 2;
      AddQ (N 8) (R DI);
      AddQ (R R8) (R SI)]);
  ("inc_r4end", [CmpQ (R R10) (N 8);
      Jne "inc_r4st_inc";
      Load (At DX None 0) 4;
      Load (At DX None 16) 5;
      Bin Mul (V 15) 0;
      Bin Mul (V 15) 2;
      Bin Mul (V 14) 4;
      Bin Mul (V 14) 5;
      Bin Add (V 0) 4;
      Bin Add (V 2) 5;
      Store 4 (At DX None 0);
      Store 5 (At DX None 16);
      AddQ (N 32) (R DX);
      Jmp "inc_r4inc"]);
  ("inc_r4st_inc", [LoadS (At DX None 0) 4;
      LoadH (At DX (Some (R10, 1)) 0) 4;
      LoadS (At DX (Some (R10, 2)) 0) 5;
      LoadH (At DX (Some (R11, 1)) 0) 5;
      Bin Mul (V 15) 0;
      Bin Mul (V 15) 2;
      Bin Mul (V 14) 4;
      Bin Mul (V 14) 5;
      Bin Add (V 0) 4;
      Bin Add (V 2) 5;
      StoreS 4 (At DX None 0);
      StoreH 4 (At DX (Some (R10, 1)) 0);
      StoreS 5 (At DX (Some (R10, 2)) 0);
      StoreH 5 (At DX (Some (R11, 1)) 0);
      Lea (At DX (Some (R10, 4)) 0) DX]);
  ("inc_r4inc", [MovQ (FP "x_base") (R SI);
      Lea (At AX (Some (R12, 4)) 0) AX;
      MovQ (R AX) (R DI);
      DecQ (R CX);
      Jne "inc_r4"]);
  ("inc_r2", [TestQ (N 2) (FP "m");
      Je "inc_r1";
      Clear 0;
      Clear 1;
      MovQ (FP "n") (R BX);
      ShrQ (N 2) (R BX);
      Je "inc_r2c2"]);
  ("inc_r2c4", [LoadS (At SI None 0) 12;
      LoadH (At SI (Some (R8, 1)) 0) 12;
      LoadS (At SI (Some (R8, 2)) 0) 13;
      LoadH (At SI (Some (R9, 1)) 0) 13;
      Load (At DI None 0) 8;
      Load (At DI None 16) 9;
      Load (At DI (Some (R12, 1)) 0) 10;
      Load (At DI (Some (R12, 1)) 16) 11;
      Bin Mul (V 12) 8;
      Bin Mul (V 13) 9;
      Bin Mul (V 12) 10;
      Bin Mul (V 13) 11;
      Bin Add (V 8) 0;
      Bin Add (V 10) 1;
      Bin Add (V 9) 0;
      Bin Add (V 11) 1;
      AddQ (N 32) (R DI);
      Lea (At SI (Some (R8, 4)) 0) SI;
      DecQ (R BX);
      Jne "inc_r2c4"]);
  ("inc_r2c2", [TestQ (N 2) (FP "n");
      Je "inc_r2c1";
      LoadS (At SI None 0) 12;
      LoadH (At SI (Some (R8, 1)) 0) 12;
      Load (At DI None 0) 8;
      Load (At DI (Some (R12, 1)) 0) 9;
      Bin Mul (V 12) 8;
      Bin Mul (V 12) 9;
      Bin Add (V 8) 0;
      Bin Add (V 9) 1;
      AddQ (N 16) (R DI);
      Lea (At SI (Some (R8, 2)) 0) SI]);
  ("inc_r2c1", [Hadd 1 0;
      TestQ (N 1) (FP "n");
      Je "inc_r2end";
      Dup (At SI None 0) 12;
      LoadS (At DI None 0) 8;
      LoadH (At DI (Some (R12, 1)) 0) 8;
      Bin Mul (V 12) 8;
      Bin Add (V 8) 0;
      AddQ (N 8) (R DI);
      AddQ (R R8) (R SI)]);
  ("inc_r2end", [CmpQ (R R10) (N 8);
      Jne "inc_r2st_inc";
      Load (At DX None 0) 4;
      Bin Mul (V 15) 0;
      Bin Mul (V 14) 4;
      Bin Add (V 0) 4;
      Store 4 (At DX None 0);
      AddQ (N 16) (R DX);
      Jmp "inc_r2inc"]);
  ("inc_r2st_inc", [LoadS (At DX None 0) 4;
      LoadH (At DX (Some (R10, 1)) 0) 4;
      Bin Mul (V 15) 0;
      Bin Mul (V 14) 4;
      Bin Add (V 0) 4;
      StoreS 4 (At DX None 0);
      StoreH 4 (At DX (Some (R10, 1)) 0);
      Lea (At DX (Some (R10, 2)) 0) DX]);
  ("inc_r2inc", [MovQ (FP "x_base") (R SI);
      Lea (At AX (Some (R12, 2)) 0) AX;
      MovQ (R AX) (R DI)]);
  ("inc_r1", [TestQ (N 1) (FP "m");
      Je "inc_end";
      Clear 0;
      MovQ (FP "n") (R BX);
      ShrQ (N 2) (R BX);
      Je "inc_r1c2"]);
  ("inc_r1c4", [LoadS (At SI None 0) 12;
      LoadH (At SI (Some (R8, 1)) 0) 12;
      LoadS (At SI (Some (R8, 2)) 0) 13;
      LoadH (At SI (Some (R9, 1)) 0) 13;
      Load (At DI None 0) 8;
      Load (At DI None 16) 9;
      Bin Mul (V 12) 8;
      Bin Mul (V 13) 9;
      Bin Add (V 8) 0;
      Bin Add (V 9) 0;
      AddQ (N 32) (R DI);
      Lea (At SI (Some (R8, 4)) 0) SI;
      DecQ (R BX);
      Jne "inc_r1c4"]);
  ("inc_r1c2", [TestQ (N 2) (FP "n");
      Je "inc_r1c1";
      LoadS (At SI None 0) 12;
      LoadH (At SI (Some (R8, 1)) 0) 12;
      Load (At DI None 0) 8;
      Bin Mul (V 12) 8;
      Bin Add (V 8) 0;
      AddQ (N 16) (R DI);
      Lea (At SI (Some (R8, 2)) 0) SI]);
  ("inc_r1c1", [TestQ (N 1) (FP "n");
      Je "inc_r1end";
      LoadS (At SI None 0) 12;
      LoadS (At DI None 0) 8;
      BinS Mul (V 12) 8;
      BinS Add (V 8) 0;
      AddQ (N 8) (R DI)]);
  ("inc_r1end", [Hadd 0 0;
      LoadS (At DX None 0) 4;
      BinS Mul (V 15) 0;
      BinS Mul (V 14) 4;
      BinS Add (V 0) 4;
      StoreS 4 (At DX None 0)]);
  ("inc_end", [Ret])].
