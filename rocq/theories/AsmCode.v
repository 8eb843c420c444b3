(** Generated from mat/internal/matfuncs/*_amd64.s, one instruction per line of those files, by a script that only
    renames mnemonics; the comment of each definition cites its lines. *)
From Coq Require Import ZArith String List.
From Verif Require Import AsmModel.
Import ListNotations.
Local Open Scope Z_scope.
Local Open Scope string_scope.

(** AddAVX32: mat/internal/matfuncs/add_amd64.s:9-97 *)
Definition add_avx32 : code := [
  ("entry", [Arg "x1_base" AX;
      Arg "x2_base" CX;
      Arg "y_base" DX;
      Arg "x1_len" BX]);
  ("unrolledLoop", [CmpQ BX 128;
      Jl "singleRegisterLoop";
      Load Y true AX 0 0;
      Load Y true AX 32 1;
      Load Y true AX 64 2;
      Load Y true AX 96 3;
      Load Y true AX 128 4;
      Load Y true AX 160 5;
      Load Y true AX 192 6;
      Load Y true AX 224 7;
      Load Y true AX 256 8;
      Load Y true AX 288 9;
      Load Y true AX 320 10;
      Load Y true AX 352 11;
      Load Y true AX 384 12;
      Load Y true AX 416 13;
      Load Y true AX 448 14;
      Load Y true AX 480 15;
      Bin Add Y true (Mem CX 0) 0 0;
      Bin Add Y true (Mem CX 32) 1 1;
      Bin Add Y true (Mem CX 64) 2 2;
      Bin Add Y true (Mem CX 96) 3 3;
      Bin Add Y true (Mem CX 128) 4 4;
      Bin Add Y true (Mem CX 160) 5 5;
      Bin Add Y true (Mem CX 192) 6 6;
      Bin Add Y true (Mem CX 224) 7 7;
      Bin Add Y true (Mem CX 256) 8 8;
      Bin Add Y true (Mem CX 288) 9 9;
      Bin Add Y true (Mem CX 320) 10 10;
      Bin Add Y true (Mem CX 352) 11 11;
      Bin Add Y true (Mem CX 384) 12 12;
      Bin Add Y true (Mem CX 416) 13 13;
      Bin Add Y true (Mem CX 448) 14 14;
      Bin Add Y true (Mem CX 480) 15 15;
      Store Y 0 DX 0;
      Store Y 1 DX 32;
      Store Y 2 DX 64;
      Store Y 3 DX 96;
      Store Y 4 DX 128;
      Store Y 5 DX 160;
      Store Y 6 DX 192;
      Store Y 7 DX 224;
      Store Y 8 DX 256;
      Store Y 9 DX 288;
      Store Y 10 DX 320;
      Store Y 11 DX 352;
      Store Y 12 DX 384;
      Store Y 13 DX 416;
      Store Y 14 DX 448;
      Store Y 15 DX 480;
      AddQ 512 AX;
      AddQ 512 CX;
      AddQ 512 DX;
      SubQ 128 BX;
      Jmp "unrolledLoop"]);
  ("singleRegisterLoop", [CmpQ BX 8;
      Jl "tailLoop";
      Load Y true AX 0 0;
      Bin Add Y true (Mem CX 0) 0 0;
      Store Y 0 DX 0;
      AddQ 32 AX;
      AddQ 32 CX;
      AddQ 32 DX;
      SubQ 8 BX;
      Jmp "singleRegisterLoop"]);
  ("tailLoop", [CmpQ BX 0;
      Je "end";
      LoadS true AX 0 0;
      BinS Add true (Mem CX 0) 0 0;
      StoreS 0 DX 0;
      AddQ 4 AX;
      AddQ 4 CX;
      AddQ 4 DX;
      DecQ BX;
      Jmp "tailLoop"]);
  ("end", [Ret])].

(** AddAVX64: mat/internal/matfuncs/add_amd64.s:101-189 *)
Definition add_avx64 : code := [
  ("entry", [Arg "x1_base" AX;
      Arg "x2_base" CX;
      Arg "y_base" DX;
      Arg "x1_len" BX]);
  ("unrolledLoop", [CmpQ BX 64;
      Jl "singleRegisterLoop";
      Load Y true AX 0 0;
      Load Y true AX 32 1;
      Load Y true AX 64 2;
      Load Y true AX 96 3;
      Load Y true AX 128 4;
      Load Y true AX 160 5;
      Load Y true AX 192 6;
      Load Y true AX 224 7;
      Load Y true AX 256 8;
      Load Y true AX 288 9;
      Load Y true AX 320 10;
      Load Y true AX 352 11;
      Load Y true AX 384 12;
      Load Y true AX 416 13;
      Load Y true AX 448 14;
      Load Y true AX 480 15;
      Bin Add Y true (Mem CX 0) 0 0;
      Bin Add Y true (Mem CX 32) 1 1;
      Bin Add Y true (Mem CX 64) 2 2;
      Bin Add Y true (Mem CX 96) 3 3;
      Bin Add Y true (Mem CX 128) 4 4;
      Bin Add Y true (Mem CX 160) 5 5;
      Bin Add Y true (Mem CX 192) 6 6;
      Bin Add Y true (Mem CX 224) 7 7;
      Bin Add Y true (Mem CX 256) 8 8;
      Bin Add Y true (Mem CX 288) 9 9;
      Bin Add Y true (Mem CX 320) 10 10;
      Bin Add Y true (Mem CX 352) 11 11;
      Bin Add Y true (Mem CX 384) 12 12;
      Bin Add Y true (Mem CX 416) 13 13;
      Bin Add Y true (Mem CX 448) 14 14;
      Bin Add Y true (Mem CX 480) 15 15;
      Store Y 0 DX 0;
      Store Y 1 DX 32;
      Store Y 2 DX 64;
      Store Y 3 DX 96;
      Store Y 4 DX 128;
      Store Y 5 DX 160;
      Store Y 6 DX 192;
      Store Y 7 DX 224;
      Store Y 8 DX 256;
      Store Y 9 DX 288;
      Store Y 10 DX 320;
      Store Y 11 DX 352;
      Store Y 12 DX 384;
      Store Y 13 DX 416;
      Store Y 14 DX 448;
      Store Y 15 DX 480;
      AddQ 512 AX;
      AddQ 512 CX;
      AddQ 512 DX;
      SubQ 64 BX;
      Jmp "unrolledLoop"]);
  ("singleRegisterLoop", [CmpQ BX 4;
      Jl "tailLoop";
      Load Y true AX 0 0;
      Bin Add Y true (Mem CX 0) 0 0;
      Store Y 0 DX 0;
      AddQ 32 AX;
      AddQ 32 CX;
      AddQ 32 DX;
      SubQ 4 BX;
      Jmp "singleRegisterLoop"]);
  ("tailLoop", [CmpQ BX 0;
      Je "end";
      LoadS true AX 0 0;
      BinS Add true (Mem CX 0) 0 0;
      StoreS 0 DX 0;
      AddQ 8 AX;
      AddQ 8 CX;
      AddQ 8 DX;
      DecQ BX;
      Jmp "tailLoop"]);
  ("end", [Ret])].

(** AddSSE32: mat/internal/matfuncs/add_amd64.s:193-301 *)
Definition add_sse32 : code := [
  ("entry", [Arg "x1_base" AX;
      Arg "x2_base" CX;
      Arg "y_base" DX;
      Arg "x1_len" BX;
      CmpQ BX 0;
      Je "end";
      MovQ CX SI;
      AndQ 15 SI;
      Je "unrolledLoop";
      XorQ 15 SI;
      IncQ SI;
      ShrQ 2 SI]);
  ("alignmentLoop", [LoadS false AX 0 0;
      BinS Add false (Mem CX 0) 0 0;
      StoreS 0 DX 0;
      AddQ 4 AX;
      AddQ 4 CX;
      AddQ 4 DX;
      DecQ BX;
      Je "end";
      DecQ SI;
      Jne "alignmentLoop"]);
  ("unrolledLoop", [CmpQ BX 64;
      Jl "singleRegisterLoop";
      Load X false AX 0 0;
      Load X false AX 16 1;
      Load X false AX 32 2;
      Load X false AX 48 3;
      Load X false AX 64 4;
      Load X false AX 80 5;
      Load X false AX 96 6;
      Load X false AX 112 7;
      Load X false AX 128 8;
      Load X false AX 144 9;
      Load X false AX 160 10;
      Load X false AX 176 11;
      Load X false AX 192 12;
      Load X false AX 208 13;
      Load X false AX 224 14;
      Load X false AX 240 15;
      Bin Add X false (Mem CX 0) 0 0;
      Bin Add X false (Mem CX 16) 1 1;
      Bin Add X false (Mem CX 32) 2 2;
      Bin Add X false (Mem CX 48) 3 3;
      Bin Add X false (Mem CX 64) 4 4;
      Bin Add X false (Mem CX 80) 5 5;
      Bin Add X false (Mem CX 96) 6 6;
      Bin Add X false (Mem CX 112) 7 7;
      Bin Add X false (Mem CX 128) 8 8;
      Bin Add X false (Mem CX 144) 9 9;
      Bin Add X false (Mem CX 160) 10 10;
      Bin Add X false (Mem CX 176) 11 11;
      Bin Add X false (Mem CX 192) 12 12;
      Bin Add X false (Mem CX 208) 13 13;
      Bin Add X false (Mem CX 224) 14 14;
      Bin Add X false (Mem CX 240) 15 15;
      Store X 0 DX 0;
      Store X 1 DX 16;
      Store X 2 DX 32;
      Store X 3 DX 48;
      Store X 4 DX 64;
      Store X 5 DX 80;
      Store X 6 DX 96;
      Store X 7 DX 112;
      Store X 8 DX 128;
      Store X 9 DX 144;
      Store X 10 DX 160;
      Store X 11 DX 176;
      Store X 12 DX 192;
      Store X 13 DX 208;
      Store X 14 DX 224;
      Store X 15 DX 240;
      AddQ 256 AX;
      AddQ 256 CX;
      AddQ 256 DX;
      SubQ 64 BX;
      Jmp "unrolledLoop"]);
  ("singleRegisterLoop", [CmpQ BX 4;
      Jl "tailLoop";
      Load X false AX 0 0;
      Bin Add X false (Mem CX 0) 0 0;
      Store X 0 DX 0;
      AddQ 16 AX;
      AddQ 16 CX;
      AddQ 16 DX;
      SubQ 4 BX;
      Jmp "singleRegisterLoop"]);
  ("tailLoop", [CmpQ BX 0;
      Je "end";
      LoadS false AX 0 0;
      BinS Add false (Mem CX 0) 0 0;
      StoreS 0 DX 0;
      AddQ 4 AX;
      AddQ 4 CX;
      AddQ 4 DX;
      DecQ BX;
      Jmp "tailLoop"]);
  ("end", [Ret])].

(** AddSSE64: mat/internal/matfuncs/add_amd64.s:305-405 *)
Definition add_sse64 : code := [
  ("entry", [Arg "x1_base" AX;
      Arg "x2_base" CX;
      Arg "y_base" DX;
      Arg "x1_len" BX;
      CmpQ BX 0;
      Je "end";
      MovQ CX SI;
      AndQ 15 SI;
      Je "unrolledLoop";
      LoadS false AX 0 0;
      BinS Add false (Mem CX 0) 0 0;
      StoreS 0 DX 0;
      AddQ 8 AX;
      AddQ 8 CX;
      AddQ 8 DX;
      DecQ BX]);
  ("unrolledLoop", [CmpQ BX 32;
      Jl "singleRegisterLoop";
      Load X false AX 0 0;
      Load X false AX 16 1;
      Load X false AX 32 2;
      Load X false AX 48 3;
      Load X false AX 64 4;
      Load X false AX 80 5;
      Load X false AX 96 6;
      Load X false AX 112 7;
      Load X false AX 128 8;
      Load X false AX 144 9;
      Load X false AX 160 10;
      Load X false AX 176 11;
      Load X false AX 192 12;
      Load X false AX 208 13;
      Load X false AX 224 14;
      Load X false AX 240 15;
      Bin Add X false (Mem CX 0) 0 0;
      Bin Add X false (Mem CX 16) 1 1;
      Bin Add X false (Mem CX 32) 2 2;
      Bin Add X false (Mem CX 48) 3 3;
      Bin Add X false (Mem CX 64) 4 4;
      Bin Add X false (Mem CX 80) 5 5;
      Bin Add X false (Mem CX 96) 6 6;
      Bin Add X false (Mem CX 112) 7 7;
      Bin Add X false (Mem CX 128) 8 8;
      Bin Add X false (Mem CX 144) 9 9;
      Bin Add X false (Mem CX 160) 10 10;
      Bin Add X false (Mem CX 176) 11 11;
      Bin Add X false (Mem CX 192) 12 12;
      Bin Add X false (Mem CX 208) 13 13;
      Bin Add X false (Mem CX 224) 14 14;
      Bin Add X false (Mem CX 240) 15 15;
      Store X 0 DX 0;
      Store X 1 DX 16;
      Store X 2 DX 32;
      Store X 3 DX 48;
      Store X 4 DX 64;
      Store X 5 DX 80;
      Store X 6 DX 96;
      Store X 7 DX 112;
      Store X 8 DX 128;
      Store X 9 DX 144;
      Store X 10 DX 160;
      Store X 11 DX 176;
      Store X 12 DX 192;
      Store X 13 DX 208;
      Store X 14 DX 224;
      Store X 15 DX 240;
      AddQ 256 AX;
      AddQ 256 CX;
      AddQ 256 DX;
      SubQ 32 BX;
      Jmp "unrolledLoop"]);
  ("singleRegisterLoop", [CmpQ BX 2;
      Jl "tailLoop";
      Load X false AX 0 0;
      Bin Add X false (Mem CX 0) 0 0;
      Store X 0 DX 0;
      AddQ 16 AX;
      AddQ 16 CX;
      AddQ 16 DX;
      SubQ 2 BX;
      Jmp "singleRegisterLoop"]);
  ("tailLoop", [CmpQ BX 0;
      Je "end";
      LoadS false AX 0 0;
      BinS Add false (Mem CX 0) 0 0;
      StoreS 0 DX 0;
      AddQ 8 AX;
      AddQ 8 CX;
      AddQ 8 DX;
      DecQ BX;
      Jmp "tailLoop"]);
  ("end", [Ret])].

(** SubAVX32: mat/internal/matfuncs/sub_amd64.s:9-97 *)
Definition sub_avx32 : code := [
  ("entry", [Arg "x1_base" AX;
      Arg "x2_base" CX;
      Arg "y_base" DX;
      Arg "x1_len" BX]);
  ("unrolledLoop", [CmpQ BX 128;
      Jl "singleRegisterLoop";
      Load Y true AX 0 0;
      Load Y true AX 32 1;
      Load Y true AX 64 2;
      Load Y true AX 96 3;
      Load Y true AX 128 4;
      Load Y true AX 160 5;
      Load Y true AX 192 6;
      Load Y true AX 224 7;
      Load Y true AX 256 8;
      Load Y true AX 288 9;
      Load Y true AX 320 10;
      Load Y true AX 352 11;
      Load Y true AX 384 12;
      Load Y true AX 416 13;
      Load Y true AX 448 14;
      Load Y true AX 480 15;
      Bin Sub Y true (Mem CX 0) 0 0;
      Bin Sub Y true (Mem CX 32) 1 1;
      Bin Sub Y true (Mem CX 64) 2 2;
      Bin Sub Y true (Mem CX 96) 3 3;
      Bin Sub Y true (Mem CX 128) 4 4;
      Bin Sub Y true (Mem CX 160) 5 5;
      Bin Sub Y true (Mem CX 192) 6 6;
      Bin Sub Y true (Mem CX 224) 7 7;
      Bin Sub Y true (Mem CX 256) 8 8;
      Bin Sub Y true (Mem CX 288) 9 9;
      Bin Sub Y true (Mem CX 320) 10 10;
      Bin Sub Y true (Mem CX 352) 11 11;
      Bin Sub Y true (Mem CX 384) 12 12;
      Bin Sub Y true (Mem CX 416) 13 13;
      Bin Sub Y true (Mem CX 448) 14 14;
      Bin Sub Y true (Mem CX 480) 15 15;
      Store Y 0 DX 0;
      Store Y 1 DX 32;
      Store Y 2 DX 64;
      Store Y 3 DX 96;
      Store Y 4 DX 128;
      Store Y 5 DX 160;
      Store Y 6 DX 192;
      Store Y 7 DX 224;
      Store Y 8 DX 256;
      Store Y 9 DX 288;
      Store Y 10 DX 320;
      Store Y 11 DX 352;
      Store Y 12 DX 384;
      Store Y 13 DX 416;
      Store Y 14 DX 448;
      Store Y 15 DX 480;
      AddQ 512 AX;
      AddQ 512 CX;
      AddQ 512 DX;
      SubQ 128 BX;
      Jmp "unrolledLoop"]);
  ("singleRegisterLoop", [CmpQ BX 8;
      Jl "tailLoop";
      Load Y true AX 0 0;
      Bin Sub Y true (Mem CX 0) 0 0;
      Store Y 0 DX 0;
      AddQ 32 AX;
      AddQ 32 CX;
      AddQ 32 DX;
      SubQ 8 BX;
      Jmp "singleRegisterLoop"]);
  ("tailLoop", [CmpQ BX 0;
      Je "end";
      LoadS false AX 0 0;
      BinS Sub false (Mem CX 0) 0 0;
      StoreS 0 DX 0;
      AddQ 4 AX;
      AddQ 4 CX;
      AddQ 4 DX;
      DecQ BX;
      Jmp "tailLoop"]);
  ("end", [Ret])].

(** SubAVX64: mat/internal/matfuncs/sub_amd64.s:101-189 *)
Definition sub_avx64 : code := [
  ("entry", [Arg "x1_base" AX;
      Arg "x2_base" CX;
      Arg "y_base" DX;
      Arg "x1_len" BX]);
  ("unrolledLoop", [CmpQ BX 64;
      Jl "singleRegisterLoop";
      Load Y true AX 0 0;
      Load Y true AX 32 1;
      Load Y true AX 64 2;
      Load Y true AX 96 3;
      Load Y true AX 128 4;
      Load Y true AX 160 5;
      Load Y true AX 192 6;
      Load Y true AX 224 7;
      Load Y true AX 256 8;
      Load Y true AX 288 9;
      Load Y true AX 320 10;
      Load Y true AX 352 11;
      Load Y true AX 384 12;
      Load Y true AX 416 13;
      Load Y true AX 448 14;
      Load Y true AX 480 15;
      Bin Sub Y true (Mem CX 0) 0 0;
      Bin Sub Y true (Mem CX 32) 1 1;
      Bin Sub Y true (Mem CX 64) 2 2;
      Bin Sub Y true (Mem CX 96) 3 3;
      Bin Sub Y true (Mem CX 128) 4 4;
      Bin Sub Y true (Mem CX 160) 5 5;
      Bin Sub Y true (Mem CX 192) 6 6;
      Bin Sub Y true (Mem CX 224) 7 7;
      Bin Sub Y true (Mem CX 256) 8 8;
      Bin Sub Y true (Mem CX 288) 9 9;
      Bin Sub Y true (Mem CX 320) 10 10;
      Bin Sub Y true (Mem CX 352) 11 11;
      Bin Sub Y true (Mem CX 384) 12 12;
      Bin Sub Y true (Mem CX 416) 13 13;
      Bin Sub Y true (Mem CX 448) 14 14;
      Bin Sub Y true (Mem CX 480) 15 15;
      Store Y 0 DX 0;
      Store Y 1 DX 32;
      Store Y 2 DX 64;
      Store Y 3 DX 96;
      Store Y 4 DX 128;
      Store Y 5 DX 160;
      Store Y 6 DX 192;
      Store Y 7 DX 224;
      Store Y 8 DX 256;
      Store Y 9 DX 288;
      Store Y 10 DX 320;
      Store Y 11 DX 352;
      Store Y 12 DX 384;
      Store Y 13 DX 416;
      Store Y 14 DX 448;
      Store Y 15 DX 480;
      AddQ 512 AX;
      AddQ 512 CX;
      AddQ 512 DX;
      SubQ 64 BX;
      Jmp "unrolledLoop"]);
  ("singleRegisterLoop", [CmpQ BX 4;
      Jl "tailLoop";
      Load Y true AX 0 0;
      Bin Sub Y true (Mem CX 0) 0 0;
      Store Y 0 DX 0;
      AddQ 32 AX;
      AddQ 32 CX;
      AddQ 32 DX;
      SubQ 4 BX;
      Jmp "singleRegisterLoop"]);
  ("tailLoop", [CmpQ BX 0;
      Je "end";
      LoadS false AX 0 0;
      BinS Sub false (Mem CX 0) 0 0;
      StoreS 0 DX 0;
      AddQ 8 AX;
      AddQ 8 CX;
      AddQ 8 DX;
      DecQ BX;
      Jmp "tailLoop"]);
  ("end", [Ret])].

(** SubSSE32: mat/internal/matfuncs/sub_amd64.s:193-301 *)
Definition sub_sse32 : code := [
  ("entry", [Arg "x1_base" AX;
      Arg "x2_base" CX;
      Arg "y_base" DX;
      Arg "x1_len" BX;
      CmpQ BX 0;
      Je "end";
      MovQ CX SI;
      AndQ 15 SI;
      Je "unrolledLoop";
      XorQ 15 SI;
      IncQ SI;
      ShrQ 2 SI]);
  ("alignmentLoop", [LoadS false AX 0 0;
      BinS Sub false (Mem CX 0) 0 0;
      StoreS 0 DX 0;
      AddQ 4 AX;
      AddQ 4 CX;
      AddQ 4 DX;
      DecQ BX;
      Je "end";
      DecQ SI;
      Jne "alignmentLoop"]);
  ("unrolledLoop", [CmpQ BX 64;
      Jl "singleRegisterLoop";
      Load X false AX 0 0;
      Load X false AX 16 1;
      Load X false AX 32 2;
      Load X false AX 48 3;
      Load X false AX 64 4;
      Load X false AX 80 5;
      Load X false AX 96 6;
      Load X false AX 112 7;
      Load X false AX 128 8;
      Load X false AX 144 9;
      Load X false AX 160 10;
      Load X false AX 176 11;
      Load X false AX 192 12;
      Load X false AX 208 13;
      Load X false AX 224 14;
      Load X false AX 240 15;
      Bin Sub X false (Mem CX 0) 0 0;
      Bin Sub X false (Mem CX 16) 1 1;
      Bin Sub X false (Mem CX 32) 2 2;
      Bin Sub X false (Mem CX 48) 3 3;
      Bin Sub X false (Mem CX 64) 4 4;
      Bin Sub X false (Mem CX 80) 5 5;
      Bin Sub X false (Mem CX 96) 6 6;
      Bin Sub X false (Mem CX 112) 7 7;
      Bin Sub X false (Mem CX 128) 8 8;
      Bin Sub X false (Mem CX 144) 9 9;
      Bin Sub X false (Mem CX 160) 10 10;
      Bin Sub X false (Mem CX 176) 11 11;
      Bin Sub X false (Mem CX 192) 12 12;
      Bin Sub X false (Mem CX 208) 13 13;
      Bin Sub X false (Mem CX 224) 14 14;
      Bin Sub X false (Mem CX 240) 15 15;
      Store X 0 DX 0;
      Store X 1 DX 16;
      Store X 2 DX 32;
      Store X 3 DX 48;
      Store X 4 DX 64;
      Store X 5 DX 80;
      Store X 6 DX 96;
      Store X 7 DX 112;
      Store X 8 DX 128;
      Store X 9 DX 144;
      Store X 10 DX 160;
      Store X 11 DX 176;
      Store X 12 DX 192;
      Store X 13 DX 208;
      Store X 14 DX 224;
      Store X 15 DX 240;
      AddQ 256 AX;
      AddQ 256 CX;
      AddQ 256 DX;
      SubQ 64 BX;
      Jmp "unrolledLoop"]);
  ("singleRegisterLoop", [CmpQ BX 4;
      Jl "tailLoop";
      Load X false AX 0 0;
      Bin Sub X false (Mem CX 0) 0 0;
      Store X 0 DX 0;
      AddQ 16 AX;
      AddQ 16 CX;
      AddQ 16 DX;
      SubQ 4 BX;
      Jmp "singleRegisterLoop"]);
  ("tailLoop", [CmpQ BX 0;
      Je "end";
      LoadS false AX 0 0;
      BinS Sub false (Mem CX 0) 0 0;
      StoreS 0 DX 0;
      AddQ 4 AX;
      AddQ 4 CX;
      AddQ 4 DX;
      DecQ BX;
      Jmp "tailLoop"]);
  ("end", [Ret])].

(** SubSSE64: mat/internal/matfuncs/sub_amd64.s:305-405 *)
Definition sub_sse64 : code := [
  ("entry", [Arg "x1_base" AX;
      Arg "x2_base" CX;
      Arg "y_base" DX;
      Arg "x1_len" BX;
      CmpQ BX 0;
      Je "end";
      MovQ CX SI;
      AndQ 15 SI;
      Je "unrolledLoop";
      LoadS false AX 0 0;
      BinS Sub false (Mem CX 0) 0 0;
      StoreS 0 DX 0;
      AddQ 8 AX;
      AddQ 8 CX;
      AddQ 8 DX;
      DecQ BX]);
  ("unrolledLoop", [CmpQ BX 32;
      Jl "singleRegisterLoop";
      Load X false AX 0 0;
      Load X false AX 16 1;
      Load X false AX 32 2;
      Load X false AX 48 3;
      Load X false AX 64 4;
      Load X false AX 80 5;
      Load X false AX 96 6;
      Load X false AX 112 7;
      Load X false AX 128 8;
      Load X false AX 144 9;
      Load X false AX 160 10;
      Load X false AX 176 11;
      Load X false AX 192 12;
      Load X false AX 208 13;
      Load X false AX 224 14;
      Load X false AX 240 15;
      Bin Sub X false (Mem CX 0) 0 0;
      Bin Sub X false (Mem CX 16) 1 1;
      Bin Sub X false (Mem CX 32) 2 2;
      Bin Sub X false (Mem CX 48) 3 3;
      Bin Sub X false (Mem CX 64) 4 4;
      Bin Sub X false (Mem CX 80) 5 5;
      Bin Sub X false (Mem CX 96) 6 6;
      Bin Sub X false (Mem CX 112) 7 7;
      Bin Sub X false (Mem CX 128) 8 8;
      Bin Sub X false (Mem CX 144) 9 9;
      Bin Sub X false (Mem CX 160) 10 10;
      Bin Sub X false (Mem CX 176) 11 11;
      Bin Sub X false (Mem CX 192) 12 12;
      Bin Sub X false (Mem CX 208) 13 13;
      Bin Sub X false (Mem CX 224) 14 14;
      Bin Sub X false (Mem CX 240) 15 15;
      Store X 0 DX 0;
      Store X 1 DX 16;
      Store X 2 DX 32;
      Store X 3 DX 48;
      Store X 4 DX 64;
      Store X 5 DX 80;
      Store X 6 DX 96;
      Store X 7 DX 112;
      Store X 8 DX 128;
      Store X 9 DX 144;
      Store X 10 DX 160;
      Store X 11 DX 176;
      Store X 12 DX 192;
      Store X 13 DX 208;
      Store X 14 DX 224;
      Store X 15 DX 240;
      AddQ 256 AX;
      AddQ 256 CX;
      AddQ 256 DX;
      SubQ 32 BX;
      Jmp "unrolledLoop"]);
  ("singleRegisterLoop", [CmpQ BX 2;
      Jl "tailLoop";
      Load X false AX 0 0;
      Bin Sub X false (Mem CX 0) 0 0;
      Store X 0 DX 0;
      AddQ 16 AX;
      AddQ 16 CX;
      AddQ 16 DX;
      SubQ 2 BX;
      Jmp "singleRegisterLoop"]);
  ("tailLoop", [CmpQ BX 0;
      Je "end";
      LoadS false AX 0 0;
      BinS Sub false (Mem CX 0) 0 0;
      StoreS 0 DX 0;
      AddQ 8 AX;
      AddQ 8 CX;
      AddQ 8 DX;
      DecQ BX;
      Jmp "tailLoop"]);
  ("end", [Ret])].

(** DivAVX32: mat/internal/matfuncs/div_amd64.s:9-97 *)
Definition div_avx32 : code := [
  ("entry", [Arg "x1_base" AX;
      Arg "x2_base" CX;
      Arg "y_base" DX;
      Arg "x1_len" BX]);
  ("unrolledLoop", [CmpQ BX 128;
      Jl "singleRegisterLoop";
      Load Y true AX 0 0;
      Load Y true AX 32 1;
      Load Y true AX 64 2;
      Load Y true AX 96 3;
      Load Y true AX 128 4;
      Load Y true AX 160 5;
      Load Y true AX 192 6;
      Load Y true AX 224 7;
      Load Y true AX 256 8;
      Load Y true AX 288 9;
      Load Y true AX 320 10;
      Load Y true AX 352 11;
      Load Y true AX 384 12;
      Load Y true AX 416 13;
      Load Y true AX 448 14;
      Load Y true AX 480 15;
      Bin Div Y true (Mem CX 0) 0 0;
      Bin Div Y true (Mem CX 32) 1 1;
      Bin Div Y true (Mem CX 64) 2 2;
      Bin Div Y true (Mem CX 96) 3 3;
      Bin Div Y true (Mem CX 128) 4 4;
      Bin Div Y true (Mem CX 160) 5 5;
      Bin Div Y true (Mem CX 192) 6 6;
      Bin Div Y true (Mem CX 224) 7 7;
      Bin Div Y true (Mem CX 256) 8 8;
      Bin Div Y true (Mem CX 288) 9 9;
      Bin Div Y true (Mem CX 320) 10 10;
      Bin Div Y true (Mem CX 352) 11 11;
      Bin Div Y true (Mem CX 384) 12 12;
      Bin Div Y true (Mem CX 416) 13 13;
      Bin Div Y true (Mem CX 448) 14 14;
      Bin Div Y true (Mem CX 480) 15 15;
      Store Y 0 DX 0;
      Store Y 1 DX 32;
      Store Y 2 DX 64;
      Store Y 3 DX 96;
      Store Y 4 DX 128;
      Store Y 5 DX 160;
      Store Y 6 DX 192;
      Store Y 7 DX 224;
      Store Y 8 DX 256;
      Store Y 9 DX 288;
      Store Y 10 DX 320;
      Store Y 11 DX 352;
      Store Y 12 DX 384;
      Store Y 13 DX 416;
      Store Y 14 DX 448;
      Store Y 15 DX 480;
      AddQ 512 AX;
      AddQ 512 CX;
      AddQ 512 DX;
      SubQ 128 BX;
      Jmp "unrolledLoop"]);
  ("singleRegisterLoop", [CmpQ BX 8;
      Jl "tailLoop";
      Load Y true AX 0 0;
      Bin Div Y true (Mem CX 0) 0 0;
      Store Y 0 DX 0;
      AddQ 32 AX;
      AddQ 32 CX;
      AddQ 32 DX;
      SubQ 8 BX;
      Jmp "singleRegisterLoop"]);
  ("tailLoop", [CmpQ BX 0;
      Je "end";
      LoadS false AX 0 0;
      BinS Div false (Mem CX 0) 0 0;
      StoreS 0 DX 0;
      AddQ 4 AX;
      AddQ 4 CX;
      AddQ 4 DX;
      DecQ BX;
      Jmp "tailLoop"]);
  ("end", [Ret])].

(** DivAVX64: mat/internal/matfuncs/div_amd64.s:101-189 *)
Definition div_avx64 : code := [
  ("entry", [Arg "x1_base" AX;
      Arg "x2_base" CX;
      Arg "y_base" DX;
      Arg "x1_len" BX]);
  ("unrolledLoop", [CmpQ BX 64;
      Jl "singleRegisterLoop";
      Load Y true AX 0 0;
      Load Y true AX 32 1;
      Load Y true AX 64 2;
      Load Y true AX 96 3;
      Load Y true AX 128 4;
      Load Y true AX 160 5;
      Load Y true AX 192 6;
      Load Y true AX 224 7;
      Load Y true AX 256 8;
      Load Y true AX 288 9;
      Load Y true AX 320 10;
      Load Y true AX 352 11;
      Load Y true AX 384 12;
      Load Y true AX 416 13;
      Load Y true AX 448 14;
      Load Y true AX 480 15;
      Bin Div Y true (Mem CX 0) 0 0;
      Bin Div Y true (Mem CX 32) 1 1;
      Bin Div Y true (Mem CX 64) 2 2;
      Bin Div Y true (Mem CX 96) 3 3;
      Bin Div Y true (Mem CX 128) 4 4;
      Bin Div Y true (Mem CX 160) 5 5;
      Bin Div Y true (Mem CX 192) 6 6;
      Bin Div Y true (Mem CX 224) 7 7;
      Bin Div Y true (Mem CX 256) 8 8;
      Bin Div Y true (Mem CX 288) 9 9;
      Bin Div Y true (Mem CX 320) 10 10;
      Bin Div Y true (Mem CX 352) 11 11;
      Bin Div Y true (Mem CX 384) 12 12;
      Bin Div Y true (Mem CX 416) 13 13;
      Bin Div Y true (Mem CX 448) 14 14;
      Bin Div Y true (Mem CX 480) 15 15;
      Store Y 0 DX 0;
      Store Y 1 DX 32;
      Store Y 2 DX 64;
      Store Y 3 DX 96;
      Store Y 4 DX 128;
      Store Y 5 DX 160;
      Store Y 6 DX 192;
      Store Y 7 DX 224;
      Store Y 8 DX 256;
      Store Y 9 DX 288;
      Store Y 10 DX 320;
      Store Y 11 DX 352;
      Store Y 12 DX 384;
      Store Y 13 DX 416;
      Store Y 14 DX 448;
      Store Y 15 DX 480;
      AddQ 512 AX;
      AddQ 512 CX;
      AddQ 512 DX;
      SubQ 64 BX;
      Jmp "unrolledLoop"]);
  ("singleRegisterLoop", [CmpQ BX 4;
      Jl "tailLoop";
      Load Y true AX 0 0;
      Bin Div Y true (Mem CX 0) 0 0;
      Store Y 0 DX 0;
      AddQ 32 AX;
      AddQ 32 CX;
      AddQ 32 DX;
      SubQ 4 BX;
      Jmp "singleRegisterLoop"]);
  ("tailLoop", [CmpQ BX 0;
      Je "end";
      LoadS false AX 0 0;
      BinS Div false (Mem CX 0) 0 0;
      StoreS 0 DX 0;
      AddQ 8 AX;
      AddQ 8 CX;
      AddQ 8 DX;
      DecQ BX;
      Jmp "tailLoop"]);
  ("end", [Ret])].

(** DivSSE32: mat/internal/matfuncs/div_amd64.s:193-301 *)
Definition div_sse32 : code := [
  ("entry", [Arg "x1_base" AX;
      Arg "x2_base" CX;
      Arg "y_base" DX;
      Arg "x1_len" BX;
      CmpQ BX 0;
      Je "end";
      MovQ CX SI;
      AndQ 15 SI;
      Je "unrolledLoop";
      XorQ 15 SI;
      IncQ SI;
      ShrQ 2 SI]);
  ("alignmentLoop", [LoadS false AX 0 0;
      BinS Div false (Mem CX 0) 0 0;
      StoreS 0 DX 0;
      AddQ 4 AX;
      AddQ 4 CX;
      AddQ 4 DX;
      DecQ BX;
      Je "end";
      DecQ SI;
      Jne "alignmentLoop"]);
  ("unrolledLoop", [CmpQ BX 64;
      Jl "singleRegisterLoop";
      Load X false AX 0 0;
      Load X false AX 16 1;
      Load X false AX 32 2;
      Load X false AX 48 3;
      Load X false AX 64 4;
      Load X false AX 80 5;
      Load X false AX 96 6;
      Load X false AX 112 7;
      Load X false AX 128 8;
      Load X false AX 144 9;
      Load X false AX 160 10;
      Load X false AX 176 11;
      Load X false AX 192 12;
      Load X false AX 208 13;
      Load X false AX 224 14;
      Load X false AX 240 15;
      Bin Div X false (Mem CX 0) 0 0;
      Bin Div X false (Mem CX 16) 1 1;
      Bin Div X false (Mem CX 32) 2 2;
      Bin Div X false (Mem CX 48) 3 3;
      Bin Div X false (Mem CX 64) 4 4;
      Bin Div X false (Mem CX 80) 5 5;
      Bin Div X false (Mem CX 96) 6 6;
      Bin Div X false (Mem CX 112) 7 7;
      Bin Div X false (Mem CX 128) 8 8;
      Bin Div X false (Mem CX 144) 9 9;
      Bin Div X false (Mem CX 160) 10 10;
      Bin Div X false (Mem CX 176) 11 11;
      Bin Div X false (Mem CX 192) 12 12;
      Bin Div X false (Mem CX 208) 13 13;
      Bin Div X false (Mem CX 224) 14 14;
      Bin Div X false (Mem CX 240) 15 15;
      Store X 0 DX 0;
      Store X 1 DX 16;
      Store X 2 DX 32;
      Store X 3 DX 48;
      Store X 4 DX 64;
      Store X 5 DX 80;
      Store X 6 DX 96;
      Store X 7 DX 112;
      Store X 8 DX 128;
      Store X 9 DX 144;
      Store X 10 DX 160;
      Store X 11 DX 176;
      Store X 12 DX 192;
      Store X 13 DX 208;
      Store X 14 DX 224;
      Store X 15 DX 240;
      AddQ 256 AX;
      AddQ 256 CX;
      AddQ 256 DX;
      SubQ 64 BX;
      Jmp "unrolledLoop"]);
  ("singleRegisterLoop", [CmpQ BX 4;
      Jl "tailLoop";
      Load X false AX 0 0;
      Bin Div X false (Mem CX 0) 0 0;
      Store X 0 DX 0;
      AddQ 16 AX;
      AddQ 16 CX;
      AddQ 16 DX;
      SubQ 4 BX;
      Jmp "singleRegisterLoop"]);
  ("tailLoop", [CmpQ BX 0;
      Je "end";
      LoadS false AX 0 0;
      BinS Div false (Mem CX 0) 0 0;
      StoreS 0 DX 0;
      AddQ 4 AX;
      AddQ 4 CX;
      AddQ 4 DX;
      DecQ BX;
      Jmp "tailLoop"]);
  ("end", [Ret])].

(** DivSSE64: mat/internal/matfuncs/div_amd64.s:305-405 *)
Definition div_sse64 : code := [
  ("entry", [Arg "x1_base" AX;
      Arg "x2_base" CX;
      Arg "y_base" DX;
      Arg "x1_len" BX;
      CmpQ BX 0;
      Je "end";
      MovQ CX SI;
      AndQ 15 SI;
      Je "unrolledLoop";
      LoadS false AX 0 0;
      BinS Div false (Mem CX 0) 0 0;
      StoreS 0 DX 0;
      AddQ 8 AX;
      AddQ 8 CX;
      AddQ 8 DX;
      DecQ BX]);
  ("unrolledLoop", [CmpQ BX 32;
      Jl "singleRegisterLoop";
      Load X false AX 0 0;
      Load X false AX 16 1;
      Load X false AX 32 2;
      Load X false AX 48 3;
      Load X false AX 64 4;
      Load X false AX 80 5;
      Load X false AX 96 6;
      Load X false AX 112 7;
      Load X false AX 128 8;
      Load X false AX 144 9;
      Load X false AX 160 10;
      Load X false AX 176 11;
      Load X false AX 192 12;
      Load X false AX 208 13;
      Load X false AX 224 14;
      Load X false AX 240 15;
      Bin Div X false (Mem CX 0) 0 0;
      Bin Div X false (Mem CX 16) 1 1;
      Bin Div X false (Mem CX 32) 2 2;
      Bin Div X false (Mem CX 48) 3 3;
      Bin Div X false (Mem CX 64) 4 4;
      Bin Div X false (Mem CX 80) 5 5;
      Bin Div X false (Mem CX 96) 6 6;
      Bin Div X false (Mem CX 112) 7 7;
      Bin Div X false (Mem CX 128) 8 8;
      Bin Div X false (Mem CX 144) 9 9;
      Bin Div X false (Mem CX 160) 10 10;
      Bin Div X false (Mem CX 176) 11 11;
      Bin Div X false (Mem CX 192) 12 12;
      Bin Div X false (Mem CX 208) 13 13;
      Bin Div X false (Mem CX 224) 14 14;
      Bin Div X false (Mem CX 240) 15 15;
      Store X 0 DX 0;
      Store X 1 DX 16;
      Store X 2 DX 32;
      Store X 3 DX 48;
      Store X 4 DX 64;
      Store X 5 DX 80;
      Store X 6 DX 96;
      Store X 7 DX 112;
      Store X 8 DX 128;
      Store X 9 DX 144;
      Store X 10 DX 160;
      Store X 11 DX 176;
      Store X 12 DX 192;
      Store X 13 DX 208;
      Store X 14 DX 224;
      Store X 15 DX 240;
      AddQ 256 AX;
      AddQ 256 CX;
      AddQ 256 DX;
      SubQ 32 BX;
      Jmp "unrolledLoop"]);
  ("singleRegisterLoop", [CmpQ BX 2;
      Jl "tailLoop";
      Load X false AX 0 0;
      Bin Div X false (Mem CX 0) 0 0;
      Store X 0 DX 0;
      AddQ 16 AX;
      AddQ 16 CX;
      AddQ 16 DX;
      SubQ 2 BX;
      Jmp "singleRegisterLoop"]);
  ("tailLoop", [CmpQ BX 0;
      Je "end";
      LoadS false AX 0 0;
      BinS Div false (Mem CX 0) 0 0;
      StoreS 0 DX 0;
      AddQ 8 AX;
      AddQ 8 CX;
      AddQ 8 DX;
      DecQ BX;
      Jmp "tailLoop"]);
  ("end", [Ret])].

(** AddConstAVX32: mat/internal/matfuncs/addconst_amd64.s:9-114 *)
Definition add_const_avx32 : code := [
  ("entry", [ArgS "c" 0;
      Arg "x_base" AX;
      Arg "y_base" CX;
      Arg "x_len" DX;
      Spread Y true 0 1]);
  ("unrolledLoop14", [CmpQ DX 112;
      Jl "unrolledLoop8";
      Bin Add Y true (Mem AX 0) 1 2;
      Bin Add Y true (Mem AX 32) 1 3;
      Bin Add Y true (Mem AX 64) 1 4;
      Bin Add Y true (Mem AX 96) 1 5;
      Bin Add Y true (Mem AX 128) 1 6;
      Bin Add Y true (Mem AX 160) 1 7;
      Bin Add Y true (Mem AX 192) 1 8;
      Bin Add Y true (Mem AX 224) 1 9;
      Bin Add Y true (Mem AX 256) 1 10;
      Bin Add Y true (Mem AX 288) 1 11;
      Bin Add Y true (Mem AX 320) 1 12;
      Bin Add Y true (Mem AX 352) 1 13;
      Bin Add Y true (Mem AX 384) 1 14;
      Bin Add Y true (Mem AX 416) 1 15;
      Store Y 2 CX 0;
      Store Y 3 CX 32;
      Store Y 4 CX 64;
      Store Y 5 CX 96;
      Store Y 6 CX 128;
      Store Y 7 CX 160;
      Store Y 8 CX 192;
      Store Y 9 CX 224;
      Store Y 10 CX 256;
      Store Y 11 CX 288;
      Store Y 12 CX 320;
      Store Y 13 CX 352;
      Store Y 14 CX 384;
      Store Y 15 CX 416;
      AddQ 448 AX;
      AddQ 448 CX;
      SubQ 112 DX;
      Jmp "unrolledLoop14"]);
  ("unrolledLoop8", [CmpQ DX 64;
      Jl "unrolledLoop4";
      Bin Add Y true (Mem AX 0) 1 2;
      Bin Add Y true (Mem AX 32) 1 3;
      Bin Add Y true (Mem AX 64) 1 4;
      Bin Add Y true (Mem AX 96) 1 5;
      Bin Add Y true (Mem AX 128) 1 6;
      Bin Add Y true (Mem AX 160) 1 7;
      Bin Add Y true (Mem AX 192) 1 8;
      Bin Add Y true (Mem AX 224) 1 9;
      Store Y 2 CX 0;
      Store Y 3 CX 32;
      Store Y 4 CX 64;
      Store Y 5 CX 96;
      Store Y 6 CX 128;
      Store Y 7 CX 160;
      Store Y 8 CX 192;
      Store Y 9 CX 224;
      AddQ 256 AX;
      AddQ 256 CX;
      SubQ 64 DX;
      Jmp "unrolledLoop8"]);
  ("unrolledLoop4", [CmpQ DX 32;
      Jl "unrolledLoop1";
      Bin Add Y true (Mem AX 0) 1 2;
      Bin Add Y true (Mem AX 32) 1 3;
      Bin Add Y true (Mem AX 64) 1 4;
      Bin Add Y true (Mem AX 96) 1 5;
      Store Y 2 CX 0;
      Store Y 3 CX 32;
      Store Y 4 CX 64;
      Store Y 5 CX 96;
      AddQ 128 AX;
      AddQ 128 CX;
      SubQ 32 DX;
      Jmp "unrolledLoop4"]);
  ("unrolledLoop1", [CmpQ DX 8;
      Jl "tailLoop";
      Bin Add Y true (Mem AX 0) 1 2;
      Store Y 2 CX 0;
      AddQ 32 AX;
      AddQ 32 CX;
      SubQ 8 DX;
      Jmp "unrolledLoop1"]);
  ("tailLoop", [CmpQ DX 0;
      Je "end";
      LoadS false AX 0 1;
      BinS Add false (Reg 0) 1 1;
      StoreS 1 CX 0;
      AddQ 4 AX;
      AddQ 4 CX;
      DecQ DX;
      Jmp "tailLoop"]);
  ("end", [Ret])].

(** AddConstAVX64: mat/internal/matfuncs/addconst_amd64.s:118-223 *)
Definition add_const_avx64 : code := [
  ("entry", [ArgS "c" 0;
      Arg "x_base" AX;
      Arg "y_base" CX;
      Arg "x_len" DX;
      Spread Y true 0 1]);
  ("unrolledLoop14", [CmpQ DX 56;
      Jl "unrolledLoop8";
      Bin Add Y true (Mem AX 0) 1 2;
      Bin Add Y true (Mem AX 32) 1 3;
      Bin Add Y true (Mem AX 64) 1 4;
      Bin Add Y true (Mem AX 96) 1 5;
      Bin Add Y true (Mem AX 128) 1 6;
      Bin Add Y true (Mem AX 160) 1 7;
      Bin Add Y true (Mem AX 192) 1 8;
      Bin Add Y true (Mem AX 224) 1 9;
      Bin Add Y true (Mem AX 256) 1 10;
      Bin Add Y true (Mem AX 288) 1 11;
      Bin Add Y true (Mem AX 320) 1 12;
      Bin Add Y true (Mem AX 352) 1 13;
      Bin Add Y true (Mem AX 384) 1 14;
      Bin Add Y true (Mem AX 416) 1 15;
      Store Y 2 CX 0;
      Store Y 3 CX 32;
      Store Y 4 CX 64;
      Store Y 5 CX 96;
      Store Y 6 CX 128;
      Store Y 7 CX 160;
      Store Y 8 CX 192;
      Store Y 9 CX 224;
      Store Y 10 CX 256;
      Store Y 11 CX 288;
      Store Y 12 CX 320;
      Store Y 13 CX 352;
      Store Y 14 CX 384;
      Store Y 15 CX 416;
      AddQ 448 AX;
      AddQ 448 CX;
      SubQ 56 DX;
      Jmp "unrolledLoop14"]);
  ("unrolledLoop8", [CmpQ DX 32;
      Jl "unrolledLoop4";
      Bin Add Y true (Mem AX 0) 1 2;
      Bin Add Y true (Mem AX 32) 1 3;
      Bin Add Y true (Mem AX 64) 1 4;
      Bin Add Y true (Mem AX 96) 1 5;
      Bin Add Y true (Mem AX 128) 1 6;
      Bin Add Y true (Mem AX 160) 1 7;
      Bin Add Y true (Mem AX 192) 1 8;
      Bin Add Y true (Mem AX 224) 1 9;
      Store Y 2 CX 0;
      Store Y 3 CX 32;
      Store Y 4 CX 64;
      Store Y 5 CX 96;
      Store Y 6 CX 128;
      Store Y 7 CX 160;
      Store Y 8 CX 192;
      Store Y 9 CX 224;
      AddQ 256 AX;
      AddQ 256 CX;
      SubQ 32 DX;
      Jmp "unrolledLoop8"]);
  ("unrolledLoop4", [CmpQ DX 16;
      Jl "unrolledLoop1";
      Bin Add Y true (Mem AX 0) 1 2;
      Bin Add Y true (Mem AX 32) 1 3;
      Bin Add Y true (Mem AX 64) 1 4;
      Bin Add Y true (Mem AX 96) 1 5;
      Store Y 2 CX 0;
      Store Y 3 CX 32;
      Store Y 4 CX 64;
      Store Y 5 CX 96;
      AddQ 128 AX;
      AddQ 128 CX;
      SubQ 16 DX;
      Jmp "unrolledLoop4"]);
  ("unrolledLoop1", [CmpQ DX 4;
      Jl "tailLoop";
      Bin Add Y true (Mem AX 0) 1 2;
      Store Y 2 CX 0;
      AddQ 32 AX;
      AddQ 32 CX;
      SubQ 4 DX;
      Jmp "unrolledLoop1"]);
  ("tailLoop", [CmpQ DX 0;
      Je "end";
      LoadS false AX 0 1;
      BinS Add false (Reg 0) 1 1;
      StoreS 1 CX 0;
      AddQ 8 AX;
      AddQ 8 CX;
      DecQ DX;
      Jmp "tailLoop"]);
  ("end", [Ret])].

(** AddConstSSE32: mat/internal/matfuncs/addconst_amd64.s:227-359 *)
Definition add_const_sse32 : code := [
  ("entry", [ArgS "c" 0;
      Arg "x_base" AX;
      Arg "y_base" CX;
      Arg "x_len" DX;
      Spread X false 0 0]);
  ("unrolledLoop14", [CmpQ DX 56;
      Jl "unrolledLoop8";
      Load X false AX 0 1;
      Load X false AX 16 2;
      Load X false AX 32 3;
      Load X false AX 48 4;
      Load X false AX 64 5;
      Load X false AX 80 6;
      Load X false AX 96 7;
      Load X false AX 112 8;
      Load X false AX 128 9;
      Load X false AX 144 10;
      Load X false AX 160 11;
      Load X false AX 176 12;
      Load X false AX 192 13;
      Load X false AX 208 14;
      Bin Add X false (Reg 0) 1 1;
      Bin Add X false (Reg 0) 2 2;
      Bin Add X false (Reg 0) 3 3;
      Bin Add X false (Reg 0) 4 4;
      Bin Add X false (Reg 0) 5 5;
      Bin Add X false (Reg 0) 6 6;
      Bin Add X false (Reg 0) 7 7;
      Bin Add X false (Reg 0) 8 8;
      Bin Add X false (Reg 0) 9 9;
      Bin Add X false (Reg 0) 10 10;
      Bin Add X false (Reg 0) 11 11;
      Bin Add X false (Reg 0) 12 12;
      Bin Add X false (Reg 0) 13 13;
      Bin Add X false (Reg 0) 14 14;
      Store X 1 CX 0;
      Store X 2 CX 16;
      Store X 3 CX 32;
      Store X 4 CX 48;
      Store X 5 CX 64;
      Store X 6 CX 80;
      Store X 7 CX 96;
      Store X 8 CX 112;
      Store X 9 CX 128;
      Store X 10 CX 144;
      Store X 11 CX 160;
      Store X 12 CX 176;
      Store X 13 CX 192;
      Store X 14 CX 208;
      AddQ 224 AX;
      AddQ 224 CX;
      SubQ 56 DX;
      Jmp "unrolledLoop14"]);
  ("unrolledLoop8", [CmpQ DX 32;
      Jl "unrolledLoop4";
      Load X false AX 0 1;
      Load X false AX 16 2;
      Load X false AX 32 3;
      Load X false AX 48 4;
      Load X false AX 64 5;
      Load X false AX 80 6;
      Load X false AX 96 7;
      Load X false AX 112 8;
      Bin Add X false (Reg 0) 1 1;
      Bin Add X false (Reg 0) 2 2;
      Bin Add X false (Reg 0) 3 3;
      Bin Add X false (Reg 0) 4 4;
      Bin Add X false (Reg 0) 5 5;
      Bin Add X false (Reg 0) 6 6;
      Bin Add X false (Reg 0) 7 7;
      Bin Add X false (Reg 0) 8 8;
      Store X 1 CX 0;
      Store X 2 CX 16;
      Store X 3 CX 32;
      Store X 4 CX 48;
      Store X 5 CX 64;
      Store X 6 CX 80;
      Store X 7 CX 96;
      Store X 8 CX 112;
      AddQ 128 AX;
      AddQ 128 CX;
      SubQ 32 DX;
      Jmp "unrolledLoop8"]);
  ("unrolledLoop4", [CmpQ DX 16;
      Jl "unrolledLoop1";
      Load X false AX 0 1;
      Load X false AX 16 2;
      Load X false AX 32 3;
      Load X false AX 48 4;
      Bin Add X false (Reg 0) 1 1;
      Bin Add X false (Reg 0) 2 2;
      Bin Add X false (Reg 0) 3 3;
      Bin Add X false (Reg 0) 4 4;
      Store X 1 CX 0;
      Store X 2 CX 16;
      Store X 3 CX 32;
      Store X 4 CX 48;
      AddQ 64 AX;
      AddQ 64 CX;
      SubQ 16 DX;
      Jmp "unrolledLoop4"]);
  ("unrolledLoop1", [CmpQ DX 4;
      Jl "tailLoop";
      Load X false AX 0 1;
      Bin Add X false (Reg 0) 1 1;
      Store X 1 CX 0;
      AddQ 16 AX;
      AddQ 16 CX;
      SubQ 4 DX;
      Jmp "unrolledLoop1"]);
  ("tailLoop", [CmpQ DX 0;
      Je "end";
      LoadS false AX 0 1;
      BinS Add false (Reg 0) 1 1;
      StoreS 1 CX 0;
      AddQ 4 AX;
      AddQ 4 CX;
      DecQ DX;
      Jmp "tailLoop"]);
  ("end", [Ret])].

(** AddConstSSE64: mat/internal/matfuncs/addconst_amd64.s:363-495 *)
Definition add_const_sse64 : code := [
  ("entry", [ArgS "c" 0;
      Arg "x_base" AX;
      Arg "y_base" CX;
      Arg "x_len" DX;
      Spread X false 0 0]);
  ("unrolledLoop14", [CmpQ DX 28;
      Jl "unrolledLoop8";
      Load X false AX 0 1;
      Load X false AX 16 2;
      Load X false AX 32 3;
      Load X false AX 48 4;
      Load X false AX 64 5;
      Load X false AX 80 6;
      Load X false AX 96 7;
      Load X false AX 112 8;
      Load X false AX 128 9;
      Load X false AX 144 10;
      Load X false AX 160 11;
      Load X false AX 176 12;
      Load X false AX 192 13;
      Load X false AX 208 14;
      Bin Add X false (Reg 0) 1 1;
      Bin Add X false (Reg 0) 2 2;
      Bin Add X false (Reg 0) 3 3;
      Bin Add X false (Reg 0) 4 4;
      Bin Add X false (Reg 0) 5 5;
      Bin Add X false (Reg 0) 6 6;
      Bin Add X false (Reg 0) 7 7;
      Bin Add X false (Reg 0) 8 8;
      Bin Add X false (Reg 0) 9 9;
      Bin Add X false (Reg 0) 10 10;
      Bin Add X false (Reg 0) 11 11;
      Bin Add X false (Reg 0) 12 12;
      Bin Add X false (Reg 0) 13 13;
      Bin Add X false (Reg 0) 14 14;
      Store X 1 CX 0;
      Store X 2 CX 16;
      Store X 3 CX 32;
      Store X 4 CX 48;
      Store X 5 CX 64;
      Store X 6 CX 80;
      Store X 7 CX 96;
      Store X 8 CX 112;
      Store X 9 CX 128;
      Store X 10 CX 144;
      Store X 11 CX 160;
      Store X 12 CX 176;
      Store X 13 CX 192;
      Store X 14 CX 208;
      AddQ 224 AX;
      AddQ 224 CX;
      SubQ 28 DX;
      Jmp "unrolledLoop14"]);
  ("unrolledLoop8", [CmpQ DX 16;
      Jl "unrolledLoop4";
      Load X false AX 0 1;
      Load X false AX 16 2;
      Load X false AX 32 3;
      Load X false AX 48 4;
      Load X false AX 64 5;
      Load X false AX 80 6;
      Load X false AX 96 7;
      Load X false AX 112 8;
      Bin Add X false (Reg 0) 1 1;
      Bin Add X false (Reg 0) 2 2;
      Bin Add X false (Reg 0) 3 3;
      Bin Add X false (Reg 0) 4 4;
      Bin Add X false (Reg 0) 5 5;
      Bin Add X false (Reg 0) 6 6;
      Bin Add X false (Reg 0) 7 7;
      Bin Add X false (Reg 0) 8 8;
      Store X 1 CX 0;
      Store X 2 CX 16;
      Store X 3 CX 32;
      Store X 4 CX 48;
      Store X 5 CX 64;
      Store X 6 CX 80;
      Store X 7 CX 96;
      Store X 8 CX 112;
      AddQ 128 AX;
      AddQ 128 CX;
      SubQ 16 DX;
      Jmp "unrolledLoop8"]);
  ("unrolledLoop4", [CmpQ DX 8;
      Jl "unrolledLoop1";
      Load X false AX 0 1;
      Load X false AX 16 2;
      Load X false AX 32 3;
      Load X false AX 48 4;
      Bin Add X false (Reg 0) 1 1;
      Bin Add X false (Reg 0) 2 2;
      Bin Add X false (Reg 0) 3 3;
      Bin Add X false (Reg 0) 4 4;
      Store X 1 CX 0;
      Store X 2 CX 16;
      Store X 3 CX 32;
      Store X 4 CX 48;
      AddQ 64 AX;
      AddQ 64 CX;
      SubQ 8 DX;
      Jmp "unrolledLoop4"]);
  ("unrolledLoop1", [CmpQ DX 2;
      Jl "tailLoop";
      Load X false AX 0 1;
      Bin Add X false (Reg 0) 1 1;
      Store X 1 CX 0;
      AddQ 16 AX;
      AddQ 16 CX;
      SubQ 2 DX;
      Jmp "unrolledLoop1"]);
  ("tailLoop", [CmpQ DX 0;
      Je "end";
      LoadS false AX 0 1;
      BinS Add false (Reg 0) 1 1;
      StoreS 1 CX 0;
      AddQ 8 AX;
      AddQ 8 CX;
      DecQ DX;
      Jmp "tailLoop"]);
  ("end", [Ret])].

(** MulConstAVX32: mat/internal/matfuncs/mulconst_amd64.s:9-114 *)
Definition mul_const_avx32 : code := [
  ("entry", [ArgS "c" 0;
      Arg "x_base" AX;
      Arg "y_base" CX;
      Arg "x_len" DX;
      Spread Y true 0 1]);
  ("unrolledLoop14", [CmpQ DX 112;
      Jl "unrolledLoop8";
      Bin Mul Y true (Mem AX 0) 1 2;
      Bin Mul Y true (Mem AX 32) 1 3;
      Bin Mul Y true (Mem AX 64) 1 4;
      Bin Mul Y true (Mem AX 96) 1 5;
      Bin Mul Y true (Mem AX 128) 1 6;
      Bin Mul Y true (Mem AX 160) 1 7;
      Bin Mul Y true (Mem AX 192) 1 8;
      Bin Mul Y true (Mem AX 224) 1 9;
      Bin Mul Y true (Mem AX 256) 1 10;
      Bin Mul Y true (Mem AX 288) 1 11;
      Bin Mul Y true (Mem AX 320) 1 12;
      Bin Mul Y true (Mem AX 352) 1 13;
      Bin Mul Y true (Mem AX 384) 1 14;
      Bin Mul Y true (Mem AX 416) 1 15;
      Store Y 2 CX 0;
      Store Y 3 CX 32;
      Store Y 4 CX 64;
      Store Y 5 CX 96;
      Store Y 6 CX 128;
      Store Y 7 CX 160;
      Store Y 8 CX 192;
      Store Y 9 CX 224;
      Store Y 10 CX 256;
      Store Y 11 CX 288;
      Store Y 12 CX 320;
      Store Y 13 CX 352;
      Store Y 14 CX 384;
      Store Y 15 CX 416;
      AddQ 448 AX;
      AddQ 448 CX;
      SubQ 112 DX;
      Jmp "unrolledLoop14"]);
  ("unrolledLoop8", [CmpQ DX 64;
      Jl "unrolledLoop4";
      Bin Mul Y true (Mem AX 0) 1 2;
      Bin Mul Y true (Mem AX 32) 1 3;
      Bin Mul Y true (Mem AX 64) 1 4;
      Bin Mul Y true (Mem AX 96) 1 5;
      Bin Mul Y true (Mem AX 128) 1 6;
      Bin Mul Y true (Mem AX 160) 1 7;
      Bin Mul Y true (Mem AX 192) 1 8;
      Bin Mul Y true (Mem AX 224) 1 9;
      Store Y 2 CX 0;
      Store Y 3 CX 32;
      Store Y 4 CX 64;
      Store Y 5 CX 96;
      Store Y 6 CX 128;
      Store Y 7 CX 160;
      Store Y 8 CX 192;
      Store Y 9 CX 224;
      AddQ 256 AX;
      AddQ 256 CX;
      SubQ 64 DX;
      Jmp "unrolledLoop8"]);
  ("unrolledLoop4", [CmpQ DX 32;
      Jl "unrolledLoop1";
      Bin Mul Y true (Mem AX 0) 1 2;
      Bin Mul Y true (Mem AX 32) 1 3;
      Bin Mul Y true (Mem AX 64) 1 4;
      Bin Mul Y true (Mem AX 96) 1 5;
      Store Y 2 CX 0;
      Store Y 3 CX 32;
      Store Y 4 CX 64;
      Store Y 5 CX 96;
      AddQ 128 AX;
      AddQ 128 CX;
      SubQ 32 DX;
      Jmp "unrolledLoop4"]);
  ("unrolledLoop1", [CmpQ DX 8;
      Jl "tailLoop";
      Bin Mul Y true (Mem AX 0) 1 2;
      Store Y 2 CX 0;
      AddQ 32 AX;
      AddQ 32 CX;
      SubQ 8 DX;
      Jmp "unrolledLoop1"]);
  ("tailLoop", [CmpQ DX 0;
      Je "end";
      LoadS false AX 0 1;
      BinS Mul false (Reg 0) 1 1;
      StoreS 1 CX 0;
      AddQ 4 AX;
      AddQ 4 CX;
      DecQ DX;
      Jmp "tailLoop"]);
  ("end", [Ret])].

(** MulConstAVX64: mat/internal/matfuncs/mulconst_amd64.s:118-223 *)
Definition mul_const_avx64 : code := [
  ("entry", [ArgS "c" 0;
      Arg "x_base" AX;
      Arg "y_base" CX;
      Arg "x_len" DX;
      Spread Y true 0 1]);
  ("unrolledLoop14", [CmpQ DX 56;
      Jl "unrolledLoop8";
      Bin Mul Y true (Mem AX 0) 1 2;
      Bin Mul Y true (Mem AX 32) 1 3;
      Bin Mul Y true (Mem AX 64) 1 4;
      Bin Mul Y true (Mem AX 96) 1 5;
      Bin Mul Y true (Mem AX 128) 1 6;
      Bin Mul Y true (Mem AX 160) 1 7;
      Bin Mul Y true (Mem AX 192) 1 8;
      Bin Mul Y true (Mem AX 224) 1 9;
      Bin Mul Y true (Mem AX 256) 1 10;
      Bin Mul Y true (Mem AX 288) 1 11;
      Bin Mul Y true (Mem AX 320) 1 12;
      Bin Mul Y true (Mem AX 352) 1 13;
      Bin Mul Y true (Mem AX 384) 1 14;
      Bin Mul Y true (Mem AX 416) 1 15;
      Store Y 2 CX 0;
      Store Y 3 CX 32;
      Store Y 4 CX 64;
      Store Y 5 CX 96;
      Store Y 6 CX 128;
      Store Y 7 CX 160;
      Store Y 8 CX 192;
      Store Y 9 CX 224;
      Store Y 10 CX 256;
      Store Y 11 CX 288;
      Store Y 12 CX 320;
      Store Y 13 CX 352;
      Store Y 14 CX 384;
      Store Y 15 CX 416;
      AddQ 448 AX;
      AddQ 448 CX;
      SubQ 56 DX;
      Jmp "unrolledLoop14"]);
  ("unrolledLoop8", [CmpQ DX 32;
      Jl "unrolledLoop4";
      Bin Mul Y true (Mem AX 0) 1 2;
      Bin Mul Y true (Mem AX 32) 1 3;
      Bin Mul Y true (Mem AX 64) 1 4;
      Bin Mul Y true (Mem AX 96) 1 5;
      Bin Mul Y true (Mem AX 128) 1 6;
      Bin Mul Y true (Mem AX 160) 1 7;
      Bin Mul Y true (Mem AX 192) 1 8;
      Bin Mul Y true (Mem AX 224) 1 9;
      Store Y 2 CX 0;
      Store Y 3 CX 32;
      Store Y 4 CX 64;
      Store Y 5 CX 96;
      Store Y 6 CX 128;
      Store Y 7 CX 160;
      Store Y 8 CX 192;
      Store Y 9 CX 224;
      AddQ 256 AX;
      AddQ 256 CX;
      SubQ 32 DX;
      Jmp "unrolledLoop8"]);
  ("unrolledLoop4", [CmpQ DX 16;
      Jl "unrolledLoop1";
      Bin Mul Y true (Mem AX 0) 1 2;
      Bin Mul Y true (Mem AX 32) 1 3;
      Bin Mul Y true (Mem AX 64) 1 4;
      Bin Mul Y true (Mem AX 96) 1 5;
      Store Y 2 CX 0;
      Store Y 3 CX 32;
      Store Y 4 CX 64;
      Store Y 5 CX 96;
      AddQ 128 AX;
      AddQ 128 CX;
      SubQ 16 DX;
      Jmp "unrolledLoop4"]);
  ("unrolledLoop1", [CmpQ DX 4;
      Jl "tailLoop";
      Bin Mul Y true (Mem AX 0) 1 2;
      Store Y 2 CX 0;
      AddQ 32 AX;
      AddQ 32 CX;
      SubQ 4 DX;
      Jmp "unrolledLoop1"]);
  ("tailLoop", [CmpQ DX 0;
      Je "end";
      LoadS false AX 0 1;
      BinS Mul false (Reg 0) 1 1;
      StoreS 1 CX 0;
      AddQ 8 AX;
      AddQ 8 CX;
      DecQ DX;
      Jmp "tailLoop"]);
  ("end", [Ret])].

(** MulConstSSE32: mat/internal/matfuncs/mulconst_amd64.s:227-359 *)
Definition mul_const_sse32 : code := [
  ("entry", [ArgS "c" 0;
      Arg "x_base" AX;
      Arg "y_base" CX;
      Arg "x_len" DX;
      Spread X false 0 0]);
  ("unrolledLoop14", [CmpQ DX 56;
      Jl "unrolledLoop8";
      Load X false AX 0 1;
      Load X false AX 16 2;
      Load X false AX 32 3;
      Load X false AX 48 4;
      Load X false AX 64 5;
      Load X false AX 80 6;
      Load X false AX 96 7;
      Load X false AX 112 8;
      Load X false AX 128 9;
      Load X false AX 144 10;
      Load X false AX 160 11;
      Load X false AX 176 12;
      Load X false AX 192 13;
      Load X false AX 208 14;
      Bin Mul X false (Reg 0) 1 1;
      Bin Mul X false (Reg 0) 2 2;
      Bin Mul X false (Reg 0) 3 3;
      Bin Mul X false (Reg 0) 4 4;
      Bin Mul X false (Reg 0) 5 5;
      Bin Mul X false (Reg 0) 6 6;
      Bin Mul X false (Reg 0) 7 7;
      Bin Mul X false (Reg 0) 8 8;
      Bin Mul X false (Reg 0) 9 9;
      Bin Mul X false (Reg 0) 10 10;
      Bin Mul X false (Reg 0) 11 11;
      Bin Mul X false (Reg 0) 12 12;
      Bin Mul X false (Reg 0) 13 13;
      Bin Mul X false (Reg 0) 14 14;
      Store X 1 CX 0;
      Store X 2 CX 16;
      Store X 3 CX 32;
      Store X 4 CX 48;
      Store X 5 CX 64;
      Store X 6 CX 80;
      Store X 7 CX 96;
      Store X 8 CX 112;
      Store X 9 CX 128;
      Store X 10 CX 144;
      Store X 11 CX 160;
      Store X 12 CX 176;
      Store X 13 CX 192;
      Store X 14 CX 208;
      AddQ 224 AX;
      AddQ 224 CX;
      SubQ 56 DX;
      Jmp "unrolledLoop14"]);
  ("unrolledLoop8", [CmpQ DX 32;
      Jl "unrolledLoop4";
      Load X false AX 0 1;
      Load X false AX 16 2;
      Load X false AX 32 3;
      Load X false AX 48 4;
      Load X false AX 64 5;
      Load X false AX 80 6;
      Load X false AX 96 7;
      Load X false AX 112 8;
      Bin Mul X false (Reg 0) 1 1;
      Bin Mul X false (Reg 0) 2 2;
      Bin Mul X false (Reg 0) 3 3;
      Bin Mul X false (Reg 0) 4 4;
      Bin Mul X false (Reg 0) 5 5;
      Bin Mul X false (Reg 0) 6 6;
      Bin Mul X false (Reg 0) 7 7;
      Bin Mul X false (Reg 0) 8 8;
      Store X 1 CX 0;
      Store X 2 CX 16;
      Store X 3 CX 32;
      Store X 4 CX 48;
      Store X 5 CX 64;
      Store X 6 CX 80;
      Store X 7 CX 96;
      Store X 8 CX 112;
      AddQ 128 AX;
      AddQ 128 CX;
      SubQ 32 DX;
      Jmp "unrolledLoop8"]);
  ("unrolledLoop4", [CmpQ DX 16;
      Jl "unrolledLoop1";
      Load X false AX 0 1;
      Load X false AX 16 2;
      Load X false AX 32 3;
      Load X false AX 48 4;
      Bin Mul X false (Reg 0) 1 1;
      Bin Mul X false (Reg 0) 2 2;
      Bin Mul X false (Reg 0) 3 3;
      Bin Mul X false (Reg 0) 4 4;
      Store X 1 CX 0;
      Store X 2 CX 16;
      Store X 3 CX 32;
      Store X 4 CX 48;
      AddQ 64 AX;
      AddQ 64 CX;
      SubQ 16 DX;
      Jmp "unrolledLoop4"]);
  ("unrolledLoop1", [CmpQ DX 4;
      Jl "tailLoop";
      Load X false AX 0 1;
      Bin Mul X false (Reg 0) 1 1;
      Store X 1 CX 0;
      AddQ 16 AX;
      AddQ 16 CX;
      SubQ 4 DX;
      Jmp "unrolledLoop1"]);
  ("tailLoop", [CmpQ DX 0;
      Je "end";
      LoadS false AX 0 1;
      BinS Mul false (Reg 0) 1 1;
      StoreS 1 CX 0;
      AddQ 4 AX;
      AddQ 4 CX;
      DecQ DX;
      Jmp "tailLoop"]);
  ("end", [Ret])].

(** MulConstSSE64: mat/internal/matfuncs/mulconst_amd64.s:363-495 *)
Definition mul_const_sse64 : code := [
  ("entry", [ArgS "c" 0;
      Arg "x_base" AX;
      Arg "y_base" CX;
      Arg "x_len" DX;
      Spread X false 0 0]);
  ("unrolledLoop14", [CmpQ DX 28;
      Jl "unrolledLoop8";
      Load X false AX 0 1;
      Load X false AX 16 2;
      Load X false AX 32 3;
      Load X false AX 48 4;
      Load X false AX 64 5;
      Load X false AX 80 6;
      Load X false AX 96 7;
      Load X false AX 112 8;
      Load X false AX 128 9;
      Load X false AX 144 10;
      Load X false AX 160 11;
      Load X false AX 176 12;
      Load X false AX 192 13;
      Load X false AX 208 14;
      Bin Mul X false (Reg 0) 1 1;
      Bin Mul X false (Reg 0) 2 2;
      Bin Mul X false (Reg 0) 3 3;
      Bin Mul X false (Reg 0) 4 4;
      Bin Mul X false (Reg 0) 5 5;
      Bin Mul X false (Reg 0) 6 6;
      Bin Mul X false (Reg 0) 7 7;
      Bin Mul X false (Reg 0) 8 8;
      Bin Mul X false (Reg 0) 9 9;
      Bin Mul X false (Reg 0) 10 10;
      Bin Mul X false (Reg 0) 11 11;
      Bin Mul X false (Reg 0) 12 12;
      Bin Mul X false (Reg 0) 13 13;
      Bin Mul X false (Reg 0) 14 14;
      Store X 1 CX 0;
      Store X 2 CX 16;
      Store X 3 CX 32;
      Store X 4 CX 48;
      Store X 5 CX 64;
      Store X 6 CX 80;
      Store X 7 CX 96;
      Store X 8 CX 112;
      Store X 9 CX 128;
      Store X 10 CX 144;
      Store X 11 CX 160;
      Store X 12 CX 176;
      Store X 13 CX 192;
      Store X 14 CX 208;
      AddQ 224 AX;
      AddQ 224 CX;
      SubQ 28 DX;
      Jmp "unrolledLoop14"]);
  ("unrolledLoop8", [CmpQ DX 16;
      Jl "unrolledLoop4";
      Load X false AX 0 1;
      Load X false AX 16 2;
      Load X false AX 32 3;
      Load X false AX 48 4;
      Load X false AX 64 5;
      Load X false AX 80 6;
      Load X false AX 96 7;
      Load X false AX 112 8;
      Bin Mul X false (Reg 0) 1 1;
      Bin Mul X false (Reg 0) 2 2;
      Bin Mul X false (Reg 0) 3 3;
      Bin Mul X false (Reg 0) 4 4;
      Bin Mul X false (Reg 0) 5 5;
      Bin Mul X false (Reg 0) 6 6;
      Bin Mul X false (Reg 0) 7 7;
      Bin Mul X false (Reg 0) 8 8;
      Store X 1 CX 0;
      Store X 2 CX 16;
      Store X 3 CX 32;
      Store X 4 CX 48;
      Store X 5 CX 64;
      Store X 6 CX 80;
      Store X 7 CX 96;
      Store X 8 CX 112;
      AddQ 128 AX;
      AddQ 128 CX;
      SubQ 16 DX;
      Jmp "unrolledLoop8"]);
  ("unrolledLoop4", [CmpQ DX 8;
      Jl "unrolledLoop1";
      Load X false AX 0 1;
      Load X false AX 16 2;
      Load X false AX 32 3;
      Load X false AX 48 4;
      Bin Mul X false (Reg 0) 1 1;
      Bin Mul X false (Reg 0) 2 2;
      Bin Mul X false (Reg 0) 3 3;
      Bin Mul X false (Reg 0) 4 4;
      Store X 1 CX 0;
      Store X 2 CX 16;
      Store X 3 CX 32;
      Store X 4 CX 48;
      AddQ 64 AX;
      AddQ 64 CX;
      SubQ 8 DX;
      Jmp "unrolledLoop4"]);
  ("unrolledLoop1", [CmpQ DX 2;
      Jl "tailLoop";
      Load X false AX 0 1;
      Bin Mul X false (Reg 0) 1 1;
      Store X 1 CX 0;
      AddQ 16 AX;
      AddQ 16 CX;
      SubQ 2 DX;
      Jmp "unrolledLoop1"]);
  ("tailLoop", [CmpQ DX 0;
      Je "end";
      LoadS false AX 0 1;
      BinS Mul false (Reg 0) 1 1;
      StoreS 1 CX 0;
      AddQ 8 AX;
      AddQ 8 CX;
      DecQ DX;
      Jmp "tailLoop"]);
  ("end", [Ret])].

(** SumAVX32: mat/internal/matfuncs/sum_amd64.s:9-89 *)
Definition sum_avx32 : code := [
  ("entry", [Arg "x_base" AX;
      Arg "x_len" CX;
      Clear Y true 0;
      Clear Y true 1]);
  ("unrolledLoop14", [CmpQ CX 112;
      Jl "unrolledLoop8";
      Bin Add Y true (Mem AX 0) 0 0;
      Bin Add Y true (Mem AX 32) 1 1;
      Bin Add Y true (Mem AX 64) 0 0;
      Bin Add Y true (Mem AX 96) 1 1;
      Bin Add Y true (Mem AX 128) 0 0;
      Bin Add Y true (Mem AX 160) 1 1;
      Bin Add Y true (Mem AX 192) 0 0;
      Bin Add Y true (Mem AX 224) 1 1;
      Bin Add Y true (Mem AX 256) 0 0;
      Bin Add Y true (Mem AX 288) 1 1;
      Bin Add Y true (Mem AX 320) 0 0;
      Bin Add Y true (Mem AX 352) 1 1;
      Bin Add Y true (Mem AX 384) 0 0;
      Bin Add Y true (Mem AX 416) 1 1;
      AddQ 448 AX;
      SubQ 112 CX;
      Jmp "unrolledLoop14"]);
  ("unrolledLoop8", [CmpQ CX 64;
      Jl "unrolledLoop4";
      Bin Add Y true (Mem AX 0) 0 0;
      Bin Add Y true (Mem AX 32) 1 1;
      Bin Add Y true (Mem AX 64) 0 0;
      Bin Add Y true (Mem AX 96) 1 1;
      Bin Add Y true (Mem AX 128) 0 0;
      Bin Add Y true (Mem AX 160) 1 1;
      Bin Add Y true (Mem AX 192) 0 0;
      Bin Add Y true (Mem AX 224) 1 1;
      AddQ 256 AX;
      SubQ 64 CX;
      Jmp "unrolledLoop8"]);
  ("unrolledLoop4", [CmpQ CX 32;
      Jl "unrolledLoop1";
      Bin Add Y true (Mem AX 0) 0 0;
      Bin Add Y true (Mem AX 32) 1 1;
      Bin Add Y true (Mem AX 64) 0 0;
      Bin Add Y true (Mem AX 96) 1 1;
      AddQ 128 AX;
      SubQ 32 CX;
      Jmp "unrolledLoop4"]);
  ("unrolledLoop1", [CmpQ CX 8;
      Jl "tail";
      Bin Add Y true (Mem AX 0) 0 0;
      AddQ 32 AX;
      SubQ 8 CX;
      Jmp "unrolledLoop1"]);
  ("tail", [Clear X true 2]);
  ("tailLoop", [CmpQ CX 0;
      Je "reduce";
      BinS Add true (Mem AX 0) 2 2;
      AddQ 4 AX;
      DecQ CX;
      Jmp "tailLoop"]);
  ("reduce", [Bin Add Y true (Reg 0) 1 0;
      Extract 0 1;
      Bin Add X true (Reg 0) 1 0;
      Bin Add X true (Reg 0) 2 0;
      Hadd true 0 0 0;
      Hadd true 0 0 0;
      Result 0;
      Ret])].

(** SumAVX64: mat/internal/matfuncs/sum_amd64.s:93-172 *)
Definition sum_avx64 : code := [
  ("entry", [Arg "x_base" AX;
      Arg "x_len" CX;
      Clear Y true 0;
      Clear Y true 1]);
  ("unrolledLoop14", [CmpQ CX 56;
      Jl "unrolledLoop8";
      Bin Add Y true (Mem AX 0) 0 0;
      Bin Add Y true (Mem AX 32) 1 1;
      Bin Add Y true (Mem AX 64) 0 0;
      Bin Add Y true (Mem AX 96) 1 1;
      Bin Add Y true (Mem AX 128) 0 0;
      Bin Add Y true (Mem AX 160) 1 1;
      Bin Add Y true (Mem AX 192) 0 0;
      Bin Add Y true (Mem AX 224) 1 1;
      Bin Add Y true (Mem AX 256) 0 0;
      Bin Add Y true (Mem AX 288) 1 1;
      Bin Add Y true (Mem AX 320) 0 0;
      Bin Add Y true (Mem AX 352) 1 1;
      Bin Add Y true (Mem AX 384) 0 0;
      Bin Add Y true (Mem AX 416) 1 1;
      AddQ 448 AX;
      SubQ 56 CX;
      Jmp "unrolledLoop14"]);
  ("unrolledLoop8", [CmpQ CX 32;
      Jl "unrolledLoop4";
      Bin Add Y true (Mem AX 0) 0 0;
      Bin Add Y true (Mem AX 32) 1 1;
      Bin Add Y true (Mem AX 64) 0 0;
      Bin Add Y true (Mem AX 96) 1 1;
      Bin Add Y true (Mem AX 128) 0 0;
      Bin Add Y true (Mem AX 160) 1 1;
      Bin Add Y true (Mem AX 192) 0 0;
      Bin Add Y true (Mem AX 224) 1 1;
      AddQ 256 AX;
      SubQ 32 CX;
      Jmp "unrolledLoop8"]);
  ("unrolledLoop4", [CmpQ CX 16;
      Jl "unrolledLoop1";
      Bin Add Y true (Mem AX 0) 0 0;
      Bin Add Y true (Mem AX 32) 1 1;
      Bin Add Y true (Mem AX 64) 0 0;
      Bin Add Y true (Mem AX 96) 1 1;
      AddQ 128 AX;
      SubQ 16 CX;
      Jmp "unrolledLoop4"]);
  ("unrolledLoop1", [CmpQ CX 4;
      Jl "tail";
      Bin Add Y true (Mem AX 0) 0 0;
      AddQ 32 AX;
      SubQ 4 CX;
      Jmp "unrolledLoop1"]);
  ("tail", [Clear X true 2]);
  ("tailLoop", [CmpQ CX 0;
      Je "reduce";
      BinS Add true (Mem AX 0) 2 2;
      AddQ 8 AX;
      DecQ CX;
      Jmp "tailLoop"]);
  ("reduce", [Bin Add Y true (Reg 0) 1 0;
      Extract 0 1;
      Bin Add X true (Reg 0) 1 0;
      Bin Add X true (Reg 0) 2 0;
      Hadd true 0 0 0;
      Result 0;
      Ret])].

(** SumSSE32: mat/internal/matfuncs/sum_amd64.s:176-268 *)
Definition sum_sse32 : code := [
  ("entry", [Arg "x_base" AX;
      Arg "x_len" CX;
      Clear X false 0;
      Clear X false 1;
      CmpQ CX 0;
      Je "reduce";
      MovQ AX DX;
      AndQ 15 DX;
      Je "unrolledLoops";
      XorQ 15 DX;
      IncQ DX;
      ShrQ 2 DX]);
  ("alignmentLoop", [LoadS false AX 0 2;
      BinS Add false (Reg 2) 0 0;
      AddQ 4 AX;
      DecQ CX;
      Je "reduce";
      DecQ DX;
      Jne "alignmentLoop"]);
  ("unrolledLoops", []);
  ("unrolledLoop14", [CmpQ CX 56;
      Jl "unrolledLoop8";
      Bin Add X false (Mem AX 0) 0 0;
      Bin Add X false (Mem AX 16) 1 1;
      Bin Add X false (Mem AX 32) 0 0;
      Bin Add X false (Mem AX 48) 1 1;
      Bin Add X false (Mem AX 64) 0 0;
      Bin Add X false (Mem AX 80) 1 1;
      Bin Add X false (Mem AX 96) 0 0;
      Bin Add X false (Mem AX 112) 1 1;
      Bin Add X false (Mem AX 128) 0 0;
      Bin Add X false (Mem AX 144) 1 1;
      Bin Add X false (Mem AX 160) 0 0;
      Bin Add X false (Mem AX 176) 1 1;
      Bin Add X false (Mem AX 192) 0 0;
      Bin Add X false (Mem AX 208) 1 1;
      AddQ 224 AX;
      SubQ 56 CX;
      Jmp "unrolledLoop14"]);
  ("unrolledLoop8", [CmpQ CX 32;
      Jl "unrolledLoop4";
      Bin Add X false (Mem AX 0) 0 0;
      Bin Add X false (Mem AX 16) 1 1;
      Bin Add X false (Mem AX 32) 0 0;
      Bin Add X false (Mem AX 48) 1 1;
      Bin Add X false (Mem AX 64) 0 0;
      Bin Add X false (Mem AX 80) 1 1;
      Bin Add X false (Mem AX 96) 0 0;
      Bin Add X false (Mem AX 112) 1 1;
      AddQ 128 AX;
      SubQ 32 CX;
      Jmp "unrolledLoop8"]);
  ("unrolledLoop4", [CmpQ CX 16;
      Jl "unrolledLoop1";
      Bin Add X false (Mem AX 0) 0 0;
      Bin Add X false (Mem AX 16) 1 1;
      Bin Add X false (Mem AX 32) 0 0;
      Bin Add X false (Mem AX 48) 1 1;
      AddQ 64 AX;
      SubQ 16 CX;
      Jmp "unrolledLoop4"]);
  ("unrolledLoop1", [CmpQ CX 4;
      Jl "tailLoop";
      Bin Add X false (Mem AX 0) 0 0;
      AddQ 16 AX;
      SubQ 4 CX;
      Jmp "unrolledLoop1"]);
  ("tailLoop", [CmpQ CX 0;
      Je "reduce";
      BinS Add false (Mem AX 0) 0 0;
      AddQ 4 AX;
      DecQ CX;
      Jmp "tailLoop"]);
  ("reduce", [Bin Add X false (Reg 1) 0 0;
      Hadd false 0 0 0;
      Hadd false 0 0 0;
      Result 0;
      Ret])].

(** SumSSE64: mat/internal/matfuncs/sum_amd64.s:272-355 *)
Definition sum_sse64 : code := [
  ("entry", [Arg "x_base" AX;
      Arg "x_len" CX;
      Clear X false 0;
      Clear X false 1;
      CmpQ CX 0;
      Je "reduce";
      MovQ AX DX;
      AndQ 15 DX;
      Je "unrolledLoops";
      LoadS false AX 0 2;
      BinS Add false (Reg 2) 0 0;
      AddQ 8 AX;
      DecQ CX]);
  ("unrolledLoops", []);
  ("unrolledLoop14", [CmpQ CX 28;
      Jl "unrolledLoop8";
      Bin Add X false (Mem AX 0) 0 0;
      Bin Add X false (Mem AX 16) 1 1;
      Bin Add X false (Mem AX 32) 0 0;
      Bin Add X false (Mem AX 48) 1 1;
      Bin Add X false (Mem AX 64) 0 0;
      Bin Add X false (Mem AX 80) 1 1;
      Bin Add X false (Mem AX 96) 0 0;
      Bin Add X false (Mem AX 112) 1 1;
      Bin Add X false (Mem AX 128) 0 0;
      Bin Add X false (Mem AX 144) 1 1;
      Bin Add X false (Mem AX 160) 0 0;
      Bin Add X false (Mem AX 176) 1 1;
      Bin Add X false (Mem AX 192) 0 0;
      Bin Add X false (Mem AX 208) 1 1;
      AddQ 224 AX;
      SubQ 28 CX;
      Jmp "unrolledLoop14"]);
  ("unrolledLoop8", [CmpQ CX 16;
      Jl "unrolledLoop4";
      Bin Add X false (Mem AX 0) 0 0;
      Bin Add X false (Mem AX 16) 1 1;
      Bin Add X false (Mem AX 32) 0 0;
      Bin Add X false (Mem AX 48) 1 1;
      Bin Add X false (Mem AX 64) 0 0;
      Bin Add X false (Mem AX 80) 1 1;
      Bin Add X false (Mem AX 96) 0 0;
      Bin Add X false (Mem AX 112) 1 1;
      AddQ 128 AX;
      SubQ 16 CX;
      Jmp "unrolledLoop8"]);
  ("unrolledLoop4", [CmpQ CX 8;
      Jl "unrolledLoop1";
      Bin Add X false (Mem AX 0) 0 0;
      Bin Add X false (Mem AX 16) 1 1;
      Bin Add X false (Mem AX 32) 0 0;
      Bin Add X false (Mem AX 48) 1 1;
      AddQ 64 AX;
      SubQ 8 CX;
      Jmp "unrolledLoop4"]);
  ("unrolledLoop1", [CmpQ CX 2;
      Jl "tailLoop";
      Bin Add X false (Mem AX 0) 0 0;
      AddQ 16 AX;
      SubQ 2 CX;
      Jmp "unrolledLoop1"]);
  ("tailLoop", [CmpQ CX 0;
      Je "reduce";
      BinS Add false (Mem AX 0) 0 0;
      AddQ 8 AX;
      DecQ CX;
      Jmp "tailLoop"]);
  ("reduce", [Bin Add X false (Reg 1) 0 0;
      Hadd false 0 0 0;
      Result 0;
      Ret])].

(** DotProdAVX32: mat/internal/matfuncs/dotprod_amd64.s:9-122 *)
Definition dot_prod_avx32 : code := [
  ("entry", [Arg "x1_base" AX;
      Arg "x2_base" CX;
      Arg "x1_len" DX;
      ClearAll]);
  ("unrolledLoop14", [CmpQ DX 112;
      Jl "unrolledLoop8";
      Load Y true AX 0 2;
      Load Y true AX 32 3;
      Load Y true AX 64 4;
      Load Y true AX 96 5;
      Load Y true AX 128 6;
      Load Y true AX 160 7;
      Load Y true AX 192 8;
      Load Y true AX 224 9;
      Load Y true AX 256 10;
      Load Y true AX 288 11;
      Load Y true AX 320 12;
      Load Y true AX 352 13;
      Load Y true AX 384 14;
      Load Y true AX 416 15;
      Fma Y (Mem CX 0) 2 0;
      Fma Y (Mem CX 32) 3 1;
      Fma Y (Mem CX 64) 4 0;
      Fma Y (Mem CX 96) 5 1;
      Fma Y (Mem CX 128) 6 0;
      Fma Y (Mem CX 160) 7 1;
      Fma Y (Mem CX 192) 8 0;
      Fma Y (Mem CX 224) 9 1;
      Fma Y (Mem CX 256) 10 0;
      Fma Y (Mem CX 288) 11 1;
      Fma Y (Mem CX 320) 12 0;
      Fma Y (Mem CX 352) 13 1;
      Fma Y (Mem CX 384) 14 0;
      Fma Y (Mem CX 416) 15 1;
      AddQ 448 AX;
      AddQ 448 CX;
      SubQ 112 DX;
      Jmp "unrolledLoop14"]);
  ("unrolledLoop8", [CmpQ DX 64;
      Jl "unrolledLoop4";
      Load Y true AX 0 2;
      Load Y true AX 32 3;
      Load Y true AX 64 4;
      Load Y true AX 96 5;
      Load Y true AX 128 6;
      Load Y true AX 160 7;
      Load Y true AX 192 8;
      Load Y true AX 224 9;
      Fma Y (Mem CX 0) 2 0;
      Fma Y (Mem CX 32) 3 1;
      Fma Y (Mem CX 64) 4 0;
      Fma Y (Mem CX 96) 5 1;
      Fma Y (Mem CX 128) 6 0;
      Fma Y (Mem CX 160) 7 1;
      Fma Y (Mem CX 192) 8 0;
      Fma Y (Mem CX 224) 9 1;
      AddQ 256 AX;
      AddQ 256 CX;
      SubQ 64 DX;
      Jmp "unrolledLoop8"]);
  ("unrolledLoop4", [CmpQ DX 32;
      Jl "unrolledLoop1";
      Load Y true AX 0 2;
      Load Y true AX 32 3;
      Load Y true AX 64 4;
      Load Y true AX 96 5;
      Fma Y (Mem CX 0) 2 0;
      Fma Y (Mem CX 32) 3 1;
      Fma Y (Mem CX 64) 4 0;
      Fma Y (Mem CX 96) 5 1;
      AddQ 128 AX;
      AddQ 128 CX;
      SubQ 32 DX;
      Jmp "unrolledLoop4"]);
  ("unrolledLoop1", [CmpQ DX 8;
      Jl "tail";
      Load Y true AX 0 2;
      Fma Y (Mem CX 0) 2 0;
      AddQ 32 AX;
      AddQ 32 CX;
      SubQ 8 DX;
      Jmp "unrolledLoop1"]);
  ("tail", [Clear X true 2]);
  ("tailLoop", [CmpQ DX 0;
      Je "reduce";
      LoadS true AX 0 3;
      FmaS (Mem CX 0) 3 2;
      AddQ 4 AX;
      AddQ 4 CX;
      DecQ DX;
      Jmp "tailLoop"]);
  ("reduce", [Bin Add Y true (Reg 0) 1 0;
      Extract 0 1;
      Bin Add X true (Reg 0) 1 0;
      Bin Add X true (Reg 0) 2 0;
      Hadd true 0 0 0;
      Hadd true 0 0 0;
      Result 0;
      Ret])].

(** DotProdAVX64: mat/internal/matfuncs/dotprod_amd64.s:126-238 *)
Definition dot_prod_avx64 : code := [
  ("entry", [Arg "x1_base" AX;
      Arg "x2_base" CX;
      Arg "x1_len" DX;
      ClearAll]);
  ("unrolledLoop14", [CmpQ DX 56;
      Jl "unrolledLoop8";
      Load Y true AX 0 2;
      Load Y true AX 32 3;
      Load Y true AX 64 4;
      Load Y true AX 96 5;
      Load Y true AX 128 6;
      Load Y true AX 160 7;
      Load Y true AX 192 8;
      Load Y true AX 224 9;
      Load Y true AX 256 10;
      Load Y true AX 288 11;
      Load Y true AX 320 12;
      Load Y true AX 352 13;
      Load Y true AX 384 14;
      Load Y true AX 416 15;
      Fma Y (Mem CX 0) 2 0;
      Fma Y (Mem CX 32) 3 1;
      Fma Y (Mem CX 64) 4 0;
      Fma Y (Mem CX 96) 5 1;
      Fma Y (Mem CX 128) 6 0;
      Fma Y (Mem CX 160) 7 1;
      Fma Y (Mem CX 192) 8 0;
      Fma Y (Mem CX 224) 9 1;
      Fma Y (Mem CX 256) 10 0;
      Fma Y (Mem CX 288) 11 1;
      Fma Y (Mem CX 320) 12 0;
      Fma Y (Mem CX 352) 13 1;
      Fma Y (Mem CX 384) 14 0;
      Fma Y (Mem CX 416) 15 1;
      AddQ 448 AX;
      AddQ 448 CX;
      SubQ 56 DX;
      Jmp "unrolledLoop14"]);
  ("unrolledLoop8", [CmpQ DX 32;
      Jl "unrolledLoop4";
      Load Y true AX 0 2;
      Load Y true AX 32 3;
      Load Y true AX 64 4;
      Load Y true AX 96 5;
      Load Y true AX 128 6;
      Load Y true AX 160 7;
      Load Y true AX 192 8;
      Load Y true AX 224 9;
      Fma Y (Mem CX 0) 2 0;
      Fma Y (Mem CX 32) 3 1;
      Fma Y (Mem CX 64) 4 0;
      Fma Y (Mem CX 96) 5 1;
      Fma Y (Mem CX 128) 6 0;
      Fma Y (Mem CX 160) 7 1;
      Fma Y (Mem CX 192) 8 0;
      Fma Y (Mem CX 224) 9 1;
      AddQ 256 AX;
      AddQ 256 CX;
      SubQ 32 DX;
      Jmp "unrolledLoop8"]);
  ("unrolledLoop4", [CmpQ DX 16;
      Jl "unrolledLoop1";
      Load Y true AX 0 2;
      Load Y true AX 32 3;
      Load Y true AX 64 4;
      Load Y true AX 96 5;
      Fma Y (Mem CX 0) 2 0;
      Fma Y (Mem CX 32) 3 1;
      Fma Y (Mem CX 64) 4 0;
      Fma Y (Mem CX 96) 5 1;
      AddQ 128 AX;
      AddQ 128 CX;
      SubQ 16 DX;
      Jmp "unrolledLoop4"]);
  ("unrolledLoop1", [CmpQ DX 4;
      Jl "tail";
      Load Y true AX 0 2;
      Fma Y (Mem CX 0) 2 0;
      AddQ 32 AX;
      AddQ 32 CX;
      SubQ 4 DX;
      Jmp "unrolledLoop1"]);
  ("tail", [Clear X true 2]);
  ("tailLoop", [CmpQ DX 0;
      Je "reduce";
      LoadS true AX 0 3;
      FmaS (Mem CX 0) 3 2;
      AddQ 8 AX;
      AddQ 8 CX;
      DecQ DX;
      Jmp "tailLoop"]);
  ("reduce", [Bin Add Y true (Reg 0) 1 0;
      Extract 0 1;
      Bin Add X true (Reg 0) 1 0;
      Bin Add X true (Reg 0) 2 0;
      Hadd true 0 0 0;
      Result 0;
      Ret])].

(** DotProdSSE32: mat/internal/matfuncs/dotprod_amd64.s:242-398 *)
Definition dot_prod_sse32 : code := [
  ("entry", [Arg "x1_base" AX;
      Arg "x2_base" CX;
      Arg "x1_len" DX;
      Clear X false 0;
      Clear X false 1;
      CmpQ DX 0;
      Je "reduce";
      MovQ CX BX;
      AndQ 15 BX;
      Je "unrolledLoops";
      XorQ 15 BX;
      IncQ BX;
      ShrQ 2 BX]);
  ("alignmentLoop", [LoadS false AX 0 2;
      BinS Mul false (Mem CX 0) 2 2;
      BinS Add false (Reg 2) 0 0;
      AddQ 4 AX;
      AddQ 4 CX;
      DecQ DX;
      Je "reduce";
      DecQ BX;
      Jne "alignmentLoop"]);
  ("unrolledLoops", []);
  ("unrolledLoop14", [CmpQ DX 56;
      Jl "unrolledLoop8";
      Load X false AX 0 2;
      Load X false AX 16 3;
      Load X false AX 32 4;
      Load X false AX 48 5;
      Load X false AX 64 6;
      Load X false AX 80 7;
      Load X false AX 96 8;
      Load X false AX 112 9;
      Load X false AX 128 10;
      Load X false AX 144 11;
      Load X false AX 160 12;
      Load X false AX 176 13;
      Load X false AX 192 14;
      Load X false AX 208 15;
      Bin Mul X false (Mem CX 0) 2 2;
      Bin Mul X false (Mem CX 16) 3 3;
      Bin Mul X false (Mem CX 32) 4 4;
      Bin Mul X false (Mem CX 48) 5 5;
      Bin Mul X false (Mem CX 64) 6 6;
      Bin Mul X false (Mem CX 80) 7 7;
      Bin Mul X false (Mem CX 96) 8 8;
      Bin Mul X false (Mem CX 112) 9 9;
      Bin Mul X false (Mem CX 128) 10 10;
      Bin Mul X false (Mem CX 144) 11 11;
      Bin Mul X false (Mem CX 160) 12 12;
      Bin Mul X false (Mem CX 176) 13 13;
      Bin Mul X false (Mem CX 192) 14 14;
      Bin Mul X false (Mem CX 208) 15 15;
      Bin Add X false (Reg 2) 0 0;
      Bin Add X false (Reg 3) 1 1;
      Bin Add X false (Reg 4) 0 0;
      Bin Add X false (Reg 5) 1 1;
      Bin Add X false (Reg 6) 0 0;
      Bin Add X false (Reg 7) 1 1;
      Bin Add X false (Reg 8) 0 0;
      Bin Add X false (Reg 9) 1 1;
      Bin Add X false (Reg 10) 0 0;
      Bin Add X false (Reg 11) 1 1;
      Bin Add X false (Reg 12) 0 0;
      Bin Add X false (Reg 13) 1 1;
      Bin Add X false (Reg 14) 0 0;
      Bin Add X false (Reg 15) 1 1;
      AddQ 224 AX;
      AddQ 224 CX;
      SubQ 56 DX;
      Jmp "unrolledLoop14"]);
  ("unrolledLoop8", [CmpQ DX 32;
      Jl "unrolledLoop4";
      Load X false AX 0 2;
      Load X false AX 16 3;
      Load X false AX 32 4;
      Load X false AX 48 5;
      Load X false AX 64 6;
      Load X false AX 80 7;
      Load X false AX 96 8;
      Load X false AX 112 9;
      Bin Mul X false (Mem CX 0) 2 2;
      Bin Mul X false (Mem CX 16) 3 3;
      Bin Mul X false (Mem CX 32) 4 4;
      Bin Mul X false (Mem CX 48) 5 5;
      Bin Mul X false (Mem CX 64) 6 6;
      Bin Mul X false (Mem CX 80) 7 7;
      Bin Mul X false (Mem CX 96) 8 8;
      Bin Mul X false (Mem CX 112) 9 9;
      Bin Add X false (Reg 2) 0 0;
      Bin Add X false (Reg 3) 1 1;
      Bin Add X false (Reg 4) 0 0;
      Bin Add X false (Reg 5) 1 1;
      Bin Add X false (Reg 6) 0 0;
      Bin Add X false (Reg 7) 1 1;
      Bin Add X false (Reg 8) 0 0;
      Bin Add X false (Reg 9) 1 1;
      AddQ 128 AX;
      AddQ 128 CX;
      SubQ 32 DX;
      Jmp "unrolledLoop8"]);
  ("unrolledLoop4", [CmpQ DX 16;
      Jl "unrolledLoop1";
      Load X false AX 0 2;
      Load X false AX 16 3;
      Load X false AX 32 4;
      Load X false AX 48 5;
      Bin Mul X false (Mem CX 0) 2 2;
      Bin Mul X false (Mem CX 16) 3 3;
      Bin Mul X false (Mem CX 32) 4 4;
      Bin Mul X false (Mem CX 48) 5 5;
      Bin Add X false (Reg 2) 0 0;
      Bin Add X false (Reg 3) 1 1;
      Bin Add X false (Reg 4) 0 0;
      Bin Add X false (Reg 5) 1 1;
      AddQ 64 AX;
      AddQ 64 CX;
      SubQ 16 DX;
      Jmp "unrolledLoop4"]);
  ("unrolledLoop1", [CmpQ DX 4;
      Jl "tailLoop";
      Load X false AX 0 2;
      Bin Mul X false (Mem CX 0) 2 2;
      Bin Add X false (Reg 2) 0 0;
      AddQ 16 AX;
      AddQ 16 CX;
      SubQ 4 DX;
      Jmp "unrolledLoop1"]);
  ("tailLoop", [CmpQ DX 0;
      Je "reduce";
      LoadS false AX 0 2;
      BinS Mul false (Mem CX 0) 2 2;
      BinS Add false (Reg 2) 0 0;
      AddQ 4 AX;
      AddQ 4 CX;
      DecQ DX;
      Jmp "tailLoop"]);
  ("reduce", [Bin Add X false (Reg 1) 0 0;
      Hadd false 0 0 0;
      Hadd false 0 0 0;
      Result 0;
      Ret])].

(** DotProdSSE64: mat/internal/matfuncs/dotprod_amd64.s:402-549 *)
Definition dot_prod_sse64 : code := [
  ("entry", [Arg "x1_base" AX;
      Arg "x2_base" CX;
      Arg "x1_len" DX;
      Clear X false 0;
      Clear X false 1;
      CmpQ DX 0;
      Je "reduce";
      MovQ CX BX;
      AndQ 15 BX;
      Je "unrolledLoops";
      LoadS false AX 0 2;
      BinS Mul false (Mem CX 0) 2 2;
      BinS Add false (Reg 2) 0 0;
      AddQ 8 AX;
      AddQ 8 CX;
      DecQ DX]);
  ("unrolledLoops", []);
  ("unrolledLoop14", [CmpQ DX 28;
      Jl "unrolledLoop8";
      Load X false AX 0 2;
      Load X false AX 16 3;
      Load X false AX 32 4;
      Load X false AX 48 5;
      Load X false AX 64 6;
      Load X false AX 80 7;
      Load X false AX 96 8;
      Load X false AX 112 9;
      Load X false AX 128 10;
      Load X false AX 144 11;
      Load X false AX 160 12;
      Load X false AX 176 13;
      Load X false AX 192 14;
      Load X false AX 208 15;
      Bin Mul X false (Mem CX 0) 2 2;
      Bin Mul X false (Mem CX 16) 3 3;
      Bin Mul X false (Mem CX 32) 4 4;
      Bin Mul X false (Mem CX 48) 5 5;
      Bin Mul X false (Mem CX 64) 6 6;
      Bin Mul X false (Mem CX 80) 7 7;
      Bin Mul X false (Mem CX 96) 8 8;
      Bin Mul X false (Mem CX 112) 9 9;
      Bin Mul X false (Mem CX 128) 10 10;
      Bin Mul X false (Mem CX 144) 11 11;
      Bin Mul X false (Mem CX 160) 12 12;
      Bin Mul X false (Mem CX 176) 13 13;
      Bin Mul X false (Mem CX 192) 14 14;
      Bin Mul X false (Mem CX 208) 15 15;
      Bin Add X false (Reg 2) 0 0;
      Bin Add X false (Reg 3) 1 1;
      Bin Add X false (Reg 4) 0 0;
      Bin Add X false (Reg 5) 1 1;
      Bin Add X false (Reg 6) 0 0;
      Bin Add X false (Reg 7) 1 1;
      Bin Add X false (Reg 8) 0 0;
      Bin Add X false (Reg 9) 1 1;
      Bin Add X false (Reg 10) 0 0;
      Bin Add X false (Reg 11) 1 1;
      Bin Add X false (Reg 12) 0 0;
      Bin Add X false (Reg 13) 1 1;
      Bin Add X false (Reg 14) 0 0;
      Bin Add X false (Reg 15) 1 1;
      AddQ 224 AX;
      AddQ 224 CX;
      SubQ 28 DX;
      Jmp "unrolledLoop14"]);
  ("unrolledLoop8", [CmpQ DX 16;
      Jl "unrolledLoop4";
      Load X false AX 0 2;
      Load X false AX 16 3;
      Load X false AX 32 4;
      Load X false AX 48 5;
      Load X false AX 64 6;
      Load X false AX 80 7;
      Load X false AX 96 8;
      Load X false AX 112 9;
      Bin Mul X false (Mem CX 0) 2 2;
      Bin Mul X false (Mem CX 16) 3 3;
      Bin Mul X false (Mem CX 32) 4 4;
      Bin Mul X false (Mem CX 48) 5 5;
      Bin Mul X false (Mem CX 64) 6 6;
      Bin Mul X false (Mem CX 80) 7 7;
      Bin Mul X false (Mem CX 96) 8 8;
      Bin Mul X false (Mem CX 112) 9 9;
      Bin Add X false (Reg 2) 0 0;
      Bin Add X false (Reg 3) 1 1;
      Bin Add X false (Reg 4) 0 0;
      Bin Add X false (Reg 5) 1 1;
      Bin Add X false (Reg 6) 0 0;
      Bin Add X false (Reg 7) 1 1;
      Bin Add X false (Reg 8) 0 0;
      Bin Add X false (Reg 9) 1 1;
      AddQ 128 AX;
      AddQ 128 CX;
      SubQ 16 DX;
      Jmp "unrolledLoop8"]);
  ("unrolledLoop4", [CmpQ DX 8;
      Jl "unrolledLoop1";
      Load X false AX 0 2;
      Load X false AX 16 3;
      Load X false AX 32 4;
      Load X false AX 48 5;
      Bin Mul X false (Mem CX 0) 2 2;
      Bin Mul X false (Mem CX 16) 3 3;
      Bin Mul X false (Mem CX 32) 4 4;
      Bin Mul X false (Mem CX 48) 5 5;
      Bin Add X false (Reg 2) 0 0;
      Bin Add X false (Reg 3) 1 1;
      Bin Add X false (Reg 4) 0 0;
      Bin Add X false (Reg 5) 1 1;
      AddQ 64 AX;
      AddQ 64 CX;
      SubQ 8 DX;
      Jmp "unrolledLoop4"]);
  ("unrolledLoop1", [CmpQ DX 2;
      Jl "tailLoop";
      Load X false AX 0 2;
      Bin Mul X false (Mem CX 0) 2 2;
      Bin Add X false (Reg 2) 0 0;
      AddQ 16 AX;
      AddQ 16 CX;
      SubQ 2 DX;
      Jmp "unrolledLoop1"]);
  ("tailLoop", [CmpQ DX 0;
      Je "reduce";
      LoadS false AX 0 2;
      BinS Mul false (Mem CX 0) 2 2;
      BinS Add false (Reg 2) 0 0;
      AddQ 8 AX;
      AddQ 8 CX;
      DecQ DX;
      Jmp "tailLoop"]);
  ("reduce", [Bin Add X false (Reg 1) 0 0;
      Hadd false 0 0 0;
      Result 0;
      Ret])].

(** ExpAVX32: mat/internal/matfuncs/exp_amd64.s:45-93 *)
Definition exp_avx32 : code := [
  ("entry", [Arg "x_base" AX;
      Arg "y_base" CX;
      Load Y true AX 0 0;
      Move Y true (Sym 1118879909) 1;
      Bin Min Y true (Reg 1) 0 0;
      Move Y true (Sym 3266363557) 1;
      Bin Max Y true (Reg 1) 0 0;
      Move Y true (Sym 1069066811) 1;
      Bin Mul Y true (Reg 1) 0 1;
      Move Y true (Sym 1056964608) 2;
      Bin Add Y true (Reg 2) 1 1;
      Un Floor Y true 1 3;
      Bin Cmplt Y true (Reg 3) 1 1;
      Move Y true (Sym 1065353216) 4;
      Bin And Y true (Reg 4) 1 1;
      Bin Sub Y true (Reg 1) 3 1;
      Move Y true (Sym 3207692288) 3;
      Bin Mul Y true (Reg 3) 1 3;
      Move Y true (Sym 962494595) 5;
      Bin Mul Y true (Reg 5) 1 5;
      Bin Add Y true (Reg 3) 0 0;
      Bin Add Y true (Reg 5) 0 0;
      Bin Mul Y true (Reg 0) 0 3;
      Move Y true (Sym 961571175) 5;
      Bin Mul Y true (Reg 5) 0 5;
      Move Y true (Sym 985088974) 6;
      Bin Add Y true (Reg 6) 5 5;
      Bin Mul Y true (Reg 5) 0 5;
      Move Y true (Sym 1007192328) 6;
      Bin Add Y true (Reg 6) 5 5;
      Bin Mul Y true (Reg 5) 0 5;
      Move Y true (Sym 1026206145) 6;
      Bin Add Y true (Reg 6) 5 5;
      Bin Mul Y true (Reg 5) 0 5;
      Move Y true (Sym 1042983594) 6;
      Bin Add Y true (Reg 6) 5 5;
      Bin Mul Y true (Reg 5) 0 5;
      Bin Add Y true (Reg 2) 5 2;
      Bin Mul Y true (Reg 2) 3 2;
      Bin Add Y true (Reg 2) 0 0;
      Bin Add Y true (Reg 4) 0 0;
      Un Trunc Y true 1 1;
      Un (Shl 23) Y true 1 1;
      Move Y true (Sym 1065353216) 2;
      Bin Addd Y true (Reg 2) 1 1;
      Bin Mul Y true (Reg 1) 0 0;
      Store Y 0 CX 0;
      Ret])].

(** ExpSSE32: mat/internal/matfuncs/exp_amd64.s:169-212 *)
Definition exp_sse32 : code := [
  ("entry", [Arg "x_base" AX;
      Arg "y_base" CX;
      Load X false AX 0 0;
      Bin Min X false (Sym 1118879909) 0 0;
      Bin Max X false (Sym 3266363557) 0 0;
      Move X false (Sym 1069066811) 4;
      Bin Mul X false (Reg 0) 4 4;
      Move X false (Sym 1056964608) 2;
      Bin Add X false (Reg 2) 4 4;
      Un Trunc X false 4 1;
      Un OfInt X false 1 1;
      Bin Cmplt X false (Reg 1) 4 4;
      Move X false (Sym 1065353216) 3;
      Bin And X false (Reg 3) 4 4;
      Bin Sub X false (Reg 4) 1 1;
      Move X false (Sym 3207692288) 4;
      Bin Mul X false (Reg 1) 4 4;
      Move X false (Sym 962494595) 5;
      Bin Mul X false (Reg 1) 5 5;
      Bin Add X false (Reg 4) 0 0;
      Bin Add X false (Reg 5) 0 0;
      Move X false (Reg 0) 4;
      Move X false (Sym 961571175) 5;
      Bin Mul X false (Reg 0) 5 5;
      Bin Add X false (Sym 985088974) 5 5;
      Bin Mul X false (Reg 0) 4 4;
      Bin Mul X false (Reg 0) 5 5;
      Bin Add X false (Sym 1007192328) 5 5;
      Bin Mul X false (Reg 0) 5 5;
      Bin Add X false (Sym 1026206145) 5 5;
      Bin Mul X false (Reg 0) 5 5;
      Bin Add X false (Sym 1042983594) 5 5;
      Bin Mul X false (Reg 0) 5 5;
      Bin Add X false (Reg 2) 5 5;
      Bin Mul X false (Reg 4) 5 5;
      Bin Add X false (Reg 5) 0 0;
      Bin Add X false (Reg 3) 0 0;
      Un Trunc X false 1 1;
      Un (Shl 23) X false 1 1;
      Bin Addd X false (Sym 1065353216) 1 1;
      Bin Mul X false (Reg 1) 0 0;
      Store X 0 CX 0;
      Ret])].

(** LogAVX32: mat/internal/matfuncs/log_amd64.s:66-132 *)
Definition log_avx32 : code := [
  ("entry", [Arg "x_base" AX;
      Arg "y_base" CX;
      Load Y true AX 0 0;
      Clear X true 1;
      Bin Cmple Y true (Reg 1) 0 1;
      Move Y true (Sym 8388608) 2;
      Bin Max Y true (Reg 2) 0 0;
      Un (Shr 23) Y true 0 2;
      Move Y true (Sym 2155872255) 3;
      Bin And Y true (Reg 3) 0 0;
      Move Y true (Sym 1056964608) 3;
      Move Y true (Sym 4294967169) 4;
      Bin Or Y true (Reg 3) 0 0;
      Bin Addd Y true (Reg 4) 2 2;
      Un OfInt Y true 2 2;
      Move Y true (Sym 1065353216) 3;
      Bin Add Y true (Reg 3) 2 2;
      Move Y true (Sym 1060439283) 4;
      Bin Cmplt Y true (Reg 4) 0 4;
      Bin And Y true (Reg 0) 4 5;
      Move Y true (Sym 3212836864) 6;
      Bin Add Y true (Reg 6) 0 0;
      Bin Add Y true (Reg 5) 0 0;
      Bin And Y true (Reg 3) 4 3;
      Bin Sub Y true (Reg 3) 2 2;
      Bin Mul Y true (Reg 0) 0 3;
      Move Y true (Sym 1032855995) 4;
      Bin Mul Y true (Reg 4) 0 4;
      Move Y true (Sym 3186348472) 5;
      Bin Add Y true (Reg 5) 4 4;
      Bin Mul Y true (Reg 4) 0 4;
      Move Y true (Sym 1039082778) 5;
      Bin Add Y true (Reg 5) 4 4;
      Bin Mul Y true (Reg 4) 0 4;
      Move Y true (Sym 3187563855) 5;
      Bin Add Y true (Reg 5) 4 4;
      Bin Mul Y true (Reg 4) 0 4;
      Move Y true (Sym 1041361343) 5;
      Bin Add Y true (Reg 5) 4 4;
      Bin Mul Y true (Reg 4) 0 4;
      Move Y true (Sym 3190468176) 5;
      Bin Add Y true (Reg 5) 4 4;
      Bin Mul Y true (Reg 4) 0 4;
      Move Y true (Sym 1045221036) 5;
      Bin Add Y true (Reg 5) 4 4;
      Bin Mul Y true (Reg 4) 0 4;
      Move Y true (Sym 3196059644) 5;
      Bin Add Y true (Reg 5) 4 4;
      Bin Mul Y true (Reg 4) 0 4;
      Move Y true (Sym 1051372202) 5;
      Bin Add Y true (Reg 5) 4 4;
      Bin Mul Y true (Reg 4) 0 4;
      Bin Mul Y true (Reg 4) 3 4;
      Move Y true (Sym 3109978243) 5;
      Bin Mul Y true (Reg 5) 2 5;
      Bin Add Y true (Reg 5) 4 4;
      Move Y true (Sym 3204448256) 5;
      Bin Mul Y true (Reg 5) 3 3;
      Bin Add Y true (Reg 3) 4 3;
      Move Y true (Sym 1060208640) 4;
      Bin Mul Y true (Reg 4) 2 2;
      Bin Add Y true (Reg 3) 0 0;
      Bin Add Y true (Reg 0) 2 0;
      Bin Or Y true (Reg 0) 1 0;
      Store Y 0 CX 0;
      Ret])].

(** LogSSE32: mat/internal/matfuncs/log_amd64.s:250-305 *)
Definition log_sse32 : code := [
  ("entry", [Arg "x_base" AX;
      Arg "y_base" CX;
      Load X false AX 0 0;
      Clear X false 2;
      Move X false (Reg 0) 1;
      Bin Cmple X false (Reg 2) 1 1;
      Bin Max X false (Sym 8388608) 0 0;
      Move X false (Reg 0) 2;
      Un (Shr 23) X false 2 2;
      Bin And X false (Sym 2155872255) 0 0;
      Bin Or X false (Sym 1056964608) 0 0;
      Bin Addd X false (Sym 4294967169) 2 2;
      Move X false (Reg 0) 4;
      Bin Cmplt X false (Sym 1060439283) 4 4;
      Move X false (Reg 4) 3;
      Bin And X false (Reg 0) 3 3;
      Bin Add X false (Sym 3212836864) 0 0;
      Bin Add X false (Reg 3) 0 0;
      Move X false (Sym 1032855995) 3;
      Bin Mul X false (Reg 0) 3 3;
      Bin Add X false (Sym 3186348472) 3 3;
      Un OfInt X false 2 2;
      Bin Mul X false (Reg 0) 3 3;
      Bin Add X false (Sym 1039082778) 3 3;
      Move X false (Sym 1065353216) 5;
      Bin Mul X false (Reg 0) 3 3;
      Bin Add X false (Sym 3187563855) 3 3;
      Bin Add X false (Reg 5) 2 2;
      Bin Mul X false (Reg 0) 3 3;
      Bin Add X false (Sym 1041361343) 3 3;
      Bin And X false (Reg 5) 4 4;
      Bin Mul X false (Reg 0) 3 3;
      Bin Add X false (Sym 3190468176) 3 3;
      Bin Sub X false (Reg 4) 2 2;
      Move X false (Reg 0) 4;
      Bin Mul X false (Reg 0) 3 3;
      Bin Add X false (Sym 1045221036) 3 3;
      Bin Mul X false (Reg 0) 4 4;
      Bin Mul X false (Reg 0) 3 3;
      Bin Add X false (Sym 3196059644) 3 3;
      Bin Mul X false (Reg 0) 3 3;
      Bin Add X false (Sym 1051372202) 3 3;
      Bin Mul X false (Reg 0) 3 3;
      Bin Mul X false (Reg 4) 3 3;
      Move X false (Sym 3109978243) 5;
      Bin Mul X false (Reg 2) 5 5;
      Bin Add X false (Reg 3) 5 5;
      Bin Mul X false (Sym 3204448256) 4 4;
      Bin Mul X false (Sym 1060208640) 2 2;
      Bin Add X false (Reg 5) 4 4;
      Bin Add X false (Reg 4) 0 0;
      Bin Add X false (Reg 2) 0 0;
      Bin Or X false (Reg 1) 0 0;
      Store X 0 CX 0;
      Ret])].
