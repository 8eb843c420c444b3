(** * Normally distributed numbers

    Model of [Rand.NormFloat64] (/repo/mat/internal/rand/normal.go:19-65), behind [LockedRand.NormFloat64]
    (/repo/mat/rand/lockedrand.go:122-130) and [normal.Normal.Next] (/repo/mat/rand/normal/normal.go:27-29), on the float32
    and float64 values of FloatModel.v.  The source is a list of words, a prefix of what it would deliver, as in RandModel.v.
    Go's math.Log and math.Exp are parameters.  The multiplication and addition of normal.go:61 are not fused, which the
    compiler may do on processors other than amd64. *)
From Coq Require Import List ZArith Bool.
From Flocq Require Import Core BinarySingleNaN.
From Verif Require Import RandModel FloatModel NumModel GaussTables.
Import ListNotations.
Local Open Scope Z_scope.

(** a constant of the source that is the fraction n / k, rounded to type d; the sum is n / k * 2^101 with the digits cut off
    replaced by one odd digit, which does not change the rounding *)
Definition ratio (d : dtype) (n k : Z) : val d :=
  let scaled := n * 2 ^ 100 in lit (2 * (scaled / k) + (if scaled mod k =? 0 then 0 else 1)) (-101).
Definition decimal (d : dtype) (x : Z * Z) : val d := ratio d (fst x) (10 ^ snd x).

(** kn, wn, fn (normal.go:67-156) *)
Definition kn : list Z := kn_table.
Definition wn : list (val F32) := map (decimal F32) wn_table.
Definition fn : list (val F32) := map (decimal F32) fn_table.
(** rn and the constants -rn and 1.0 / rn as float64 (normal.go:19-21, 51, 58, 60) *)
Definition rn : val F64 := decimal F64 (3442619855899, 12).
Definition inv_rn : val F64 := ratio F64 (10 ^ 12) 3442619855899.
Definition minus_half : val F64 := fneg (lit 1 (-1)).

(** absInt32 (normal.go:23-28): -i of an int32 wraps around, and so does the conversion to uint32 *)
Definition abs_int32 (i : Z) : Z := if i <? 0 then to_signed 32 (- i) mod 2 ^ 32 else i mod 2 ^ 32.

(** Float64 (rand.go:141-155) of one word: float64(r.Uint64n(1<<53)) / (1<<53); Uint64n of a power of two is the lower bits *)
Definition unit_of (w : Z) : val F64 := fdiv (lit (Z.land w (2 ^ 53 - 1)) 0) (lit 1 53).

(** where the call is when it asks for its next word: at normal.go:39, 51, 52 and 61 *)
Inductive phase :=
| Start
| Tail (j : Z)                          (* Float64 of normal.go:51 *)
| Tail2 (j : Z) (x : val F64)           (* Float64 of normal.go:52 *)
| Strip (i : Z) (x : val F64).          (* Float64 of normal.go:61 *)

Section Norm.
Variable m : libm.

(** the test of normal.go:61, in float32, and its right hand side *)
Definition height (i : Z) (u : val F64) : option (val F32) :=
  match nth_error fn (Z.to_nat i), nth_error fn (Z.to_nat (i - 1)) with
  | Some f, Some f' => Some (fadd f (fmul (conv F64 F32 u) (fsub f' f)))
  | _, _ => None
  end.
Definition density (x : val F64) : val F32 := conv F64 F32 (Exp m (fmul (fmul minus_half x) x)).

(** NormFloat64 (normal.go:37-65), one word of the source at a time; an index outside a table panics *)
Fixpoint norm_from (p : phase) (ws : list Z) : draw (val F64) :=
  match ws with
  | [] => Exhausted
  | w :: ws =>
      let u := unit_of w in
      match p with
      | Start =>
          let j := to_signed 32 (uint32_of w) in
          let i := Z.land j 127 in
          match nth_error wn (Z.to_nat i), nth_error kn (Z.to_nat i) with
          | Some wi, Some ki =>
              let x := fmul (lit j 0) (conv F32 F64 wi) in
              if abs_int32 j <? ki then Got x ws
              else if i =? 0 then norm_from (Tail j) ws
              else norm_from (Strip i x) ws
          | _, _ => Panics
          end
      | Tail j =>
          if Beqb u fone then norm_from (Tail j) ws
          else norm_from (Tail2 j (fmul (fneg (Log m u)) inv_rn)) ws
      | Tail2 j x =>
          if Beqb u fone then norm_from (Tail2 j x) ws
          else let y := fneg (Log m u) in
               if fle (fmul x x) (fadd y y) then Got (if 0 <? j then fadd rn x else fsub (fneg rn) x) ws
               else norm_from (Tail j) ws
      | Strip i x =>
          if Beqb u fone then norm_from (Strip i x) ws
          else match height i u with
               | Some h => if flt h (density x) then Got x ws else norm_from Start ws
               | None => Panics
               end
      end
  end.
Definition norm_float64 (ws : list Z) : draw (val F64) := norm_from Start ws.

(** normal.Normal.Next (normal.go:27-29) *)
Definition normal_next (std mean : val F64) (ws : list Z) : draw (val F64) :=
  map_draw (fun n => fadd (fmul n std) mean) (norm_float64 ws).
End Norm.
