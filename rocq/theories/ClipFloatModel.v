(** * Gradient clipping in floating point (package gradclipper)

    The clippers of OptModel.v again, over the IEEE binary32 and binary64 formats, with every rounding, overflow, signed zero, infinity
    and NaN.  Definitions only.  A gradient is the list of its elements; every parameter has one (what happens without one is in
    OptModel.v), and all have the same type.  math.Pow is a parameter (a [libm]), and so is the sum of the elements of a matrix,
    with the number of the call, as in NormFloatModel.v.  [None] is a panic. *)
From Coq Require Import List ZArith Bool.
From Flocq Require Import Core BinarySingleNaN.
From Verif Require Import FloatModel NumModel.
Import ListNotations.

Section Clip.
Variable m : libm.
Variable d : dtype.
Notation vec := (list (val d)).
Variable sum : nat -> vec -> val d.
Notation at_type := (conv F64 d).
Notation up := (conv d F64).

(** ** ValueClipper *)
(** ClipInPlace, one element (dense.go:831-840) *)
Definition clip_elem (lo hi x : val d) : val d := if flt x lo then lo else if flt hi x then hi else x.
(** ClipInPlace (dense.go:822-842) *)
Definition clip_in_place (lo hi : val F64) (x : vec) : option vec :=
  if flt hi lo then None else Some (map (clip_elem (at_type lo) (at_type hi)) x).
(** ValueClipper.ClipGrads (gradclipper/clipper.go:27-31) *)
Fixpoint value_clip (v : val F64) (gs : list vec) : option (list vec) :=
  match gs with
  | [] => Some []
  | g :: gs' => match clip_in_place (fneg v) v g, value_clip v gs' with
                | Some g', Some l => Some (g' :: l)
                | _, _ => None
                end
  end.

(** ** NormClipper *)
(** Abs (dense.go:899-912, mathfunctions.go:62-64), Pow (dense.go:916-929) *)
Definition abs_elem (x : val d) : val d := at_type (fabs (up x)).
Definition pow_elem (p : val F64) (x : val d) : val d := at_type (Pow m (up x) p).
(** max (dense.go:1033-1044): it panics on an empty matrix *)
Definition max_elem (x : vec) : option (val d) :=
  match x with
  | [] => None
  | a :: l => Some (fold_left (fun mx v => if flt mx v then v else mx) l a)
  end.
(** calculateTotalNorm (clipper.go:47-61), for +Inf: math.Max(g.Abs().Max(), totalNorm) for each gradient *)
Fixpoint max_loop (t : val F64) (gs : list vec) : option (val F64) :=
  match gs with
  | [] => Some t
  | g :: gs' => match max_elem (map abs_elem g) with
                | None => None
                | Some v => max_loop (go_max (up v) t) gs'
                end
  end.
(** and for another norm type: the sum of the powers, of type float64, gradient by gradient *)
Fixpoint sum_loop (k : nat) (p s : val F64) (gs : list vec) : val F64 :=
  match gs with
  | [] => s
  | g :: gs' => sum_loop (S k) p (fadd s (up (sum k (map (pow_elem p) (map abs_elem g))))) gs'
  end.
Definition total_norm (p : val F64) (gs : list vec) : option (val F64) :=
  match p with
  | B754_infinity false => max_loop fzero gs
  | _ => Some (Pow m (sum_loop 0 p fzero gs) (fdiv fone p))
  end.
(** 1e-7 is 7555786372591432 * 2^-76 (clipper.go:70) *)
Definition small : val F64 := lit 7555786372591432 (-76).
Definition coefficient (max_norm t : val F64) : val F64 := fdiv max_norm (fadd t small).
(** ProdScalarInPlace (dense.go:606-618) *)
Definition scale_elem (c : val F64) (x : val d) : val d := fmul x (at_type c).
(** NormClipper.ClipGradients (clipper.go:65-76), validateNormType (40-44) *)
Definition norm_clip (max_norm p : val F64) (gs : list vec) : option (list vec) :=
  if fle p fone then None
  else match total_norm p gs with
       | None => None
       | Some t => let c := coefficient max_norm t in
                   if flt c fone then Some (map (map (scale_elem c)) gs) else Some gs
       end.
End Clip.
