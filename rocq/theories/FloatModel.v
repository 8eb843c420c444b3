(** * Element types, conversions and comparisons (mat/float/float.go, floatslice.go; parts of mat/dense.go, matrix.go)

    The two element types are Flocq's IEEE 754 binary32 and binary64 formats.  Flocq's type has one NaN: the
    payload of a NaN, which Go does not specify across conversions, is not modelled.  A slice is nil or its
    elements; whether two slices share memory is not part of this model.  A value of another element type
    cannot be built (DType is float32 | float64), so the default branches of the type switches are left out. *)
From Coq Require Import List ZArith Bool.
From Flocq Require Import Core BinarySingleNaN.
From Verif Require Import DenseModel.
Import ListNotations.

(** DType (float/dtype.go) *)
Inductive dtype := F32 | F64.
Definition prec (d : dtype) : Z := match d with F32 => 24 | F64 => 53 end.
Definition emax (d : dtype) : Z := match d with F32 => 128 | F64 => 1024 end.
Definition prec_pos (d : dtype) : Prec_gt_0 (prec d) := match d with F32 => eq_refl | F64 => eq_refl end.
Definition prec_emax (d : dtype) : Prec_lt_emax (prec d) (emax d) := match d with F32 => eq_refl | F64 => eq_refl end.
Definition val (d : dtype) : Type := binary_float (prec d) (emax d).

(** The Go conversion D(v) of a value of type S: to the nearest value, ties to even. *)
Definition conv (S D : dtype) (v : val S) : val D :=
  match v with
  | B754_zero s => B754_zero s
  | B754_infinity s => B754_infinity s
  | B754_nan => B754_nan
  | B754_finite s m e _ => binary_normalize (prec D) (emax D) (prec_pos D) (prec_emax D) mode_NE (SpecFloat.cond_Zopp s (Zpos m)) e s
  end.

(** ** Scalars: Float (float.go) *)
Record scalar_value := mkFloat { fdt : dtype; fval : val fdt }.
(** F32, F64 (float.go:46-54); ValueOf (float.go:29-38) *)
Definition value_of (D : dtype) (f : scalar_value) : val D := conv (fdt f) D (fval f).
(** BitSize (float.go:56-66) *)
Definition bit_size (d : dtype) : nat := match d with F32 => 32 | F64 => 64 end.

(** ** Slices: Slice (floatslice.go) *)
Definition gslice (T : Type) := option (list T).
Definition glen {T} (s : gslice T) : nat := match s with None => 0 | Some l => length l end.
Definition gelems {T} (s : gslice T) : list T := match s with None => [] | Some l => l end.
(** convertFloatSlice (floatslice.go:121-135): a slice of the same type is returned as it is *)
Definition convert_each {S D : dtype} (source : gslice (val S)) : gslice (val D) :=
  match source with None => None | Some l => Some (map (conv S D) l) end.
Definition convert_slice (S D : dtype) : gslice (val S) -> gslice (val D) :=
  match S, D with
  | F32, F32 => fun source => source
  | F64, F64 => fun source => source
  | F32, F64 => convert_each
  | F64, F32 => convert_each
  end.
(** floatSlice: F32, F64, SliceValueOf (floatslice.go:31-53) *)
Record slice_value := mkSlice { sdt : dtype; sval : gslice (val sdt) }.
Definition slice_value_of (D : dtype) (v : slice_value) : gslice (val D) := convert_slice (sdt v) D (sval v).
(** Len (floatslice.go:67-70) *)
Definition slen (v : slice_value) : nat := glen (sval v).

(** Go's == on floats *)
Definition eq_val {d} (x y : val d) : bool := Beqb x y.
(** the loops of Equals and InDelta: they stop at the first element that differs; o[i] is in range after o[len(fs)-1] was read *)
Fixpoint all_pairs {A B} (ok : A -> B -> bool) (l : list A) (o : list B) : bool :=
  match l, o with
  | x :: l, y :: o => if negb (ok x y) then false else all_pairs ok l o
  | _, _ => true
  end.
(** Equals (floatslice.go:72-95) *)
Definition equals (fs other : slice_value) : bool :=
  if negb (slen fs =? slen other)%nat then false
  else if (slen other =? 0)%nat then true
  else all_pairs eq_val (gelems (sval fs)) (gelems (slice_value_of (sdt fs) other)).
(** InDelta (floatslice.go:97-119): math.Abs(float64(v-o[i])) > delta *)
Definition sub_val {d} (x y : val d) : val d := @Bminus (prec d) (emax d) (prec_pos d) (prec_emax d) mode_NE x y.
Definition beyond {d} (delta : val F64) (x y : val d) : bool := Bltb delta (Babs (conv d F64 (sub_val x y))).
Definition in_delta (fs other : slice_value) (delta : val F64) : bool :=
  if negb (slen fs =? slen other)%nat then false
  else if (slen other =? 0)%nat then true
  else all_pairs (fun x y => negb (beyond delta x y)) (gelems (sval fs)) (gelems (slice_value_of (sdt fs) other)).

(** ** Matrices *)
(** a matrix of some element type; its data is never nil *)
Record matrix := mkMatrix { mdt : dtype; mat : dense (val mdt) }.
(** Data (dense.go:62-64) *)
Definition data_slice (m : matrix) : slice_value := mkSlice (mdt m) (Some (data (mat m))).
(** Data[T] (matrix.go:234-239) *)
Definition data_as (D : dtype) (m : matrix) : list (val D) := gelems (slice_value_of D (data_slice m)).
(** SetData (dense.go:66-75): [None] is the panic *)
Definition set_data {d} (m : dense (val d)) (v : slice_value) : option (dense (val d)) :=
  let l := gelems (slice_value_of d v) in
  if negb (length l =? length (data m))%nat then None else Some (mkDense (rows m) (cols m) l).
(** NewDense[T](WithShape(shape), WithBacking(slice)) (dense_new.go:40-132), with a slice of another type *)
Definition new_dense (D : dtype) (v : slice_value) (shape : option (list Z)) : option (dense (val D)) :=
  from_slice (gelems (slice_value_of D v)) shape.
(** ScalarAt, SetScalar, Item (dense.go:96-133) *)
Definition scalar_at {d} (m : dense (val d)) (idx : list Z) : option scalar_value :=
  match at_ m idx with Some v => Some (mkFloat d v) | None => None end.
Definition set_scalar {d} (m : dense (val d)) (v : scalar_value) (idx : list Z) : option (dense (val d)) := set_ m (value_of d v) idx.
(** Equal, InDelta (matrix.go:323-333), areSlicesEqual on the shapes *)
Definition same_shape_b (a b : matrix) : bool := (rows (mat a) =? rows (mat b))%nat && (cols (mat a) =? cols (mat b))%nat.
Definition mat_equal (a b : matrix) : bool := same_shape_b a b && equals (data_slice a) (data_slice b).
Definition mat_in_delta (a b : matrix) (delta : val F64) : bool := same_shape_b a b && in_delta (data_slice a) (data_slice b) delta.
