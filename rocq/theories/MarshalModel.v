(** * Serialization of matrices (mat/dense_marshaling.go, mat/fbs/dense/*.go)

    Elements are bit patterns, so NaN payloads count.  The flatbuffers package is not part of the repository; it is
    modelled as a table of four optional slots, with vectors as their length and their bytes.  What it does beyond that
    is left out: offsets, alignment and its refusal to grow a buffer beyond two gigabytes.  The machine is
    little-endian, as bytesToSlice requires.  The gradient is an opaque value. *)
From Coq Require Import List ZArith Bool Lia.
From Verif Require Import DenseModel.
Import ListNotations.
Open Scope Z_scope.

(** the element types, their tags (DenseFloatDataBytes.go:5-8) and sizes in bytes *)
Inductive etype := Float32 | Float64.
Definition tag (t : etype) : Z := match t with Float32 => 0 | Float64 => 1 end.
Definition size_of (t : etype) : nat := match t with Float32 => 4 | Float64 => 8 end.

(** Dense (dense.go:21-31) *)
Record mdense (G : Type) := mkM { mtype : etype; mshape : list Z; mdata : list Z; mrequires : bool; mgrad : option G }.
Arguments mkM {G}. Arguments mtype {G}. Arguments mshape {G}. Arguments mdata {G}. Arguments mrequires {G}. Arguments mgrad {G}.

(** the Go conversion int32(v) *)
Definition int32 (v : Z) : Z := (v + 2 ^ 31) mod 2 ^ 32 - 2 ^ 31.
(** little-endian bytes *)
Fixpoint le (n : nat) (v : Z) : list Z := match n with O => [] | S n => v mod 256 :: le n (v / 256) end.
Fixpoint un_le (l : list Z) : Z := match l with [] => 0 | b :: l => b + 256 * un_le l end.

(** a flatbuffers vector and the table of DenseFloat32 / DenseFloat64 (dense.fbs) *)
Record vector := mkV { vlen : nat; vbytes : list Z }.
Record table := mkT { t_dtype : option Z; t_requires : option bool; t_shape : option vector; t_data : option vector }.

(** the loops "for i := len(l) - 1; i >= 0; i--" with PrependInt32, PrependFloat32 or PrependFloat64, and EndVector *)
Definition write_vector (size : nat) (l : list Z) : vector :=
  mkV (length l) (fold_left (fun bytes v => le size (v mod 256 ^ Z.of_nat size) ++ bytes) (rev l) []).
(** PrependInt32Slot, PrependBoolSlot: a value equal to the default is not written *)
Definition int_slot (v default : Z) : option Z := if v =? default then None else Some v.
Definition bool_slot (v default : bool) : option bool := if Bool.eqb v default then None else Some v.

(** marshalBinaryFloat32, marshalBinaryFloat64 (dense_marshaling.go:45-68, 88-111) *)
Definition marshal {G} (d : mdense G) : table :=
  let shape := write_vector 4 (map int32 (mshape d)) in
  let data := write_vector (size_of (mtype d)) (mdata d) in
  mkT (int_slot (tag (mtype d)) 0) (bool_slot (mrequires d) false) (Some shape) (Some data).

(** Dtype, RequiresFrad / RequiresGrad, ShapeLength, Shape, DataLength (DenseFloat32.go:44-109) *)
Definition get_dtype (t : table) : Z := match t_dtype t with Some v => v | None => 0 end.
Definition get_requires (t : table) : bool := match t_requires t with Some v => v | None => false end.
Definition shape_length (t : table) : nat := match t_shape t with Some v => vlen v | None => 0%nat end.
Definition get_shape (t : table) (j : nat) : Z :=
  match t_shape t with Some v => int32 (un_le (slice (vbytes v) (j * 4) (j * 4 + 4))) | None => 0 end.
Definition data_length (t : table) : nat := match t_data t with Some v => vlen v | None => 0%nat end.
(** DataBytes (DenseFloatDataBytes.go:10-26) *)
Definition data_bytes (size : nat) (t : table) : list Z := match t_data t with Some v => slice (vbytes v) 0 (vlen v * size) | None => [] end.
(** bytesToSlice (dense_marshaling.go:131-136): element i is read at byte i * size *)
Definition bytes_to_slice (size : nat) (b : list Z) (n : nat) : list Z :=
  match b with [] => [] | _ => map (fun i => un_le (slice b (i * size) (i * size + size))) (seq 0 n) end.

(** unmarshalBinaryFloat32, unmarshalBinaryFloat64 (dense_marshaling.go:70-86, 113-129), on a receiver d of its own type:
    [None] is the error, which leaves the receiver as it was *)
Definition unmarshal {G} (d : mdense G) (t : table) : option (mdense G) :=
  if negb (get_dtype t =? tag (mtype d)) then None
  else Some (mkM (mtype d) (map (get_shape t) (seq 0 (shape_length t)))
               (bytes_to_slice (size_of (mtype d)) (data_bytes (size_of (mtype d)) t) (data_length t)) (get_requires t) (mgrad d)).
