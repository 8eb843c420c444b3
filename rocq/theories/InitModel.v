(** * Initializers and random masks

    Model of initializers/initializers.go, mat/rand/uniform/uniform.go, mat/rand/normal/normal.go and
    mat/rand/bernulli/bernulli.go.  The source is a list of words, as in RandModel.v.  The values are real numbers with every
    IEEE-754 rounding of the code written out, as in RandFloatModel.v; overflow to infinity, which needs a gain or bounds near
    the largest float64, is not modelled, nor is the fused multiply-add that Go may use on processors other than amd64.
    NormFloat64 is a parameter (its model is in GaussModel.v). *)
From Coq Require Import List ZArith Reals Bool.
From Verif Require Import DenseModel RandModel RandFloatModel FloatModel ActModel.
Import ListNotations.
Open Scope R_scope.

(** the conversion of a float64 to the element type, in SetScalar and SetAt (dense.go:108-110, 120-122, float.go:29-38) *)
Definition to_elem (d : dtype) (x : R) : R := match d with F32 => round32 x | F64 => round64 x end.

Definition bind_draw {A B} (x : draw A) (f : A -> list Z -> draw B) : draw B :=
  match x with Got v ws => f v ws | Panics => Panics | Exhausted => Exhausted end.

(** uniform.New, Next (uniform.go:20-32) *)
Definition uniform_value (lo hi u : R) : R := round64 (round64 (u * round64 (hi - lo)) + lo).
Definition uniform_next (lo hi : R) (ws : list Z) : draw R := map_draw (uniform_value lo hi) (float64 ws).
(** normal.New, Next (normal.go:17-29) *)
Definition normal_value (std mean n : R) : R := round64 (round64 (n * std) + mean).

(** for i := 0; i < rows; i++ { for j := 0; j < cols; j++ { m.SetScalar(next(), i, j) } } *)
Fixpoint fill_cols (next : list Z -> draw R) (m : dense R) (i j fuel : nat) (ws : list Z) : draw (dense R) :=
  match fuel with
  | O => Got m ws
  | S fuel => bind_draw (next ws) (fun v ws =>
      match set_ m v [Z.of_nat i; Z.of_nat j] with Some m => fill_cols next m i (S j) fuel ws | None => Panics end)
  end.
Fixpoint fill_rows (next : list Z -> draw R) (m : dense R) (i fuel : nat) (ws : list Z) : draw (dense R) :=
  match fuel with
  | O => Got m ws
  | S fuel => bind_draw (fill_cols next m i 0 (cols m) ws) (fun m ws => fill_rows next m (S i) fuel ws)
  end.
Definition fill (next : list Z -> draw R) (m : dense R) (ws : list Z) : draw (dense R) := fill_rows next m 0 (rows m) ws.

(** Gain (initializers.go:22-33); 5.0/3 is a constant, rounded once *)
Definition gain_of (f : activation) : R :=
  if (f =? Sigmoid)%Z then 1 else if (f =? ReLU)%Z then round64 (sqrt 2) else if (f =? Tanh)%Z then round64 (5 / 3) else 1.

Section Init.
Variable d : dtype.
(** Uniform (initializers.go:38-46) *)
Definition init_uniform (m : dense R) (lo hi : R) (ws : list Z) : draw (dense R) :=
  fill (fun ws => map_draw (to_elem d) (uniform_next lo hi ws)) m ws.
(** Normal (initializers.go:52-60) *)
Definition init_normal (norm : list Z -> draw R) (m : dense R) (mean std : R) (ws : list Z) : draw (dense R) :=
  fill (fun ws => map_draw (fun n => to_elem d (normal_value std mean n)) (norm ws)) m ws.
(** Constant (initializers.go:65-73): m.NewScalar(n) has m's element type, as SetAt needs; no word is drawn *)
Definition init_constant (m : dense R) (n : R) : draw (dense R) := fill (fun ws => Got (to_elem d n) ws) m [].
(** Ones, Zeros (initializers.go:78-89); Dense.Zeros (dense.go:103-108) *)
Definition init_ones (m : dense R) : draw (dense R) := init_constant m 1.
Definition init_zeros (m : dense R) : dense R := mkDense (rows m) (cols m) (map (fun _ => 0) (data m)).
(** XavierUniform (initializers.go:95-106) *)
Definition xavier_bound (gain : R) (r c : nat) : R := round64 (gain * round64 (sqrt (round64 (6 / round64 (IZR (Z.of_nat (r + c))))))).
Definition xavier_uniform (m : dense R) (gain : R) (ws : list Z) : draw (dense R) :=
  let a := xavier_bound gain (rows m) (cols m) in init_uniform m (- a) a ws.
(** XavierNormal (initializers.go:114-125) *)
Definition xavier_std (gain : R) (r c : nat) : R := round64 (gain * round64 (sqrt (round64 (2 / round64 (IZR (Z.of_nat (r + c))))))).
Definition xavier_normal (norm : list Z -> draw R) (m : dense R) (gain : R) (ws : list Z) : draw (dense R) :=
  init_normal norm m 0 (xavier_std gain (rows m) (cols m)) ws.
(** Achlioptas (initializers.go:133-158) *)
Definition coin (r : R) : R :=
  let lower := round64 (1 / 6) in let upper := round64 (1 - lower) in let sqrt3 := round64 (sqrt 3) in
  if Rlt_dec r lower then to_elem d (- sqrt3) else if Rlt_dec upper r then to_elem d sqrt3 else to_elem d 0.
Definition achlioptas (m : dense R) (ws : list Z) : draw (dense R) := fill (fun ws => map_draw coin (uniform_next 0 1 ws)) m ws.

(** bernulli.Distribution[T] (bernulli.go:17-33) *)
Definition mask_value (prob u : R) : R :=
  let v := to_elem d u in let fl := IZR (Int_part v) in if Rlt_dec v prob then to_elem d fl else to_elem d (fl + 1).
Definition distribution (r c : nat) (prob : R) (ws : list Z) : draw (dense R) :=
  fill (fun ws => map_draw (mask_value prob) (uniform_next 0 1 ws)) (mkDense r c (repeat 0 (r * c))) ws.
End Init.
