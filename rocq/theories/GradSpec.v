(** * What it means for a backward function to be right *)
From Coq Require Import Reals List Arith Bool.
From Coquelicot Require Import Coquelicot.
From Verif Require Import DenseModel DenseSpec ArithSpec GradModel.
Import ListNotations.
Open Scope R_scope.

(** The sum f 0 + ... + f (n-1), and the element (i, j). *)
Definition Rsum (n : nat) (f : nat -> R) : R := sum_to 0 Rplus n f.
Definition rget (m : mat) (i j : nat) : R := get 0 m i j.

Definition same_shape (a b : mat) : Prop := rows a = rows b /\ cols a = cols b.

(** m is the r×c matrix of elements f i j *)
Definition elems (m : mat) (r c : nat) (f : nat -> nat -> R) : Prop :=
  wf m /\ rows m = r /\ cols m = c /\ forall i j, (i < r)%nat -> (j < c)%nat -> rget m i j = f i j.

(** The inner product of two matrices of the same shape. *)
Definition inner (a b : mat) : R := Rsum (rows a) (fun i => Rsum (cols a) (fun j => rget a i j * rget b i j)).

(** The matrix X t, of constant shape, moves with velocity V at time 0. *)
Definition moves (X : R -> mat) (V : mat) : Prop :=
  wf V /\ (forall t, wf (X t) /\ same_shape (X t) V) /\
  forall i j, (i < rows V)%nat -> (j < cols V)%nat -> is_derive (fun t => rget (X t) i j) 0 (rget V i j).

Definition at_time (Xs : list (R -> mat)) (t : R) : list mat := map (fun X => X t) Xs.

(** The inner product of the gradients handed out with the velocities of the
    operands they are handed to. *)
Definition work (calls : list (nat * mat)) (Vs : list mat) : R :=
  fold_right (fun p s => inner (snd p) (nth (fst p) Vs (mkDense 0 0 [])) + s) 0 calls.

(** Backward is only called if an operand requires gradients. *)
Definition some_required (req : nat -> bool) (n : nat) : Prop := exists k, (k < n)%nat /\ req k = true.

(** Backward is the adjoint of the derivative of Forward at [xs]: however the
    operands that require gradients move (the others standing still), Forward's
    result (at all times near 0) moves with a velocity dY, and for every gradient gy of its shape the
    gradients handed out do the work of gy on dY. *)
Definition adjoint (f : gfun) (req : nat -> bool) (xs : list mat) : Prop :=
  forall Xs Vs, Forall2 moves Xs Vs -> at_time Xs 0 = xs ->
  (forall k X, nth_error Xs k = Some X -> req k = false -> forall t, X t = X 0) ->
  exists Y dY, locally 0 (fun t => fwd f (at_time Xs t) = Some (Y t)) /\ moves Y dY /\
    forall gy, wf gy -> same_shape gy dY ->
      exists calls, bwd f xs req gy = Some calls /\ work calls Vs = inner gy dY.

(** Backward succeeds on every gradient of the result's shape; each operand that
    requires gradients is handed exactly one, the others none. *)
Definition hands_one_each (f : gfun) (req : nat -> bool) (xs : list mat) : Prop :=
  exists y, fwd f xs = Some y /\
  forall gy, wf gy -> same_shape gy y -> exists calls, bwd f xs req gy = Some calls /\
    forall k, count_occ Nat.eq_dec (map fst calls) k = if (k <? length xs)%nat && req k then 1%nat else 0%nat.

(** Every gradient handed out has the shape of the operand it is handed to. *)
Definition right_shapes (f : gfun) (req : nat -> bool) (xs : list mat) : Prop :=
  forall y, fwd f xs = Some y -> forall gy, wf gy -> same_shape gy y ->
  forall calls k g, bwd f xs req gy = Some calls -> In (k, g) calls ->
    wf g /\ exists x, nth_error xs k = Some x /\ same_shape g x.

Definition correct (f : gfun) (req : nat -> bool) (xs : list mat) : Prop :=
  adjoint f req xs /\ hands_one_each f req xs /\ right_shapes f req xs.

(** An element-wise function of its first operand: Forward maps every entry by
    [phi]; Backward hands operand 0, if it requires gradients, one gradient of its
    shape, and nothing to the others; every entry of it is the entry of the
    received gradient times the derivative of [phi], wherever [phi] is
    differentiable.  [on] excludes entries where the float64 result is not a
    number or infinite. *)
Definition elementwise (f : gfun) (phi : R -> R) (on : R -> Prop) (req : nat -> bool) (x : mat) (params : list mat) : Prop :=
  (exists y, fwd f (x :: params) = Some y /\ wf y /\ same_shape y x /\
    forall i j, (i < rows x)%nat -> (j < cols x)%nat -> on (rget x i j) -> rget y i j = phi (rget x i j)) /\
  forall gy, wf gy -> same_shape gy x -> exists g,
    bwd f (x :: params) req gy = Some (if req 0%nat then [(0%nat, g)] else []) /\
    wf g /\ same_shape g x /\
    forall i j, (i < rows x)%nat -> (j < cols x)%nat -> on (rget x i j) -> ex_derive phi (rget x i j) ->
      rget g i j = rget gy i j * Derive phi (rget x i j).

(** m is a well-formed r×c matrix *)
Definition fits (m : mat) (r c : nat) : Prop := wf m /\ rows m = r /\ cols m = c.
(** no restriction on the entries *)
Definition anywhere (v : R) : Prop := True.
(** the pairs w, x of Affine: w times x is an r×c matrix *)
Fixpoint matched (r c : nat) (wx : list mat) : Prop :=
  match wx with
  | [] => True
  | w :: x :: wx => wf w /\ wf x /\ rows w = r /\ cols w = rows x /\ cols x = c /\ matched r c wx
  | [_] => False
  end.
(** vectors, rows or columns, of c elements *)
Definition vectors_of (c : nat) (xs : list mat) : Prop := List.Forall (fun v => wf v /\ is_vector v = true /\ length (data v) = c) xs.
(** Forward succeeds, with the r×c matrix of elements h i j. *)
Definition gives (f : gfun) (xs : list mat) (r c : nat) (h : nat -> nat -> R) : Prop :=
  exists y, fwd f xs = Some y /\ elems y r c h.
(** the element (i, k) of w1 x1 + w2 x2 + ... *)
Fixpoint psum (wx : list mat) (i k : nat) : R :=
  match wx with w :: x :: wx => Rsum (cols w) (fun j => rget w i j * rget x j k) + psum wx i k | _ => 0 end.
