(** * C21 matrix products, C49 element-wise methods and reductions, C17 maxima of a matrix

    [has_elems m r c f]: m is the well-formed r×c matrix of elements [f i j];
    [get zero m i j]: the element (i, j) of m; [sum_to zero add n f]: the sum
    f 0 + ... + f (n-1). *)
From Coq Require Import List Arith Bool Lia ZArith Ring_theory NArithRing InitialRing.
From Verif Require Import DenseModel DenseSpec DenseProofs2 ArithModel ArithSpec ArithProofs.
Import ListNotations.

(** ** C21 *)
(** Over any commutative semiring, for both element types ([wide] selects the
    float64 kernels) and every code path. *)
Theorem C21_mul : forall (T : Type) (zero one : T) add mul is_zero,
  semi_ring_theory zero one add mul eq -> (forall v, is_zero v = true -> v = zero) ->
  forall wide (d o : dense T), wf d -> wf o ->
  (cols d = rows o -> exists m, mat_mul zero one add mul is_zero wide d o = Some m /\
     has_elems m (rows d) (cols o) (fun i k => sum_to zero add (cols d) (fun j => mul (get zero d i j) (get zero o j k)))) /\
  (cols d <> rows o -> mat_mul zero one add mul is_zero wide d o = None).
Proof. exact @mat_mul_spec. Qed.
Print Assumptions C21_mul.

Theorem C21_mul_t : forall (T : Type) (zero one : T) add mul, semi_ring_theory zero one add mul eq ->
  forall (d o : dense T), wf d -> wf o ->
  (rows d = rows o /\ cols o = 1 -> exists m, mat_mul_t zero add mul d o = Some m /\
     has_elems m (cols d) 1 (fun i _ => sum_to zero add (rows d) (fun k => mul (get zero d k i) (get zero o k 0)))) /\
  (~ (rows d = rows o /\ cols o = 1) -> mat_mul_t zero add mul d o = None).
Proof. exact @mat_mul_t_spec. Qed.
Print Assumptions C21_mul_t.

Theorem C21_dot : forall (T : Type) (zero one : T) add mul, semi_ring_theory zero one add mul eq ->
  forall (d o : dense T), wf d -> wf o -> rows d = rows o /\ cols d = cols o ->
  mat_dot zero add mul d o = Some (scalar (sum_to zero add (rows d * cols d) (fun k => mul (nth k (data d) zero) (nth k (data o) zero)))).
Proof. exact @mat_dot_spec. Qed.
Print Assumptions C21_dot.

Example C21_semiring : semi_ring_theory 0%N 1%N N.add N.mul eq.
Proof. exact Nth. Qed.
Example C21_case : wf (mkDense 2 2 [1; 0; 3; 4]%N) /\
  mat_mul 0%N 1%N N.add N.mul (N.eqb 0) true (mkDense 2 2 [1; 0; 3; 4]%N) (mkDense 2 3 [1; 2; 3; 4; 5; 6]%N)
    = Some (mkDense 2 3 [1; 2; 3; 19; 26; 33]%N) /\
  mat_mul 0%N 1%N N.add N.mul (N.eqb 0) true (mkDense 2 2 [1; 0; 3; 4]%N) (mkDense 2 1 [5; 6]%N) = Some (mkDense 2 1 [5; 39]%N) /\
  mat_mul_t 0%N N.add N.mul (mkDense 2 2 [1; 0; 3; 4]%N) (mkDense 2 1 [5; 6]%N) = Some (mkDense 2 1 [23; 24]%N) /\
  mat_mul 0%N 1%N N.add N.mul (N.eqb 0) true (mkDense 2 2 [1; 0; 3; 4]%N) (mkDense 3 1 [5; 6; 7]%N) = None.
Proof. repeat split. Qed.

(** ** C49 *)
(** Add, Sub, Div, Maximum, Minimum ([op] the element operation): new matrix. *)
Theorem C49_binary : forall (T : Type) (zero : T) op (d o : dense T), wf d -> wf o ->
  (rows d = rows o /\ cols d = cols o -> exists m, mat_binary zero op d o = Some m /\
     has_elems m (rows d) (cols d) (fun i j => op (get zero d i j) (get zero o i j))) /\
  (mat_binary zero op d o = None <-> ~ (rows d = rows o /\ cols d = cols o)).
Proof. exact @mat_binary_spec. Qed.
Print Assumptions C49_binary.

(** The in-place versions leave in the receiver what the others return, also
    when the operand is the receiver itself; Prod's downward loop and
    ProdInPlace's upward one agree. *)
Theorem C49_in_place_agrees : forall (T : Type) (zero : T),
  (forall op (d o : dense T), wf d -> wf o -> mat_binary_in_place zero op d o = mat_binary zero op d o) /\
  (forall op (d : dense T), wf d -> Some (mat_binary_self zero op d) = mat_binary zero op d d) /\
  (forall mul (d o : dense T), wf d -> wf o -> mat_prod zero mul d o = mat_binary zero mul d o /\ mat_prod_in_place zero mul d o = mat_binary zero mul d o).
Proof. exact (fun T z => conj (@mat_binary_in_place_agrees T z) (conj (@mat_binary_self_agrees T z) (@mat_prod_agrees T z))). Qed.
Print Assumptions C49_in_place_agrees.

(** AddScalar, ProdScalar and their in-place forms; ProdMatrixScalarInPlace. *)
Theorem C49_scalar : forall (T : Type) (zero : T),
  (forall op (d : dense T) n, wf d ->
     has_elems (mat_const zero op d n) (rows d) (cols d) (fun i j => op (get zero d i j) n) /\ mat_const_in_place zero op d n = mat_const zero op d n) /\
  (forall mul (d m : dense T) n, wf d -> wf m ->
     prod_matrix_scalar_in_place zero mul d m n = if same_dims d m then Some (mat_const zero mul m n) else None).
Proof. exact (fun T z => conj (@mat_const_spec T z) (@prod_matrix_scalar_spec T z)). Qed.
Print Assumptions C49_scalar.

(** Abs, Pow, Sqrt, Exp, Log and the Apply family. *)
Theorem C49_unary : forall (T : Type) (zero : T),
  (forall f (d : dense T), wf d -> has_elems (mat_unary zero f d) (rows d) (cols d) (fun i j => f (get zero d i j))) /\
  (forall (d : dense T) fn, wf d -> is_matrix (apply d fn) (rows d) (cols d) (fun i j => option_map (fn i j) (elem d i j))) /\
  (forall (d : dense T) fn a, wf d -> wf a ->
     apply_in_place d fn a = (if (rows d =? rows a) && (cols d =? cols a) then Some (apply a fn) else None)) /\
  (forall (d : dense T) fn a, wf d -> wf a ->
     apply_alpha_in_place zero d fn a = (if (rows d =? rows a) && (cols d =? cols a) then Some (apply a fn) else None)).
Proof. exact (fun T z => conj (@mat_unary_spec T z) (conj (@apply_spec T) (conj (@apply_in_place_spec T) (@apply_alpha_in_place_spec T z)))). Qed.
Print Assumptions C49_unary.

Theorem C49_clip : forall (T : Type) (zero : T) lt (d : dense T) mn mx, wf d ->
  (lt mx mn = true -> clip_in_place zero lt d mn mx = None) /\
  (lt mx mn = false -> exists m, clip_in_place zero lt d mn mx = Some m /\
     has_elems m (rows d) (cols d) (fun i j => let v := get zero d i j in if lt v mn then mn else if lt mx v then mx else v)).
Proof. exact (fun T z lt d mn mx => clip_spec z lt d mn mx). Qed.
Print Assumptions C49_clip.

Theorem C49_sum_cumsum : forall (T : Type) (zero one : T) add mul, semi_ring_theory zero one add mul eq ->
  (forall d : dense T, mat_sum zero add d = sum_to zero add (length (data d)) (fun k => nth k (data d) zero)) /\
  (forall d : dense T, wf d -> is_vector d = true -> exists m, cum_sum zero add d = Some m /\
     has_elems m (length (data d)) 1 (fun i _ => sum_to zero add (S i) (fun k => nth k (data d) zero))).
Proof. exact (fun T z o a m R => conj (fun d => sum_kernel_spec z o a m R (data d)) (cum_sum_spec z o a m R)). Qed.
Print Assumptions C49_sum_cumsum.

(** DoNonZero and DoVecNonZero call back once per non-zero element, in row-major
    order, with its indices. *)
Theorem C49_non_zero : forall (T : Type) (zero : T) is_zero,
  (forall d : dense T, wf d -> do_non_zero zero is_zero d =
     flat_map (fun i => flat_map (fun j => match elem d i j with Some v => if is_zero v then [] else [(i, j, v)] | None => [] end) (seq 0 (cols d))) (seq 0 (rows d))) /\
  (forall d : dense T, do_vec_non_zero is_zero d =
     if is_vector d then Some (filter (fun p => negb (is_zero (snd p))) (combine (seq 0 (length (data d))) (data d))) else None).
Proof.
  exact (fun T z iz => conj (@do_non_zero_spec T z iz)
    (fun d => match is_vector d as b return (if b then Some (vec_nonzero_loop iz 0 (data d)) else None) =
                 (if b then Some (filter (fun p => negb (iz (snd p))) (combine (seq 0 (length (data d))) (data d))) else None)
              with true => f_equal Some (vec_nonzero_spec iz (data d) 0) | false => eq_refl end)).
Qed.
Print Assumptions C49_non_zero.

Example C49_cases :
  wf (mkDense 2 2 [1; 2; 3; 0]) /\ mat_prod 0 Nat.mul (mkDense 2 2 [1; 2; 3; 4]) (mkDense 2 2 [5; 6; 7; 8]) = Some (mkDense 2 2 [5; 12; 21; 32]) /\
  clip_in_place 0 Nat.ltb (mkDense 2 2 [1; 2; 3; 9]) 2 5 = Some (mkDense 2 2 [2; 2; 3; 5]) /\ clip_in_place 0 Nat.ltb (mkDense 2 2 [1; 2; 3; 9]) 5 2 = None /\
  cum_sum 0 Nat.add (mkDense 3 1 [1; 2; 4]) = Some (mkDense 3 1 [1; 3; 7]) /\
  do_non_zero 0 (Nat.eqb 0) (mkDense 2 2 [1; 0; 3; 0]) = [(0, 0, 1); (1, 0, 3)] /\
  do_vec_non_zero (Nat.eqb 0) (mkDense 3 1 [0; 5; 0]) = Some [(1, 5)].
Proof. repeat split. Qed.

(** ** C17: Max, Min and ArgMax of a matrix, for a strict weak order (Go's [<]
    on floats that are not NaN) *)
Theorem C17_max_min : forall (T : Type) lt, @strict_order T lt -> forall d : dense T,
  (forall m, mat_max lt d = Some m -> In m (data d) /\ forall v, In v (data d) -> lt m v = false) /\
  (forall m, mat_min lt d = Some m -> In m (data d) /\ forall v, In v (data d) -> lt v m = false) /\
  (mat_max lt d = None <-> data d = []) /\ (mat_min lt d = None <-> data d = []).
Proof. exact @max_min_spec. Qed.
Print Assumptions C17_max_min.

(** The first position of the maximum. *)
Theorem C17_arg_max : forall (T : Type) (zero : T) lt, @strict_order T lt -> forall d : dense T, wf d ->
  (arg_max lt d = None <-> is_vector d = false \/ rows d * cols d = 0) /\
  forall r, arg_max lt d = Some r -> r < length (data d) /\
    (forall k, k < length (data d) -> lt (nth r (data d) zero) (nth k (data d) zero) = false) /\
    (forall k, k < r -> lt (nth k (data d) zero) (nth r (data d) zero) = true).
Proof. exact @arg_max_spec. Qed.
Print Assumptions C17_arg_max.

Example C17_case : @strict_order nat Nat.ltb /\ arg_max Nat.ltb (mkDense 4 1 [2; 7; 7; 1]) = Some 1 /\
  mat_max Nat.ltb (mkDense 2 2 [2; 7; 7; 1]) = Some 7 /\ mat_min Nat.ltb (mkDense 2 2 [2; 7; 7; 1]) = Some 1.
Proof.
  split; [|repeat split]. unfold strict_order. repeat split.
  - intros a. apply Nat.ltb_irrefl.
  - intros a b c. rewrite !Nat.ltb_lt. lia.
  - intros a b c. rewrite !Nat.ltb_lt. lia.
Qed.
