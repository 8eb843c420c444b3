(** * C09-C13, C16, C17, C48: the differentiable functions

    GradSpec says what [correct], [elementwise], [hands_one_each], [right_shapes]
    and [gives] mean.  Every theorem holds for every choice [req] of the operands
    that require gradients, unless it says otherwise, and for both element types
    ([wide] selects the float64 product kernels). *)
From Coq Require Import Reals List Arith Bool ZArith Lia Lra.
From Coquelicot Require Import Coquelicot.
From Verif Require Import DenseModel DenseSpec ArithModel ArithSpec GradModel GradSpec GradLemmas GradProofs GradProofs2 GradProofs4 GradProofs5 GradGelu GradProofs6 GradProofs7 GradProofs8 GradProofs9 GradProofs10 GradProofs11 GradProofs12 GradProofs13 OpsModel OpsSpec OpsProofs4.
Import ListNotations.
Open Scope R_scope.

(** ** C11 Products and sums: what Forward computes, and Backward is its adjoint *)
Theorem C11_values : forall x1 x2 s r c, fits x1 r c -> fits x2 r c -> fits s 1 1 ->
  gives add_fn [x1; x2] r c (fun i j => rget x1 i j + rget x2 i j) /\
  gives sub_fn [x1; x2] r c (fun i j => rget x1 i j - rget x2 i j) /\
  gives prod_fn [x1; x2] r c (fun i j => rget x1 i j * rget x2 i j) /\
  gives div_fn [x1; x2] r c (fun i j => rget x1 i j / rget x2 i j) /\
  gives dot_fn [x1; x2] 1 1 (fun _ _ => Rsum r (fun i => Rsum c (fun j => rget x1 i j * rget x2 i j))) /\
  gives add_scalar_fn [x1; s] r c (fun i j => rget x1 i j + rget s 0 0) /\
  gives sub_scalar_fn [x1; s] r c (fun i j => rget x1 i j - rget s 0 0) /\
  gives reverse_sub_fn [x1; s] r c (fun i j => rget s 0 0 - rget x1 i j) /\
  gives prod_scalar_fn [x1; s] r c (fun i j => rget x1 i j * rget s 0 0) /\
  gives div_scalar_fn [x1; s] r c (fun i j => rget x1 i j / rget s 0 0).
Proof.
  exact (fun x1 x2 s r c H1 H2 Hs => conj (add_gives _ _ r c H1 H2) (conj (sub_gives _ _ r c H1 H2) (conj (prod_gives _ _ r c H1 H2) (conj (div_gives _ _ r c H1 H2)
    (conj (dot_gives _ _ r c H1 H2) (conj (add_scalar_gives _ s r c H1 Hs) (conj (sub_scalar_gives _ s r c H1 Hs) (conj (reverse_sub_gives _ s r c H1 Hs)
    (conj (prod_scalar_gives _ s r c H1 Hs) (div_scalar_gives _ s r c H1 Hs)))))))))).
Qed.
Print Assumptions C11_values.

Theorem C11_product_values : forall wide,
  (forall w x r n c, fits w r n -> fits x n c -> gives (mul_fn wide) [w; x] r c (fun i k => Rsum n (fun j => rget w i j * rget x j k))) /\
  (forall x1 x2 r c, fits x1 r c -> fits x2 r 1 -> gives (mul_t_fn wide) [x1; x2] c 1 (fun i _ => Rsum r (fun k => rget x1 k i * rget x2 k 0))) /\
  (forall b wx, wf b -> wx <> [] -> matched (rows b) (cols b) wx -> gives (affine_fn wide) (b :: wx) (rows b) (cols b) (fun i k => rget b i k + psum wx i k)).
Proof. exact (fun wide => conj (mul_gives wide) (conj (mul_t_gives wide) (affine_gives wide))). Qed.
Print Assumptions C11_product_values.

Theorem C11_add : forall req x1 x2, wf x1 -> wf x2 -> same_shape x1 x2 -> correct add_fn req [x1; x2].
Proof. exact add_correct. Qed.
Print Assumptions C11_add.
Theorem C11_sub : forall req x1 x2, wf x1 -> wf x2 -> same_shape x1 x2 -> correct sub_fn req [x1; x2].
Proof. exact sub_correct. Qed.
Print Assumptions C11_sub.
Theorem C11_prod : forall req x1 x2, wf x1 -> wf x2 -> same_shape x1 x2 -> correct prod_fn req [x1; x2].
Proof. exact prod_correct. Qed.
Print Assumptions C11_prod.
Theorem C11_div : forall req x1 x2, wf x1 -> wf x2 -> same_shape x1 x2 ->
  (forall i j, (i < rows x2)%nat -> (j < cols x2)%nat -> rget x2 i j <> 0) -> correct div_fn req [x1; x2].
Proof. exact (fun req x1 x2 H1 H2 S => proj2 (div_setup req x1 x2 H1 H2 S)). Qed.
Print Assumptions C11_div.
Theorem C11_scalar_operand : forall req x s, wf x -> fits s 1 1 ->
  correct add_scalar_fn req [x; s] /\ correct sub_scalar_fn req [x; s] /\ correct reverse_sub_fn req [x; s] /\
  correct prod_scalar_fn req [x; s] /\ (rget s 0 0 <> 0 -> correct div_scalar_fn req [x; s]).
Proof.
  exact (fun req x s H Hs => conj (add_scalar_correct req x s H Hs) (conj (sub_scalar_correct req x s H Hs) (conj (reverse_sub_correct req x s H Hs)
    (conj (prod_scalar_correct req x s H Hs) (proj2 (div_scalar_setup req x s H Hs)))))).
Qed.
Print Assumptions C11_scalar_operand.
Theorem C11_mul : forall wide req w x, wf w -> wf x -> cols w = rows x -> correct (mul_fn wide) req [w; x].
Proof. exact mul_correct. Qed.
Print Assumptions C11_mul.
Theorem C11_mul_t : forall wide req x1 x2, wf x1 -> wf x2 -> rows x1 = rows x2 -> cols x2 = 1%nat -> correct (mul_t_fn wide) req [x1; x2].
Proof. exact mul_t_correct. Qed.
Print Assumptions C11_mul_t.
Theorem C11_dot : forall req x1 x2, wf x1 -> wf x2 -> same_shape x1 x2 -> correct dot_fn req [x1; x2].
Proof. exact dot_correct. Qed.
Print Assumptions C11_dot.
Theorem C11_affine : forall wide req b wx, wf b -> wx <> [] -> matched (rows b) (cols b) wx -> correct (affine_fn wide) req (b :: wx).
Proof. exact affine_correct. Qed.
Print Assumptions C11_affine.

Example C11_operands : exists w x b : mat, wf w /\ wf x /\ wf b /\ cols w = rows x /\ rows w = 2%nat /\ cols w = 3%nat /\
  matched (rows b) (cols b) [w; x; w; x] /\ rget w 1 2 <> 0.
Proof.
  exists (mkDense 2 3 [1; 2; 3; 4; 5; 6]), (mkDense 3 1 [1; 0; -1]), (mkDense 2 1 [7; 8]). repeat split. cbn. lra.
Qed.
(** The gradients of a product on particular matrices, computed. *)
Example C11_case : forall gy, wf gy -> rows gy = 2%nat -> cols gy = 1%nat ->
  exists calls, bwd (mul_fn true) [mkDense 2 3 [1; 2; 3; 4; 5; 6]; mkDense 3 1 [1; 0; -1]] (fun k => k =? 1)%nat gy = Some calls /\
    map fst calls = [1%nat].
Proof.
  intros gy W Hr Hc. destruct (mul_correct true (fun k => k =? 1)%nat (mkDense 2 3 [1; 2; 3; 4; 5; 6]) (mkDense 3 1 [1; 0; -1]) eq_refl eq_refl eq_refl) as (_ & (y & Hy & H) & _).
  destruct (mul_gives true (mkDense 2 3 [1; 2; 3; 4; 5; 6]) (mkDense 3 1 [1; 0; -1]) 2 3 1) as (y' & Hy' & (W' & Hr' & Hc' & _)); [repeat split|repeat split|].
  rewrite Hy in Hy'. injection Hy' as <-. destruct (H gy W) as (calls & Hc2 & Hn); [split; congruence|]. exists calls. split; [exact Hc2|].
  pose proof (Hn 0%nat) as H0. pose proof (Hn 1%nat) as H1. cbn in H0, H1.
  destruct (map fst calls) as [|a l] eqn:E; [discriminate|]. destruct l as [|b l].
  - cbn in H1. destruct (Nat.eq_dec a 1); [now subst|discriminate].
  - exfalso. assert (Ha : In a (map fst calls)) by (rewrite E; now left). assert (Hb : In b (map fst calls)) by (rewrite E; right; now left).
    rewrite <- E in *. assert (A1 : forall n, In n (map fst calls) -> n = 1%nat).
    { intros n Hin. apply (count_occ_In Nat.eq_dec) in Hin. rewrite Hn in Hin. cbn [length] in Hin. destruct n as [|[|n]]; cbn in Hin; auto; try lia. }
    apply A1 in Ha, Hb. subst. rewrite E in H1. cbn in H1. lia.
Qed.

(** ** C12 Rearrangements *)
Theorem C12_values : forall x, wf x ->
  fwd copy_fn [x] = Some x /\
  gives transpose_fn [x] (cols x) (rows x) (fun i j => rget x j i) /\
  fwd flatten_fn [x] = Some (mkDense 1 (rows x * cols x) (data x)) /\
  (forall r c, (0 <= r)%Z -> (0 <= c)%Z -> (r * c)%Z = Z.of_nat (rows x * cols x) ->
     fwd (reshape_fn r c) [x] = Some (mkDense (Z.to_nat r) (Z.to_nat c) (data x))) /\
  (forall fr fc tr tc, (0 <= fr < Z.of_nat (rows x))%Z -> (0 <= fc < Z.of_nat (cols x))%Z ->
     (fr <= tr <= Z.of_nat (rows x))%Z -> (fc <= tc <= Z.of_nat (cols x))%Z ->
     gives (slice_fn fr fc tr tc) [x] (Z.to_nat (tr - fr)) (Z.to_nat (tc - fc)) (fun i j => rget x (Z.to_nat fr + i) (Z.to_nat fc + j))) /\
  (forall i, (0 <= i < Z.of_nat (rows x))%Z -> gives (row_view_fn i) [x] 1 (cols x) (fun _ j => rget x (Z.to_nat i) j)) /\
  (forall j, (0 <= j < Z.of_nat (cols x))%Z -> gives (col_view_fn j) [x] (rows x) 1 (fun i _ => rget x i (Z.to_nat j))) /\
  (forall i j, (0 <= i < Z.of_nat (rows x))%Z -> (0 <= j < Z.of_nat (cols x))%Z ->
     fwd (at_fn [i; j]) [x] = Some (scalar (rget x (Z.to_nat i) (Z.to_nat j)))) /\
  (forall i, is_vector x = true -> (0 <= i < Z.of_nat (rows x * cols x))%Z -> fwd (at_fn [i]) [x] = Some (scalar (nth (Z.to_nat i) (data x) 0))) /\
  (forall k, cols x = 1%nat -> (0 < k < Z.of_nat (rows x))%Z ->
     exists y, fwd (rotate_fn k) [x] = Some y /\ fits y (rows x) 1 /\
       data y = skipn (rows x - Z.to_nat k) (data x) ++ firstn (rows x - Z.to_nat k) (data x)).
Proof.
  exact (fun x W => conj (copy_gives x) (conj (transpose_gives x _ _ (fits_wf x W)) (conj (flatten_gives x W) (conj (fun r c => reshape_gives x r c W)
    (conj (fun fr fc tr tc => slice_gives x fr fc tr tc W) (conj (fun i => row_view_gives x i W) (conj (fun j => col_view_gives x j W)
    (conj (fun i j => at2_gives x i j W) (conj (fun i => at1_gives x i W) (fun k => rotate_gives x k W)))))))))).
Qed.
Print Assumptions C12_values.
Theorem C12_join_values :
  (forall xs, xs <> [] -> forallb is_vector xs = true ->
     exists y, fwd concat_fn xs = Some y /\ wf y /\ cols y = 1%nat /\ data y = concat (map data xs)) /\
  (forall xs c, xs <> [] -> vectors_of c xs ->
     gives stack_fn xs (length xs) c (fun i j => nth j (data (nth i xs (mkDense 0 0 []))) 0)) /\
  (forall x vs, wf x -> vectors_of (cols x) vs ->
     gives append_rows_fn (x :: vs) (rows x + length vs) (cols x)
       (fun i j => if (i <? rows x)%nat then rget x i j else nth j (data (nth (i - rows x) vs (mkDense 0 0 []))) 0)).
Proof. exact (conj concat_gives (conj stack_gives append_rows_gives)). Qed.
Print Assumptions C12_join_values.

Theorem C12_views : forall req x, wf x ->
  correct transpose_fn req [x] /\ correct flatten_fn req [x] /\ (req 0%nat = true -> correct copy_fn req [x]) /\
  (forall r c, (0 <= r)%Z -> (0 <= c)%Z -> (r * c)%Z = Z.of_nat (rows x * cols x) -> correct (reshape_fn r c) req [x]) /\
  (forall i, (0 <= i < Z.of_nat (rows x))%Z -> correct (row_view_fn i) req [x]) /\
  (forall j, (0 <= j < Z.of_nat (cols x))%Z -> correct (col_view_fn j) req [x]) /\
  (forall i j, (0 <= i < Z.of_nat (rows x))%Z -> (0 <= j < Z.of_nat (cols x))%Z -> correct (at_fn [i; j]) req [x]) /\
  (forall i, is_vector x = true -> (0 <= i < Z.of_nat (rows x * cols x))%Z -> correct (at_fn [i]) req [x]).
Proof.
  exact (fun req x W => conj (transpose_correct req x W) (conj (flatten_correct req x W) (conj (copy_correct req x W) (conj (fun r c => reshape_correct req x r c W)
    (conj (fun i => row_view_correct req x i W) (conj (fun j => col_view_correct req x j W) (conj (fun i j => at2_correct req x i j W) (fun i => at1_correct req x i W)))))))).
Qed.
Print Assumptions C12_views.
Theorem C12_slice : forall req x fr fc tr tc, wf x -> (0 <= fr < Z.of_nat (rows x))%Z -> (0 <= fc < Z.of_nat (cols x))%Z ->
  (fr <= tr <= Z.of_nat (rows x))%Z -> (fc <= tc <= Z.of_nat (cols x))%Z -> correct (slice_fn fr fc tr tc) req [x].
Proof. exact slice_correct. Qed.
Print Assumptions C12_slice.
Theorem C12_rotate : forall req x k, wf x -> cols x = 1%nat -> (0 < k < Z.of_nat (rows x))%Z -> correct (rotate_fn k) req [x].
Proof. exact rotate_correct. Qed.
Print Assumptions C12_rotate.
Theorem C12_concat : forall req xs, xs <> [] -> List.Forall (fun x => wf x /\ cols x = 1%nat) xs -> correct concat_fn req xs.
Proof. exact concat_correct. Qed.
Print Assumptions C12_concat.
Theorem C12_stack : forall req xs c, xs <> [] -> vectors_of c xs -> correct stack_fn req xs.
Proof. exact stack_correct. Qed.
Print Assumptions C12_stack.
Theorem C12_append_rows : forall req x vs, wf x -> (0 < rows x)%nat -> (0 < cols x)%nat ->
  List.Forall (fun v => wf v /\ rows v = 1%nat /\ cols v = cols x) vs -> correct append_rows_fn req (x :: vs).
Proof. exact append_rows_correct. Qed.
Print Assumptions C12_append_rows.
Theorem C12_reduce : forall req x, wf x -> cols x = 1%nat -> correct reduce_sum_fn req [x] /\ correct reduce_mean_fn req [x].
Proof. exact (fun req x W H => conj (reduce_sum_correct req x W H) (reduce_mean_correct req x W H)). Qed.
Print Assumptions C12_reduce.

(** RotateR by 0 panics, and by the size of the vector its Backward panics. *)
Theorem C12_rotate_refuted : forall req x, wf x -> cols x = 1%nat -> (0 < rows x)%nat -> req 0%nat = true ->
  fwd (rotate_fn 0) [x] = None /\
  (exists y, fwd (rotate_fn (Z.of_nat (rows x))) [x] = Some y) /\
  forall gy, wf gy -> same_shape gy x -> bwd (rotate_fn (Z.of_nat (rows x))) [x] req gy = None.
Proof. exact rotate_edges. Qed.
Print Assumptions C12_rotate_refuted.

Example C12_cases :
  let x := mkDense 2 3 [1; 2; 3; 4; 5; 6] in let v := mkDense 3 1 [7; 8; 9] in
  fwd (slice_fn 0 1 2 3) [x] = Some (mkDense 2 2 [2; 3; 5; 6]) /\ fwd (rotate_fn 1) [v] = Some (mkDense 3 1 [9; 7; 8]) /\
  bwd (slice_fn 0 1 2 3) [x] (fun _ => true) (mkDense 2 2 [10; 20; 30; 40]) = Some [(0%nat, mkDense 2 3 [0; 10; 20; 0; 30; 40])] /\
  bwd (rotate_fn 1) [v] (fun _ => true) (mkDense 3 1 [10; 20; 30]) = Some [(0%nat, mkDense 3 1 [20; 30; 10])] /\
  bwd concat_fn [mkDense 2 1 [1; 2]; v] (fun k => (k =? 1)%nat) (mkDense 5 1 [10; 20; 30; 40; 50]) = Some [(1%nat, mkDense 3 1 [30; 40; 50])] /\
  vectors_of 3 [mkDense 1 3 [1; 2; 3]; v].
Proof. repeat split; repeat constructor. Qed.

(** ** C10 Element-wise functions *)
Theorem C10_unary : forall req x, wf x ->
  elementwise tan_fn tan (fun v => cos v <> 0) req x [] /\
  elementwise tanh_fn tanh anywhere req x [] /\
  elementwise sigmoid_fn (fun v => 1 / (1 + exp (- v))) anywhere req x [] /\
  elementwise hard_sigmoid_fn (fun v => Rmax 0 (Rmin 1 (0.2 * v + 0.5))) anywhere req x [] /\
  elementwise hard_tanh_fn (fun v => Rmax (-1) (Rmin 1 v)) anywhere req x [] /\
  elementwise relu_fn (fun v => Rmax 0 v) anywhere req x [] /\
  elementwise softsign_fn (fun v => v / (1 + Rabs v)) anywhere req x [] /\
  elementwise swish_fn (fun v => v / (1 + exp (- v))) anywhere req x [] /\
  elementwise mish_fn (fun v => v * tanh (ln (1 + exp v))) anywhere req x [] /\
  elementwise exp_fn exp anywhere req x [] /\
  elementwise cos_fn cos anywhere req x [] /\
  elementwise sin_fn sin anywhere req x [] /\
  elementwise neg_fn (fun v => - v) anywhere req x [] /\
  elementwise reciprocal_fn (fun v => 1 / v) (fun v => v <> 0) req x [] /\
  elementwise abs_fn Rabs anywhere req x [] /\
  elementwise sqrt_fn sqrt (fun v => 0 < v) req x [] /\
  (forall p, elementwise (pow_fn p) (fun v => Rpower v p) (fun v => 0 < v) req x []) /\
  (forall z, elementwise (pow_fn (IZR z)) (fun v => powerRZ v z) (fun v => v <> 0 \/ (0 <= z)%Z) req x []) /\
  ((forall v, In v (data x) -> 0 <= v) -> elementwise log_fn ln (fun v => 0 < v) req x []).
Proof.
  exact (fun req x W => conj (tan_elementwise req x W) (conj (tanh_elementwise req x W) (conj (sigmoid_elementwise req x W) (conj (hard_sigmoid_elementwise req x W)
    (conj (hard_tanh_elementwise req x W) (conj (relu_elementwise req x W) (conj (softsign_elementwise req x W) (conj (swish_elementwise req x W)
    (conj (mish_elementwise req x W) (conj (exp_elementwise req x W) (conj (cos_elementwise req x W) (conj (sin_elementwise req x W)
    (conj (neg_elementwise req x W) (conj (reciprocal_elementwise req x W) (conj (abs_elementwise req x W) (conj (sqrt_elementwise req x W)
    (conj (fun p => pow_pos_elementwise p req x W) (conj (fun z => pow_int_elementwise z req x W) (log_elementwise req x W))))))))))))))))))).
Qed.
Print Assumptions C10_unary.

(** With parameters, given by scalar operands a, b. *)
Theorem C10_parametric : forall req x a b, wf x -> fits a 1 1 -> fits b 1 1 -> let p := rget a 0 0 in let q := rget b 0 0 in
  (p <> 0 -> elementwise celu_fn (fun v => if Rle_dec v 0 then p * (exp (v / p) - 1) else v) anywhere req x [a]) /\
  elementwise elu_fn (fun v => if Rle_dec v 0 then p * (exp v - 1) else v) anywhere req x [a] /\
  elementwise leaky_relu_fn (fun v => if Rle_dec v 0 then p * v else v) anywhere req x [a] /\
  (p <> 0 -> elementwise soft_shrink_fn (fun v => if Rlt_dec v (- p) then v + p else if Rlt_dec p v then v - p else 0) anywhere req x [a]) /\
  elementwise selu_fn (fun v => q * (if Rle_dec v 0 then p * (exp v - 1) else v)) anywhere req x [a; b] /\
  (p <> 0 -> elementwise soft_plus_fn (fun v => if Rle_dec v q then ln (1 + exp (p * v)) / p else v) anywhere req x [a; b]) /\
  elementwise threshold_fn (fun v => if Rle_dec v p then q else v) anywhere req x [a; b] /\
  (req 1%nat = false -> elementwise swish_b_fn (fun v => v / (1 + exp (- p * v))) anywhere req x [a]).
Proof.
  exact (fun req x a b W A B => conj (celu_elementwise req x a W A) (conj (elu_elementwise req x a W A) (conj (leaky_relu_elementwise req x a W A)
    (conj (soft_shrink_elementwise req x a W A) (conj (selu_elementwise req x a b W A B) (conj (soft_plus_elementwise req x a b W A B)
    (conj (threshold_elementwise req x a b W A B) (swish_b_elementwise req x a W A)))))))).
Qed.
Print Assumptions C10_parametric.

(** SwishB also serves its parameter, for vectors; for other shapes its Backward panics. *)
Theorem C10_swish_b : forall req x b, wf x -> fits b 1 1 ->
  (is_vector x = true -> correct swish_b_fn req [x; b]) /\
  (forall gy, is_vector gy = false -> data x <> [] -> req 1%nat = true -> bwd swish_b_fn [x; b] req gy = None).
Proof. exact (fun req x b W B => conj (swish_b_correct req x b W B) (fun gy H N R => swish_b_matrix req x b gy H B N R)). Qed.
Print Assumptions C10_swish_b.

(** Wherever the entries are inside the domain and the function is differentiable,
    an element-wise function is the adjoint of its derivative. *)
Theorem C10_adjoint : forall f phi (on : R -> Prop) req x (ps : list mat), wf x -> List.Forall wf ps -> (forall k, (1 <= k <= length ps)%nat -> req k = false) ->
  (forall x', wf x' -> same_shape x' x -> (forall i j, (i < rows x)%nat -> (j < cols x)%nat -> on (rget x' i j)) -> elementwise f phi on req x' ps) ->
  (forall i j, (i < rows x)%nat -> (j < cols x)%nat -> locally (rget x i j) on /\ ex_derive phi (rget x i j)) -> correct f req (x :: ps).
Proof. exact elementwise_correct. Qed.
Print Assumptions C10_adjoint.

(** GELU's derivative uses rounded constants: it is not the derivative of the
    function it computes, but close to it. *)
Theorem C10_gelu_partial : forall req x, wf x ->
  (exists y, fwd gelu_fn [x] = Some y /\ elems y (rows x) (cols x) (fun i j => let v := rget x i j in 0.5 * v * (1 + tanh (sqrt (2 / PI) * (v + 0.044715 * v ^ 3))))) /\
  forall gy, wf gy -> same_shape gy x -> exists g, bwd gelu_fn [x] req gy = Some (if req 0%nat then [(0%nat, g)] else []) /\ wf g /\ same_shape g x /\
    forall i j, (i < rows x)%nat -> (j < cols x)%nat ->
      let v := rget x i j in
      Rabs (rget g i j - rget gy i j * Derive (fun v => 0.5 * v * (1 + tanh (sqrt (2 / PI) * (v + 0.044715 * v ^ 3)))) v)
        <= Rabs (rget gy i j) * (1e-6 * (Rabs v + Rabs v ^ 3) * (1 + Rabs v + Rabs v ^ 3)).
Proof. exact gelu_values. Qed.
Print Assumptions C10_gelu_partial.
Theorem C10_gelu_refuted : ~ forall x req, wf x ->
  elementwise gelu_fn (fun v => 0.5 * v * (1 + tanh (sqrt (2 / PI) * (v + 0.044715 * v ^ 3)))) anywhere req x [].
Proof. exact gelu_wrong. Qed.
Print Assumptions C10_gelu_refuted.
(** The logarithm's Backward panics if an entry is negative. *)
Theorem C10_log_negative : forall req x gy, wf x -> wf gy -> same_shape gy x -> req 0%nat = true ->
  (exists v, In v (data x) /\ v < 0) -> bwd log_fn [x] req gy = None.
Proof. exact log_negative. Qed.
Print Assumptions C10_log_negative.

(** The hypotheses of C10_adjoint hold, for instance, for ReLU away from 0. *)
Example C10_relu_adjoint : correct relu_fn (fun _ => true) [mkDense 2 2 [1; -2; 3; -4]].
Proof.
  apply (C10_adjoint relu_fn (fun v => Rmax 0 v) anywhere); [reflexivity|constructor|cbn; lia| |].
  - intros x' W _ _. now apply C10_unary.
  - intros i j Hi Hj. split; [now apply filter_forall|]. cbn in Hi, Hj.
    assert (H : rget (mkDense 2 2 [1; -2; 3; -4]) i j <> 0) by (destruct i as [|[|]], j as [|[|]]; cbn; try lra; lia).
    destruct (Rlt_dec 0 (rget (mkDense 2 2 [1; -2; 3; -4]) i j)) as [Hp|Hp].
    + apply (ex_derive_ext_loc (fun v => v)); [|apply ex_derive_id]. apply (filter_imp (fun v => 0 < v)); [intros v Hv; rewrite Rmax_right; lra|]. now apply (open_gt 0).
    + apply (ex_derive_ext_loc (fun _ => 0)); [|apply ex_derive_const]. apply (filter_imp (fun v => v < 0)); [intros v Hv; rewrite Rmax_left; lra|]. apply (open_lt 0). lra.
Qed.

(** ** C13 Softmax *)
Theorem C13_softmax : forall wide x, vector x -> exists y, fwd (softmax_fn wide) [x] = Some y /\ fits y (size x) 1 /\
  (forall i, (i < size x)%nat -> entry y i = exp (entry x i) / Rsum (size x) (fun j => exp (entry x j))) /\
  (forall i, (i < size x)%nat -> 0 < entry y i) /\ Rsum (size x) (entry y) = 1 /\
  (forall i j, (i < size x)%nat -> (j < size x)%nat -> entry y i < entry y j <-> entry x i < entry x j).
Proof.
  intros wide x (W & V & P). destruct (softmax_facts x W) as (y & E & Hr & Hc & H1 & H2 & H3 & H4); [|exact P|].
  - unfold is_vector. destruct V as [-> | ->]; cbn; auto using orb_true_r.
  - destruct (softmax_value x W) as (y' & E' & Ey); [unfold is_vector; destruct V as [-> | ->]; cbn; auto using orb_true_r|exact P|].
    rewrite E in E'. injection E' as <-. exists y. split; [exact E|]. split; [exact (elems_fits _ _ _ _ Ey)|]. repeat split; auto; apply H4; auto.
Qed.
Print Assumptions C13_softmax.
Theorem C13_shift : forall wide x x' c, vector x -> wf x' -> same_shape x' x ->
  (forall i, (i < size x)%nat -> entry x' i = entry x i + c) -> fwd (softmax_fn wide) [x'] = fwd (softmax_fn wide) [x].
Proof.
  intros wide x x' c (W & V & P) W' S H. apply (softmax_shift x x' c); auto. unfold is_vector. destruct V as [-> | ->]; cbn; auto using orb_true_r.
Qed.
Print Assumptions C13_shift.
(** Backward, for a column vector. *)
Theorem C13_gradient_column : forall wide req x, wf x -> cols x = 1%nat -> (0 < rows x)%nat -> correct (softmax_fn wide) req [x].
Proof. exact softmax_correct. Qed.
Print Assumptions C13_gradient_column.
(** For every vector Forward and Backward are those of the column of its entries, which Forward makes of the operand (C22_softmax_refuted), and they are right there. *)
Theorem C13_gradient : forall wide req x, vector x -> forall xc, xc = mkDense (size x) 1 (data x) ->
  fwd (softmax_fn wide) [x] = fwd (softmax_fn wide) [xc] /\
  (forall gy, bwd (softmax_fn wide) [x] req gy = bwd (softmax_fn wide) [xc] req gy) /\
  correct (softmax_fn wide) req [xc].
Proof. intros wide req x (W & V & P) xc ->. apply softmax_row; auto. unfold is_vector. destruct V as [-> | ->]; cbn; auto using orb_true_r. Qed.
Print Assumptions C13_gradient.
Example C13_case : vector (mkDense 3 1 [1; -2; 500]) /\ vector (mkDense 1 2 [0; 0]).
Proof. split; (split; [reflexivity|split; [cbn; auto|cbn; lia]]). Qed.

(** ** C17 Maxima (the maxima of a matrix itself are in PropsArith) *)
Theorem C17_max_min : forall x1 x2 r c, fits x1 r c -> fits x2 r c ->
  gives max_fn [x1; x2] r c (fun i j => Rmax (rget x1 i j) (rget x2 i j)) /\ gives min_fn [x1; x2] r c (fun i j => Rmin (rget x1 i j) (rget x2 i j)).
Proof. exact (fun x1 x2 r c H1 H2 => conj (max_value x1 x2 r c H1 H2) (min_value x1 x2 r c H1 H2)). Qed.
Print Assumptions C17_max_min.
(** ... and they are differentiated correctly where the operands differ, for column vectors. *)
Theorem C17_max_min_gradient : forall req x1 x2, wf x1 -> wf x2 -> same_shape x1 x2 -> cols x1 = 1%nat ->
  (forall i j, (i < rows x1)%nat -> (j < cols x1)%nat -> rget x1 i j <> rget x2 i j) -> correct max_fn req [x1; x2] /\ correct min_fn req [x1; x2].
Proof. exact (fun req x1 x2 H1 H2 S C D => conj (proj2 (max_setup req x1 x2 H1 H2 S C) D) (proj2 (min_setup req x1 x2 H1 H2 S C) D)). Qed.
Print Assumptions C17_max_min_gradient.
Theorem C17_reduce_max : forall x, vector x -> exists k, (k < size x)%nat /\ fwd reduce_max_fn [x] = Some (scalar (entry x k)) /\
  forall i, (i < size x)%nat -> entry x i <= entry x k.
Proof.
  intros x (W & V & P). apply (reduce_max_value x W); [unfold is_vector; destruct V as [-> | ->]; cbn; auto using orb_true_r|]. unfold wf in W. rewrite <- W. exact P.
Qed.
Print Assumptions C17_reduce_max.
Theorem C17_reduce_max_gradient : forall req x k, wf x -> is_vector x = true -> (k < length (data x))%nat ->
  (forall i, (i < length (data x))%nat -> i <> k -> nth i (data x) 0 < nth k (data x) 0) -> correct reduce_max_fn req [x].
Proof. exact reduce_max_correct. Qed.
Print Assumptions C17_reduce_max_gradient.
(** ScalarMax is the largest operand if one of them is positive. *)
Theorem C17_scalar_max_partial : forall xs, List.Forall (fun x => fits x 1 1) xs -> (exists x, In x xs /\ 0 < rget x 0 0) ->
  exists y, fwd scalar_max_fn xs = Some y /\ In y xs /\ List.Forall (fun x => rget x 0 0 <= rget y 0 0) xs.
Proof. exact scalar_max_value. Qed.
Print Assumptions C17_scalar_max_partial.
(** If none is, the running maximum, which starts at 0, is never exceeded and the first operand is returned. *)
Theorem C17_scalar_max_refuted :
  (forall xs, xs <> [] -> List.Forall (fun x => fits x 1 1 /\ rget x 0 0 <= 0) xs -> fwd scalar_max_fn xs = nth_error xs 0) /\
  fwd scalar_max_fn [scalar (-2); scalar (-1)] = Some (scalar (-2)).
Proof.
  split; [exact scalar_max_value_first|]. rewrite scalar_max_value_first; [reflexivity|discriminate|]. repeat constructor; cbn; lra.
Qed.
Print Assumptions C17_scalar_max_refuted.
Example C17_cases : vector (mkDense 1 3 [-3; -1; -2]) /\ (exists x, In x [scalar (-2); scalar 1] /\ 0 < rget x 0 0).
Proof. split; [split; [reflexivity|split; [cbn; auto|cbn; lia]]|]. exists (scalar 1). split; [cbn; auto|cbn; lra]. Qed.

(** ** C09 One gradient for each operand that requires one *)
Theorem C09_products : forall wide req,
  (forall x1 x2, wf x1 -> wf x2 -> same_shape x1 x2 -> hands_one_each add_fn req [x1; x2] /\ hands_one_each sub_fn req [x1; x2] /\
     hands_one_each prod_fn req [x1; x2] /\ hands_one_each div_fn req [x1; x2] /\ hands_one_each dot_fn req [x1; x2]) /\
  (forall x s, wf x -> fits s 1 1 -> hands_one_each add_scalar_fn req [x; s] /\ hands_one_each sub_scalar_fn req [x; s] /\
     hands_one_each reverse_sub_fn req [x; s] /\ hands_one_each prod_scalar_fn req [x; s] /\ hands_one_each div_scalar_fn req [x; s]) /\
  (forall w x, wf w -> wf x -> cols w = rows x -> hands_one_each (mul_fn wide) req [w; x]) /\
  (forall x1 x2, wf x1 -> wf x2 -> rows x1 = rows x2 -> cols x2 = 1%nat -> hands_one_each (mul_t_fn wide) req [x1; x2]) /\
  (forall b wx, wf b -> wx <> [] -> matched (rows b) (cols b) wx -> hands_one_each (affine_fn wide) req (b :: wx)).
Proof.
  intros wide req.
  assert (P : forall f xs, correct f req xs -> hands_one_each f req xs) by (intros f xs H; apply H).
  split; [|split; [|split; [|split]]].
  - intros x1 x2 H H0 H1. pose proof (div_setup req x1 x2 H H0 H1) as ((D & _) & _).
    split; [|split; [|split; [|split]]]; auto using add_correct, sub_correct, prod_correct, dot_correct.
  - intros x s H H0. pose proof (div_scalar_setup req x s H H0) as ((D & _) & _). split; [|split; [|split; [|split]]]; auto using add_scalar_correct, sub_scalar_correct, reverse_sub_correct, prod_scalar_correct.
  - auto using mul_correct.
  - auto using mul_t_correct.
  - auto using affine_correct.
Qed.
Print Assumptions C09_products.
Theorem C09_rearrangements : forall req x, wf x ->
  hands_one_each transpose_fn req [x] /\ hands_one_each flatten_fn req [x] /\
  (forall r c, (0 <= r)%Z -> (0 <= c)%Z -> (r * c)%Z = Z.of_nat (rows x * cols x) -> hands_one_each (reshape_fn r c) req [x]) /\
  (forall i, (0 <= i < Z.of_nat (rows x))%Z -> hands_one_each (row_view_fn i) req [x]) /\
  (forall j, (0 <= j < Z.of_nat (cols x))%Z -> hands_one_each (col_view_fn j) req [x]) /\
  (forall i j, (0 <= i < Z.of_nat (rows x))%Z -> (0 <= j < Z.of_nat (cols x))%Z -> hands_one_each (at_fn [i; j]) req [x]) /\
  (forall fr fc tr tc, (0 <= fr < Z.of_nat (rows x))%Z -> (0 <= fc < Z.of_nat (cols x))%Z ->
     (fr <= tr <= Z.of_nat (rows x))%Z -> (fc <= tc <= Z.of_nat (cols x))%Z -> hands_one_each (slice_fn fr fc tr tc) req [x]) /\
  (forall vs, vs <> [] -> List.Forall (fun v => wf v /\ cols v = 1%nat) vs -> hands_one_each concat_fn req vs) /\
  (forall vs c, vs <> [] -> vectors_of c vs -> hands_one_each stack_fn req vs).
Proof.
  intros req x W. pose proof (C12_views req x W) as (A1 & A2 & _ & A3 & A4 & A5 & A6 & _).
  split; [apply A1|]. split; [apply A2|]. split; [intros; now apply A3|]. split; [intros; now apply A4|]. split; [intros; now apply A5|]. split; [intros; now apply A6|].
  split; [intros; now apply slice_correct|]. split; [intros; now apply concat_correct|]. intros vs c Hn Hv. now apply (stack_correct req vs c).
Qed.
Print Assumptions C09_rearrangements.
Theorem C09_others : forall wide req x, fits x (rows x) 1 -> (0 < rows x)%nat ->
  hands_one_each (softmax_fn wide) req [x] /\ hands_one_each reduce_sum_fn req [x] /\ hands_one_each reduce_mean_fn req [x] /\
  (forall k, (0 < k < Z.of_nat (rows x))%Z -> hands_one_each (rotate_fn k) req [x]) /\
  (forall p draw, wf draw -> same_shape x draw -> hands_one_each (dropout_fn p draw) req [x]) /\
  (forall x2, wf x2 -> same_shape x x2 -> hands_one_each max_fn req [x; x2] /\ hands_one_each min_fn req [x; x2]) /\
  (forall b, fits b 1 1 -> hands_one_each swish_b_fn req [x; b]).
Proof.
  intros wide req x (W & _ & C) P0. assert (P : forall f xs, correct f req xs -> hands_one_each f req xs) by (intros f xs H; apply H).
  split; [now apply P, softmax_correct|]. split; [now apply P, reduce_sum_correct|]. split; [now apply P, reduce_mean_correct|].
  split; [intros; now apply P, rotate_correct|]. split; [intros; now apply P, dropout_correct|].
  split; [intros x2 W2 S2; pose proof (max_setup req x x2 W W2 S2 C) as ((M1 & M2) & _); pose proof (min_setup req x x2 W W2 S2 C) as ((M3 & M4) & _); now split|].
  intros b Hb. apply P, swish_b_correct; auto. unfold is_vector. rewrite C. apply orb_true_r.
Qed.
Print Assumptions C09_others.
(** An element-wise function serves its first operand, whatever its other operands. *)
Theorem C09_elementwise : forall f phi on req x ps, elementwise f phi on req x ps -> (forall k, (1 <= k <= length ps)%nat -> req k = false) ->
  hands_one_each f req (x :: ps) /\ right_shapes f req (x :: ps).
Proof. exact elementwise_serves. Qed.
Print Assumptions C09_elementwise.
(** The parameters of CELU, ELU, LeakyReLU, SoftShrink, SELU, SoftPlus and Threshold are
    listed as operands but never get a gradient. *)
Theorem C09_parameters_refuted : forall req x a b,
  (req 1%nat = true -> ~ hands_one_each celu_fn req [x; a] /\ ~ hands_one_each elu_fn req [x; a] /\
     ~ hands_one_each leaky_relu_fn req [x; a] /\ ~ hands_one_each soft_shrink_fn req [x; a]) /\
  (req 1%nat = true \/ req 2%nat = true -> ~ hands_one_each selu_fn req [x; a; b] /\
     ~ hands_one_each soft_plus_fn req [x; a; b] /\ ~ hands_one_each threshold_fn req [x; a; b]).
Proof.
  intros req x a b. split.
  - intros H. repeat split; now apply unary1_starves.
  - intros [H|H]; repeat split; [apply (unary2_starves _ _ _ _ _ _ 1)| | |apply (unary2_starves _ _ _ _ _ _ 2)| |]; auto;
      first [apply (unary2_starves _ _ _ _ _ _ 1); auto; fail | apply (unary2_starves _ _ _ _ _ _ 2); auto].
Qed.
Print Assumptions C09_parameters_refuted.
(** ScalarMax serves only the operand it picks. *)
Theorem C09_scalar_max_refuted : forall req xs k j, (k < length xs)%nat -> List.Forall (fun x => fits x 1 1) xs ->
  0 < rget (nth k xs (mkDense 0 0 [])) 0 0 ->
  (forall i, (i < length xs)%nat -> i <> k -> rget (nth i xs (mkDense 0 0 [])) 0 0 < rget (nth k xs (mkDense 0 0 [])) 0 0) ->
  (j < length xs)%nat -> j <> k -> req j = true -> ~ hands_one_each scalar_max_fn req xs.
Proof. exact scalar_max_starves. Qed.
Print Assumptions C09_scalar_max_refuted.
(** Copy serves its operand even if it does not require gradients. *)
Theorem C09_copy_refuted : forall req x, wf x -> req 0%nat = false -> ~ hands_one_each copy_fn req [x].
Proof. exact copy_ignores. Qed.
Print Assumptions C09_copy_refuted.

(** ** C16 The shapes of gradients *)
Theorem C16_products : forall wide req,
  (forall x1 x2, wf x1 -> wf x2 -> same_shape x1 x2 -> right_shapes add_fn req [x1; x2] /\ right_shapes sub_fn req [x1; x2] /\
     right_shapes prod_fn req [x1; x2] /\ right_shapes div_fn req [x1; x2] /\ right_shapes dot_fn req [x1; x2]) /\
  (forall x s, wf x -> fits s 1 1 -> right_shapes add_scalar_fn req [x; s] /\ right_shapes sub_scalar_fn req [x; s] /\
     right_shapes reverse_sub_fn req [x; s] /\ right_shapes prod_scalar_fn req [x; s] /\ right_shapes div_scalar_fn req [x; s]) /\
  (forall w x, wf w -> wf x -> cols w = rows x -> right_shapes (mul_fn wide) req [w; x]) /\
  (forall x1 x2, wf x1 -> wf x2 -> rows x1 = rows x2 -> cols x2 = 1%nat -> right_shapes (mul_t_fn wide) req [x1; x2]) /\
  (forall b wx, wf b -> wx <> [] -> matched (rows b) (cols b) wx -> right_shapes (affine_fn wide) req (b :: wx)).
Proof.
  intros wide req. 
  assert (P : forall f xs, correct f req xs -> right_shapes f req xs) by (intros f xs H; apply H).
  split; [|split; [|split; [|split]]].
  - intros x1 x2 H H0 H1. pose proof (div_setup req x1 x2 H H0 H1) as ((_ & D) & _).
    split; [|split; [|split; [|split]]]; auto using add_correct, sub_correct, prod_correct, dot_correct.
  - intros x s H H0. pose proof (div_scalar_setup req x s H H0) as ((_ & D) & _). split; [|split; [|split; [|split]]]; auto using add_scalar_correct, sub_scalar_correct, reverse_sub_correct, prod_scalar_correct.
  - auto using mul_correct.
  - auto using mul_t_correct.
  - auto using affine_correct.
Qed.
Print Assumptions C16_products.
Theorem C16_rearrangements : forall req x, wf x ->
  right_shapes transpose_fn req [x] /\ right_shapes flatten_fn req [x] /\
  (forall r c, (0 <= r)%Z -> (0 <= c)%Z -> (r * c)%Z = Z.of_nat (rows x * cols x) -> right_shapes (reshape_fn r c) req [x]) /\
  (forall i, (0 <= i < Z.of_nat (rows x))%Z -> right_shapes (row_view_fn i) req [x]) /\
  (forall j, (0 <= j < Z.of_nat (cols x))%Z -> right_shapes (col_view_fn j) req [x]) /\
  (forall i j, (0 <= i < Z.of_nat (rows x))%Z -> (0 <= j < Z.of_nat (cols x))%Z -> right_shapes (at_fn [i; j]) req [x]) /\
  (forall fr fc tr tc, (0 <= fr < Z.of_nat (rows x))%Z -> (0 <= fc < Z.of_nat (cols x))%Z ->
     (fr <= tr <= Z.of_nat (rows x))%Z -> (fc <= tc <= Z.of_nat (cols x))%Z -> right_shapes (slice_fn fr fc tr tc) req [x]) /\
  (forall vs, vs <> [] -> List.Forall (fun v => wf v /\ cols v = 1%nat) vs -> right_shapes concat_fn req vs) /\
  (forall vs c, vs <> [] -> vectors_of c vs -> right_shapes stack_fn req vs).
Proof.
  intros req x W. pose proof (C12_views req x W) as (A1 & A2 & _ & A3 & A4 & A5 & A6 & _).
  split; [apply A1|]. split; [apply A2|]. split; [intros; now apply A3|]. split; [intros; now apply A4|]. split; [intros; now apply A5|]. split; [intros; now apply A6|].
  split; [intros; now apply slice_correct|]. split; [intros; now apply concat_correct|]. intros vs c Hn Hv. now apply (stack_correct req vs c).
Qed.
Print Assumptions C16_rearrangements.
Theorem C16_others : forall wide req x, fits x (rows x) 1 -> (0 < rows x)%nat ->
  right_shapes (softmax_fn wide) req [x] /\ right_shapes reduce_sum_fn req [x] /\ right_shapes reduce_mean_fn req [x] /\
  (forall k, (0 < k < Z.of_nat (rows x))%Z -> right_shapes (rotate_fn k) req [x]) /\
  (forall p draw, wf draw -> same_shape x draw -> right_shapes (dropout_fn p draw) req [x]) /\
  (forall x2, wf x2 -> same_shape x x2 -> right_shapes max_fn req [x; x2] /\ right_shapes min_fn req [x; x2]) /\
  (forall b, fits b 1 1 -> right_shapes swish_b_fn req [x; b]).
Proof.
  intros wide req x (W & _ & C) P0. assert (P : forall f xs, correct f req xs -> right_shapes f req xs) by (intros f xs H; apply H).
  split; [now apply P, softmax_correct|]. split; [now apply P, reduce_sum_correct|]. split; [now apply P, reduce_mean_correct|].
  split; [intros; now apply P, rotate_correct|]. split; [intros; now apply P, dropout_correct|].
  split; [intros x2 W2 S2; pose proof (max_setup req x x2 W W2 S2 C) as ((M1 & M2) & _); pose proof (min_setup req x x2 W W2 S2 C) as ((M3 & M4) & _); now split|].
  intros b Hb. apply P, swish_b_correct; auto. unfold is_vector. rewrite C. apply orb_true_r.
Qed.
Print Assumptions C16_others.
(** ReduceSum and ReduceMean give a column vector to an operand that is not one;
    so do Max and Min, and Concat for row vectors; AppendRows gives a row vector to
    a column vector. *)
Theorem C16_reduce_refuted : forall req x, wf x -> cols x <> 1%nat -> req 0%nat = true ->
  ~ right_shapes reduce_sum_fn req [x] /\ ~ right_shapes reduce_mean_fn req [x].
Proof. exact reduce_shape_wrong. Qed.
Print Assumptions C16_reduce_refuted.
Theorem C16_max_min_refuted : forall req x1 x2 r c, fits x1 r c -> fits x2 r c -> c <> 1%nat -> req 0%nat = true ->
  ~ right_shapes max_fn req [x1; x2] /\ ~ right_shapes min_fn req [x1; x2].
Proof. exact (fun req x1 x2 r c H1 H2 Hc Hr => conj (extremum_shape_wrong _ _ _ req x1 x2 r c eq_refl H1 H2 Hc Hr) (extremum_shape_wrong _ _ _ req x1 x2 r c eq_refl H1 H2 Hc Hr)). Qed.
Print Assumptions C16_max_min_refuted.
Theorem C16_concat_refuted : forall req xs k x, forallb is_vector xs = true -> nth_error xs k = Some x -> req k = true -> cols x <> 1%nat ->
  ~ right_shapes concat_fn req xs.
Proof. exact concat_shape_wrong. Qed.
Print Assumptions C16_concat_refuted.
Theorem C16_append_rows_refuted : forall req x vs k v, wf x -> (0 < rows x)%nat -> (0 < cols x)%nat ->
  List.Forall (fun v => wf v /\ is_vector v = true /\ length (data v) = cols x) vs ->
  nth_error vs k = Some v -> req (S k) = true -> rows v <> 1%nat -> ~ right_shapes append_rows_fn req (x :: vs).
Proof. exact append_shape_wrong. Qed.
Print Assumptions C16_append_rows_refuted.
Example C16_row_vector : ~ right_shapes reduce_sum_fn (fun _ => true) [mkDense 1 2 [1; 2]] /\ ~ right_shapes concat_fn (fun _ => true) [mkDense 1 2 [1; 2]].
Proof.
  split; [apply (C16_reduce_refuted (fun _ => true) (mkDense 1 2 [1; 2])); [reflexivity|cbn; lia|reflexivity]|].
  apply (C16_concat_refuted _ _ 0 (mkDense 1 2 [1; 2])); try reflexivity. cbn. lia.
Qed.

(** ** C48 Dropout: whatever numbers in [0,1) the generator draws *)
Theorem C48_dropout : forall p u x, wf x -> (forall k, 0 <= u k < 1) -> 0 <= p < 1 ->
  exists y, ag_dropout p u x = Some y /\ entries y x (fun k => if Rlt_dec (u k) p then 0 else entry x k / (1 - p)).
Proof. exact (fun p u x W U P => ag_dropout_value p u x W U (conj (proj1 P) (Rlt_le _ _ (proj2 P)))). Qed.
Print Assumptions C48_dropout.
Theorem C48_zero_is_identity : forall u x, ag_dropout 0 u x = Some x.
Proof. intros u x. unfold ag_dropout. destruct (Req_EM_T 0 0); [reflexivity|lra]. Qed.
Print Assumptions C48_zero_is_identity.
(** Backward uses the same mask: it is the adjoint of multiplying by it. *)
Theorem C48_backward : forall p draw req x, wf x -> wf draw -> same_shape x draw -> correct (dropout_fn p draw) req [x].
Proof. exact dropout_correct. Qed.
Print Assumptions C48_backward.
Example C48_case : forall k, 0 <= (fun k : nat => if (k =? 0)%nat then 0.25 else 0.75) k < 1.
Proof. intros k. cbn. destruct (k =? 0)%nat; lra. Qed.
