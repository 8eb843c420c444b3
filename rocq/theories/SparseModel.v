(** * SparseMax and SparseMaxLoss (mat/gradfn/sparsemax.go, sparsemax_loss.go) *)
From Coq Require Import Reals List Arith Bool ZArith.
From Verif Require Import DenseModel ArithModel GradModel OpsModel.
Import ListNotations.
Open Scope R_scope.

(** sort.Slice with > (sparsemax.go:76-78).  The library sorts by another method; the
    result is the same, for a list has only one rearrangement in descending order. *)
Fixpoint insert_desc (v : R) (l : list R) : list R :=
  match l with [] => [v] | w :: l => if Rltb v w then w :: insert_desc v l else v :: w :: l end.
Definition sort_desc (l : list R) : list R := fold_right insert_desc [] l.

(** sparseMaxCommon (sparsemax.go:70-103): the sorted values, their running sums, the bounds and tau *)
Record common := mkCommon { sm_zs : list R; sm_sums : list R; sm_bounds : list R; sm_tau : R }.
Definition sparse_common (v : mat) : option common :=
  let zs := sort_desc (data v) in
  let bounds := map (fun i => 1 + INR (i + 1) * nth i zs 0) (seq 0 (length zs)) in
  do cs <- cum_sum 0 Rplus (mkDense (length zs) 1 zs);
  let sums := data cs in
  let '(k, tau) := fold_left (fun '(k, tau) i =>
    if Rltb (nth i sums 0) (nth i bounds 0)
    then ((if (k <? Z.of_nat i + 1)%Z then (Z.of_nat i + 1)%Z else k), tau + nth i zs 0)
    else (k, tau)) (seq 0 (length zs)) ((-1)%Z, 0) in
  Some (mkCommon zs sums bounds ((tau - 1) / IZR k)).

(** SparseMax.Forward (sparsemax.go:33-46) *)
Definition m_sparse_max (x : mat) : option mat :=
  do xMax <- mat_max Rltb x;
  let v := m_subs x xMax in
  do c <- sparse_common v;
  clip_in_place 0 Rltb (sub_scalar_in_place 0 Rplus Ropp v (sm_tau c)) 0 xMax.
(** SparseMax.Backward (sparsemax.go:49-68); ScalarAt is [at_], SetScalar [set_] *)
Definition sparse_max_fn : gfun := mkG
  (un m_sparse_max)
  (un_b (fun x req gy =>
     when (req 0%nat) 0
       (do y <- m_sparse_max x;
        do nz <- do_vec_non_zero Ris0 y;
        do s <- fold_opt (fun '(sum, count) p => do g <- at_ gy [Z.of_nat (fst p)]; Some (sum + g, count + 1)) nz (0, 0);
        let nzSum := fst s / snd s in
        fold_opt (fun gx p => do g <- at_ gy [Z.of_nat (fst p)]; set_ gx (g - nzSum) [Z.of_nat (fst p)]) nz (m_zeros_like x)))).

(** SparseMaxLoss (sparsemax_loss.go:33-54, 57-70) *)
Definition sparse_max_loss_fn : gfun := mkG
  (un (fun x =>
     let v := clone x in
     do c <- sparse_common v;
     let t2 := sm_tau c * sm_tau c in
     let reg := fold_left (fun reg i =>
       if Rltb (nth i (sm_sums c) 0) (nth i (sm_bounds c) 0) then reg + (nth i (sm_zs c) 0 * nth i (sm_zs c) 0 - t2) else reg)
       (seq 0 (length (sm_zs c))) 0 in
     Some (sub_scalar_in_place 0 Rplus Ropp v (reg * (1 / 2) + 1 / 2))))
  (un_b (fun x req gy =>
     when (req 0%nat) 0
       (do c <- sparse_common (clone x);
        let gySum := mat_sum 0 Rplus gy in
        m_sub gy (m_apply (fun v => Rmax 0 (v - sm_tau c) * gySum) x)))).
