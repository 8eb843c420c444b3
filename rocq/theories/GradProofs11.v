(** * The element-wise functions, with the formula each is documented by *)
From Coq Require Import Reals List Arith Bool ZArith Lia Lra FunctionalExtensionality.
From Coquelicot Require Import Coquelicot.
From Verif Require Import DenseModel DenseSpec ArithModel ArithSpec GradModel GradSpec GradLemmas GradProofs GradProofs3 GradProofs4 GradProofs5 GradGelu GradProofs9.
Import ListNotations.
Open Scope R_scope.

Ltac same_fun := apply functional_extensionality; intros v;
  unfold Rleb, Rltb; repeat match goal with |- context [Rle_dec ?a ?b] => destruct (Rle_dec a b) | |- context [Rlt_dec ?a ?b] => destruct (Rlt_dec a b) end; try lra; auto.

Lemma tan_elementwise req x : wf x -> elementwise tan_fn tan (fun v => cos v <> 0) req x [].
Proof. intros W. apply unary_fn_elementwise; auto. intros v Hv _. apply d_eq, tan_d. auto. Qed.
Lemma tanh_elementwise req x : wf x -> elementwise tanh_fn tanh anywhere req x [].
Proof. intros W. apply unary_fn_elementwise; auto. intros v Hv _. apply d_eq, tanh_d. Qed.
Lemma hard_sigmoid_elementwise req x : wf x -> elementwise hard_sigmoid_fn (fun v => Rmax 0 (Rmin 1 (0.2 * v + 0.5))) anywhere req x [].
Proof.
  intros W. replace (fun v => Rmax 0 (Rmin 1 (0.2 * v + 0.5))) with hard_sigmoid by (apply functional_extensionality; intros; apply hard_sigmoid_eq).
  apply unary_fn_elementwise; auto. intros v _. apply hard_sigmoid_d.
Qed.
Lemma hard_tanh_elementwise req x : wf x -> elementwise hard_tanh_fn (fun v => Rmax (-1) (Rmin 1 v)) anywhere req x [].
Proof.
  intros W. replace (fun v => Rmax (-1) (Rmin 1 v)) with hard_tanh by (apply functional_extensionality; intros; apply hard_tanh_eq).
  apply unary_fn_elementwise; auto. intros v _. apply hard_tanh_d.
Qed.
Lemma relu_elementwise req x : wf x -> elementwise relu_fn (fun v => Rmax 0 v) anywhere req x [].
Proof. intros W. apply unary_fn_elementwise; auto. intros v _. apply relu_d. Qed.
Lemma softsign_elementwise req x : wf x -> elementwise softsign_fn (fun v => v / (1 + Rabs v)) anywhere req x [].
Proof. intros W. apply unary_fn_elementwise; auto. intros v _. apply softsign_d. Qed.
Lemma cos_elementwise req x : wf x -> elementwise cos_fn cos anywhere req x [].
Proof. intros W. apply unary_fn_elementwise; auto. intros v _ _. apply d_eq, is_derive_Reals, derivable_pt_lim_cos. Qed.
Lemma sin_elementwise req x : wf x -> elementwise sin_fn sin anywhere req x [].
Proof. intros W. apply unary_fn_elementwise; auto. intros v _ _. apply d_eq, is_derive_Reals, derivable_pt_lim_sin. Qed.
Lemma neg_elementwise req x : wf x -> elementwise neg_fn (fun v => - v) anywhere req x [].
Proof.
  intros W. apply unary_fn_elementwise; auto. intros v _ _. apply (d_eq (fun v => - v)). auto_derive; auto.
Qed.
Lemma reciprocal_elementwise req x : wf x -> elementwise reciprocal_fn (fun v => 1 / v) (fun v => v <> 0) req x [].
Proof. intros W. apply unary_fn_elementwise; auto. intros v Hv _. apply (d_eq (fun v => 1 / v)), recip_d. auto. Qed.
Lemma abs_elementwise req x : wf x -> elementwise abs_fn Rabs anywhere req x [].
Proof. intros W. apply unary_fn_elementwise; auto. intros v _. apply abs_d. Qed.
Lemma mish_elementwise req x : wf x -> elementwise mish_fn (fun v => v * tanh (ln (1 + exp v))) anywhere req x [].
Proof. intros W. apply unary_fn_elementwise; auto. intros v _ _. apply (d_eq mish), mish_d. Qed.

Lemma celu_elementwise req x a : wf x -> fits a 1 1 -> rget a 0 0 <> 0 ->
  elementwise celu_fn (fun v => if Rle_dec v 0 then rget a 0 0 * (exp (v / rget a 0 0) - 1) else v) anywhere req x [a].
Proof.
  intros W Fa Ha. replace (fun v => if Rle_dec v 0 then rget a 0 0 * (exp (v / rget a 0 0) - 1) else v) with (celu (rget a 0 0)) by (unfold celu; same_fun).
  apply unary1_fn_elementwise; auto. intros v _. now apply celu_d.
Qed.
Lemma elu_elementwise req x a : wf x -> fits a 1 1 ->
  elementwise elu_fn (fun v => if Rle_dec v 0 then rget a 0 0 * (exp v - 1) else v) anywhere req x [a].
Proof.
  intros W Fa. replace (fun v => if Rle_dec v 0 then rget a 0 0 * (exp v - 1) else v) with (elu (rget a 0 0)) by (unfold elu; same_fun).
  apply unary1_fn_elementwise; auto. intros v _. now apply elu_d.
Qed.
Lemma leaky_relu_elementwise req x a : wf x -> fits a 1 1 ->
  elementwise leaky_relu_fn (fun v => if Rle_dec v 0 then rget a 0 0 * v else v) anywhere req x [a].
Proof.
  intros W Fa. replace (fun v => if Rle_dec v 0 then rget a 0 0 * v else v) with (leaky_relu (rget a 0 0)) by (unfold leaky_relu; same_fun).
  apply unary1_fn_elementwise; auto. intros v _. now apply leaky_relu_d.
Qed.
Lemma soft_shrink_elementwise req x a : wf x -> fits a 1 1 -> rget a 0 0 <> 0 ->
  elementwise soft_shrink_fn (fun v => if Rlt_dec v (- rget a 0 0) then v + rget a 0 0 else if Rlt_dec (rget a 0 0) v then v - rget a 0 0 else 0) anywhere req x [a].
Proof.
  intros W Fa Ha. replace (fun v => if Rlt_dec v (- rget a 0 0) then v + rget a 0 0 else if Rlt_dec (rget a 0 0) v then v - rget a 0 0 else 0) with (soft_shrink (rget a 0 0)) by (unfold soft_shrink; same_fun).
  apply unary1_fn_elementwise; auto. intros v _. now apply soft_shrink_d.
Qed.
Lemma selu_elementwise req x a b : wf x -> fits a 1 1 -> fits b 1 1 ->
  elementwise selu_fn (fun v => rget b 0 0 * (if Rle_dec v 0 then rget a 0 0 * (exp v - 1) else v)) anywhere req x [a; b].
Proof.
  intros W Fa Fb. replace (fun v => rget b 0 0 * (if Rle_dec v 0 then rget a 0 0 * (exp v - 1) else v)) with (selu (rget a 0 0) (rget b 0 0))
    by (unfold selu; same_fun).
  apply unary2_fn_elementwise; auto. intros v _. now apply selu_d.
Qed.
Lemma soft_plus_elementwise req x b t : wf x -> fits b 1 1 -> fits t 1 1 -> rget b 0 0 <> 0 ->
  elementwise soft_plus_fn (fun v => if Rle_dec v (rget t 0 0) then ln (1 + exp (rget b 0 0 * v)) / rget b 0 0 else v) anywhere req x [b; t].
Proof.
  intros W Fb Ft Hb. replace (fun v => if Rle_dec v (rget t 0 0) then ln (1 + exp (rget b 0 0 * v)) / rget b 0 0 else v) with (soft_plus (rget b 0 0) (rget t 0 0))
    by (unfold soft_plus; same_fun; field; auto).
  apply unary2_fn_elementwise; auto. intros v _. now apply soft_plus_d.
Qed.
Lemma threshold_elementwise req x t k : wf x -> fits t 1 1 -> fits k 1 1 ->
  elementwise threshold_fn (fun v => if Rle_dec v (rget t 0 0) then rget k 0 0 else v) anywhere req x [t; k].
Proof.
  intros W Ft Fk. replace (fun v => if Rle_dec v (rget t 0 0) then rget k 0 0 else v) with (threshold_f (rget t 0 0) (rget k 0 0)) by (unfold threshold_f; same_fun).
  apply unary2_fn_elementwise; auto. intros v _. now apply threshold_d.
Qed.

(** GELU: the values are right; the gradient is that of a function close to it *)
Lemma gelu_values req x : wf x ->
  (exists y, fwd gelu_fn [x] = Some y /\ elems y (rows x) (cols x) (fun i j => let v := rget x i j in 0.5 * v * (1 + tanh (sqrt (2 / PI) * (v + 0.044715 * v ^ 3))))) /\
  forall gy, wf gy -> same_shape gy x -> exists g, bwd gelu_fn [x] req gy = Some (if req 0%nat then [(0%nat, g)] else []) /\ wf g /\ same_shape g x /\
    forall i j, (i < rows x)%nat -> (j < cols x)%nat ->
      let v := rget x i j in
      Rabs (rget g i j - rget gy i j * Derive (fun v => 0.5 * v * (1 + tanh (sqrt (2 / PI) * (v + 0.044715 * v ^ 3)))) v)
      <= Rabs (rget gy i j) * (1e-6 * (Rabs v + Rabs v ^ 3) * (1 + Rabs v + Rabs v ^ 3)).
Proof.
  intros W. pose proof (fits_wf x W) as Fx. split.
  - eexists. split; [reflexivity|]. apply m_apply_elems. auto.
  - intros gy Wg (Hr & Hc). assert (Fg : fits gy (rows x) (cols x)) by (repeat split; auto). destruct (apply_prod gelu_deriv x gy _ _ Fx Fg) as (g & Hg & Eg).
    exists g. split; [cbn; rewrite (same_dims_fits _ _ _ _ Fx Fg), Hg; cbn [guard]; apply when0|]. destruct Eg as (Wy & R1 & C1 & E). repeat split; auto.
    intros i j Hi Hj v. rewrite E by auto. fold v. change (fun v : R => 0.5 * v * (1 + tanh (sqrt (2 / PI) * (v + 0.044715 * v ^ 3)))) with gelu.
    replace (gelu_deriv v * rget gy i j - rget gy i j * Derive gelu v) with (rget gy i j * (gelu_deriv v - Derive gelu v)) by ring.
    rewrite Rabs_mult. apply Rmult_le_compat_l; [apply Rabs_pos|]. apply gelu_close.
Qed.
Lemma gelu_wrong : ~ forall x req, wf x -> elementwise gelu_fn (fun v => 0.5 * v * (1 + tanh (sqrt (2 / PI) * (v + 0.044715 * v ^ 3)))) anywhere req x [].
Proof.
  intros H. destruct gelu_not_exact as (v & Hv). destruct (H (scalar v) (fun _ => true)) as (_ & H2); [reflexivity|].
  destruct (H2 (scalar 1)) as (g & Hb & _ & _ & E); [reflexivity|split; reflexivity|]. cbn in Hb. injection Hb as <-.
  specialize (E 0%nat 0%nat (Nat.lt_0_1) (Nat.lt_0_1) I). cbn in E. apply Hv. rewrite Rmult_1_l in E. rewrite Rmult_1_r in E. apply E.
  eexists. apply gelu_d.
Qed.

(** Where a scalar parameter that is listed as an operand requires gradients, it
    is never handed one. *)
Lemma zeros_wf y : wf (m_zeros_like y).
Proof. unfold wf, m_zeros_like, zeros_like, zeros. cbn. apply repeat_length. Qed.
Lemma starved (f : gfun) req xs k : (k < length xs)%nat -> req k = true ->
  (forall gy calls, bwd f xs req gy = Some calls -> ~ In k (map fst calls)) -> ~ hands_one_each f req xs.
Proof.
  intros Hk Hr H (y & Hy & Hg). destruct (Hg (m_zeros_like y)) as (calls & Hc & Hn).
  - apply (zeros_wf y).
  - split; reflexivity.
  - specialize (Hn k). apply Nat.ltb_lt in Hk. rewrite Hk, Hr in Hn. cbn in Hn. apply (H _ _ Hc). apply (count_occ_In Nat.eq_dec). lia.
Qed.
