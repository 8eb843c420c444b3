(** * How near the kernels of Exp32 are to the exponential *)
From Coq Require Import ZArith String Bool Lia List Reals Lra.
From Flocq Require Binary Bits.
From Flocq Require Import Core BinarySingleNaN.
From Coquelicot Require Import Coquelicot.
From Verif Require Import AsmModel AsmCode AsmCalls DenseModel FloatModel NumModel FloatSpec FloatProofs NumSpec NumLemmas AsmFloatSpec AsmFloat AsmWords AsmExp.
Import ListNotations.
Local Open Scope R_scope.
Local Notation B := (bin words). Local Notation U := (un words).

(** ** The Taylor polynomial of the exponential *)
Lemma fact_R n : INR (fact (S n)) = INR (S n) * INR (fact n). Proof. rewrite fact_simpl. apply mult_INR. Qed.
Ltac facts := rewrite ?fact_R; change (fact 0) with 1%nat; rewrite ?S_INR; change (INR 0) with 0.
Lemma derive_exp n x : Derive_n exp n x = exp x.
Proof.
  revert x. induction n as [|n IH]; intros x; [reflexivity|]. cbn [Derive_n]. rewrite (Derive_ext _ exp) by exact IH. apply is_derive_unique, is_derive_exp.
Qed.
Lemma ex_derive_exp n x : ex_derive_n exp n x.
Proof.
  destruct n; [exact I|]. cbn [ex_derive_n]. apply (ex_derive_ext exp); [intros t; symmetry; apply derive_exp|]. exists (exp x). apply is_derive_exp.
Qed.
Lemma taylor_pos n x : 0 < x -> exists z, 0 < z < x /\ exp x = sum_f_R0 (fun k => x ^ k / INR (fact k)) n + x ^ S n / INR (fact (S n)) * exp z.
Proof.
  intros H. destruct (Taylor_Lagrange exp n 0 x H) as (z & Hz & E); [intros; apply ex_derive_exp|]. exists z. split; [exact Hz|].
  rewrite E, Rminus_0_r, derive_exp. f_equal. apply sum_eq. intros i _. rewrite derive_exp, exp_0. apply Rmult_1_r.
Qed.
Lemma taylor_neg n x : 0 < x -> exists z, 0 < z < x /\ exp (- x) = sum_f_R0 (fun k => (- x) ^ k / INR (fact k)) n + (- x) ^ S n / INR (fact (S n)) * exp (- z).
Proof.
  intros H. assert (D : forall k t, Derive_n (fun y => exp (- y)) k t = (-1) ^ k * exp (- t)).
  { intros k t. rewrite Derive_n_comp_opp; [now rewrite derive_exp|]. apply filter_forall. intros y j _. apply ex_derive_exp. }
  assert (P : forall k t, (-1) ^ k * t ^ k = (- t) ^ k) by (intros; rewrite <- Rpow_mult_distr; f_equal; lra).
  destruct (Taylor_Lagrange (fun y => exp (- y)) n 0 x H) as (z & Hz & E).
  { intros t _ k _. apply ex_derive_n_comp_opp. apply filter_forall. intros y j _. apply ex_derive_exp. }
  exists z. split; [exact Hz|]. rewrite E, Rminus_0_r, D, <- (P (S n) x). f_equal; [|lra]. apply sum_eq. intros i _. rewrite D, Ropp_0, exp_0, <- (P i x). lra.
Qed.
(** the polynomial of degree 7, and what it misses *)
Definition taylor7 (r : R) : R := 1 + r + r ^ 2 / 2 + r ^ 3 / 6 + r ^ 4 / 24 + r ^ 5 / 120 + r ^ 6 / 720 + r ^ 7 / 5040.
Lemma exp_1_3 : exp 1 <= 3. Proof. apply exp_le_3. Qed.
Lemma taylor7_ok r : Rabs r <= 0.347 -> Rabs (exp r - taylor7 r) <= 0.347 ^ 8 / 40320 * 3.
Proof.
  intros H. apply Rabs_le_inv in H.
  assert (S7 : forall x, sum_f_R0 (fun k => x ^ k / INR (fact k)) 7 = taylor7 x) by (intros; cbn [sum_f_R0]; unfold taylor7; facts; lra).
  assert (F8 : INR (fact 8) = 40320) by (facts; lra).
  assert (X : forall x, -0.347 <= x <= 0.347 -> 0 <= x ^ 8 <= 0.347 ^ 8).
  { intros x Hx. assert (0 <= x ^ 2 <= 0.347 ^ 2) by (split; [apply pow2_ge_0|]; simpl; nra). replace (x ^ 8) with ((x ^ 2) ^ 4) by ring. replace (0.347 ^ 8) with ((0.347 ^ 2) ^ 4) by ring.
    split; [apply pow_le; lra|apply pow_incr; lra]. }
  destruct (Rtotal_order r 0) as [L|[->|G]].
  - destruct (taylor_neg 7 (- r)) as (z & Hz & E); [lra|]. rewrite Ropp_involutive, S7, F8 in E. replace (exp r - taylor7 r) with (r ^ 8 / 40320 * exp (- z)) by lra.
    pose proof (X r ltac:(lra)). pose proof (exp_pos (- z)). assert (exp (- z) <= 3). { apply Rle_trans with (exp 1); [|apply exp_1_3]. apply Rlt_le, exp_increasing. lra. }
    rewrite Rabs_right; [|apply Rle_ge, Rmult_le_pos; lra]. apply Rmult_le_compat; lra.
  - replace (exp 0 - taylor7 0) with 0; [rewrite Rabs_R0; lra|]. rewrite exp_0. unfold taylor7. lra.
  - destruct (taylor_pos 7 r) as (z & Hz & E); [lra|]. rewrite S7, F8 in E. replace (exp r - taylor7 r) with (r ^ 8 / 40320 * exp z) by lra.
    pose proof (X r ltac:(lra)). pose proof (exp_pos z). assert (exp z <= 3). { apply Rle_trans with (exp 1); [|apply exp_1_3]. apply Rlt_le, exp_increasing. lra. }
    rewrite Rabs_right; [|apply Rle_ge, Rmult_le_pos; lra]. apply Rmult_le_compat; lra.
Qed.
(** ln 2 *)
Lemma exp_below n x : 0 < x -> sum_f_R0 (fun k => x ^ k / INR (fact k)) n < exp x.
Proof. intros H. destruct (taylor_pos n x H) as (z & Hz & E). rewrite E. assert (0 < x ^ S n / INR (fact (S n)) * exp z); [|lra]. apply Rmult_lt_0_compat; [apply Rmult_lt_0_compat; [now apply pow_lt|apply Rinv_0_lt_compat, INR_fact_lt_0]|apply exp_pos]. Qed.
Lemma ln2_upper : ln 2 < 0.69314718057.
Proof. rewrite <- (ln_exp 0.69314718057). apply ln_increasing; [lra|]. eapply Rle_lt_trans; [|apply (exp_below 12); lra]. cbn [sum_f_R0]. facts. lra. Qed.
Lemma ln2_lower : 0.69314718055 < ln 2.
Proof.
  assert (E : exp 0.69314718055 < 2). 
  { assert (D : 0 < 0.69314718055) by lra. destruct (taylor_pos 13 0.69314718055 D) as (z & Hz & E).
    assert (Z3 : exp z <= 3) by (apply Rle_trans with (exp 1); [apply Rlt_le, exp_increasing; lra|apply exp_1_3]). rewrite E. 
    apply Rle_lt_trans with (sum_f_R0 (fun k => 0.69314718055 ^ k / INR (fact k)) 13 + 0.69314718055 ^ 14 / INR (fact 14) * 3).
    - apply Rplus_le_compat_l, Rmult_le_compat_l; [|exact Z3]. apply Rmult_le_pos; [apply pow_le; lra|left; apply Rinv_0_lt_compat, INR_fact_lt_0].
    - clear E. cbn [sum_f_R0]. facts. lra. }
  rewrite <- (ln_exp 0.69314718055). apply ln_increasing; [apply exp_pos|exact E].
Qed.
