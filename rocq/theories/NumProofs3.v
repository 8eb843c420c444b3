(** * Proofs: softplus, and the derivatives of the activations in floating point *)
From Coq Require Import List ZArith Bool Reals Lia Lra.
From Flocq Require Import Core BinarySingleNaN Relative.
From Verif Require Import DenseModel DenseLemmas ArithModel ArithProofs FloatModel FloatSpec FloatProofs NumModel NumSpec NumLemmas NumProofs NumProofs2.
Import ListNotations.
Open Scope R_scope.

(** ** Powers of two and exp *)
Lemma exp_step : 2 <= exp (711 / 1024).
Proof.
  apply Rle_trans with ((1 + / 1024) ^ 711).
  - replace (1 + / 1024) with (1025 / 1024) by lra. unfold Rdiv. rewrite Rpow_mult_distr, pow_inv. apply Rmult_le_reg_r with (1024 ^ 711); [apply pow_lt; lra|].
    rewrite Rmult_assoc, Rinv_l, Rmult_1_r by (apply pow_nonzero; lra). rewrite !pow_IZR, <- mult_IZR. apply IZR_le. vm_compute. discriminate.
  - apply Rle_trans with (exp (/ 1024) ^ 711); [apply pow_incr; split; [lra|left; apply exp_ineq1; lra]|].
    assert (E : forall n x, exp x ^ n = exp (INR n * x)).
    { induction n as [|n IH]; intros x; [cbn; now rewrite Rmult_0_l, exp_0|]. rewrite <- tech_pow_Rmult, IH, <- exp_plus, S_INR. f_equal. ring. }
    rewrite E. right. f_equal. rewrite INR_IZR_INZ. change (Z.of_nat 711) with 711%Z. lra.
Qed.
Lemma exp_nat n x : exp x ^ n = exp (INR n * x).
Proof. induction n as [|n IH]; [cbn; now rewrite Rmult_0_l, exp_0|]. rewrite <- tech_pow_Rmult, IH, <- exp_plus, S_INR. f_equal. ring. Qed.
Lemma exp_mono x y : x <= y -> exp x <= exp y.
Proof. intros [H| ->]; [left; now apply exp_increasing|lra]. Qed.
Lemma exp_at_least n x : IZR (Z.of_nat n) * (711 / 1024) <= x -> 2 ^ n <= exp x.
Proof.
  intros H. rewrite <- INR_IZR_INZ in H. apply Rle_trans with (exp (711 / 1024) ^ n); [apply pow_incr; split; [lra|apply exp_step]|]. rewrite exp_nat. now apply exp_mono.
Qed.
Lemma exp_step_up : exp (44 / 64) <= 2.
Proof.
  assert (H : exp (/ 64) <= 64 / 63).
  { assert (A : 1 + - / 64 <= exp (- / 64)) by (left; apply exp_ineq1; lra). rewrite exp_Ropp in A. apply Rinv_le_contravar in A; [|lra]. rewrite Rinv_inv in A. replace (/ (1 + - / 64)) with (64 / 63) in A by field. exact A. }
  apply Rle_trans with ((64 / 63) ^ 44).
  - apply Rle_trans with (exp (/ 64) ^ 44); [rewrite exp_nat, INR_IZR_INZ; apply exp_mono; change (Z.of_nat 44) with 44%Z; lra|].
    apply pow_incr. split; [left; apply exp_pos|exact H].
  - unfold Rdiv. rewrite Rpow_mult_distr, pow_inv. apply Rmult_le_reg_r with (63 ^ 44); [apply pow_lt; lra|].
    rewrite Rmult_assoc, Rinv_l, Rmult_1_r by (apply pow_nonzero; lra). rewrite !pow_IZR, <- mult_IZR. apply IZR_le. vm_compute. discriminate.
Qed.
Lemma exp_at_most n x : x <= IZR (Z.of_nat n) * (44 / 64) -> exp x <= 2 ^ n.
Proof.
  intros H. rewrite <- INR_IZR_INZ in H. apply Rle_trans with (exp (44 / 64) ^ n); [rewrite exp_nat; now apply exp_mono|]. apply pow_incr. split; [left; apply exp_pos|apply exp_step_up].
Qed.
Lemma pow2_pos n : 0 < 2 ^ n.
Proof. apply pow_lt. lra. Qed.
Lemma inv_pow_le n : / 2 ^ n <= 1.
Proof. rewrite <- Rinv_1. apply Rinv_le_contravar; [lra|apply pow_R1_Rle; lra]. Qed.
Lemma pow2_S n : 2 ^ Datatypes.S n = 2 * 2 ^ n.
Proof. reflexivity. Qed.

Section M.
Variable m : libm.
Hypothesis G : go_math m.
Notation zero := (fzero : val F64).
Notation one := (fone : val F64).

Lemma exp_upper x n : finite x -> real x <= IZR (Z.of_nat n) * (44 / 64) -> real x <= 709 -> finite (Exp m x) /\ 0 <= real (Exp m x) <= 2 ^ (n + 1).
Proof.
  intros F B B'. assert (Fe : finite (Exp m x)) by now apply (exp_finite m G). split; [exact Fe|]. split; [now apply (exp_positive m G)|].
  pose proof (exp_value m G x F Fe) as V. apply Rabs_le_inv in V. pose proof (exp_at_most n _ B) as E.
  assert (Q : exp (real x) / 2 ^ 50 <= exp (real x) / 2).
  { unfold Rdiv. apply Rmult_le_compat_l; [left; apply exp_pos|]. apply Rinv_le_contravar; [lra|]. rewrite pow2_S. assert (1 <= 2 ^ 49) by (apply pow_R1_Rle; lra). lra. }
  assert (I : / 2 ^ 1074 <= / 2) by (apply Rinv_le_contravar; [lra|]; rewrite pow2_S; assert (1 <= 2 ^ 1073) by (apply pow_R1_Rle; lra); lra). rewrite Nat.add_1_r, pow2_S.
  assert (1 <= 2 ^ n) by (apply pow_R1_Rle; lra). lra.
Qed.
Lemma exp_lower x n : finite x -> IZR (Z.of_nat n) * (711 / 1024) <= real x -> Exp m x = infinity \/ (finite (Exp m x) /\ 2 ^ n / 2 - 1 <= real (Exp m x)).
Proof.
  intros F B. destruct (exp_either m G x F) as [Fe|E]; [right|now left]. split; [exact Fe|].
  pose proof (exp_value m G x F Fe) as V. apply Rabs_le_inv in V. pose proof (exp_at_least n _ B) as E.
  assert (Q : exp (real x) / 2 ^ 50 <= exp (real x) / 2).
  { unfold Rdiv. apply Rmult_le_compat_l; [left; apply exp_pos|]. apply Rinv_le_contravar; [lra|]. rewrite pow2_S. assert (1 <= 2 ^ 49) by (apply pow_R1_Rle; lra). lra. }
  pose proof (inv_pow_le 1074) as I. lra.
Qed.
Lemma ln_upper x : 1 <= x -> x < limit F64 -> 0 <= ln x <= 1000.
Proof.
  intros A B. split; [rewrite <- ln_1; destruct A as [A|<-]; [left; apply ln_increasing; lra|lra]|]. rewrite <- (ln_exp 1000). left. apply ln_increasing; [lra|].
  eapply Rlt_le_trans; [exact B|]. apply Rle_trans with (2 ^ 1024); [rewrite pow2, limit_eq; apply bpow_le; cbn; lia|]. apply exp_at_least. change (Z.of_nat 1024) with 1024%Z. lra.
Qed.
Lemma log_in x : finite x -> 1 <= real x -> finite (Log m x) /\ 0 <= real (Log m x) <= 1024.
Proof.
  intros F B. assert (Fl : finite (Log m x)) by (apply (log_finite m G); auto; lra). split; [exact Fl|]. split; [now apply (log_positive m G)|].
  pose proof (proj2 (rep_real F64 x F)) as L. rewrite Rabs_pos_eq in L by lra. pose proof (ln_upper _ B L) as (A1 & A2).
  pose proof (log_value m G x F ltac:(lra)) as V. rewrite (Rabs_pos_eq (ln _)) in V by exact A1. apply Rabs_le_inv in V.
  assert (Q : ln (real x) / 2 ^ 50 <= 1000 / 2 ^ 10).
  { apply Rmult_le_compat; [lra|left; apply Rinv_0_lt_compat, pow2_pos|lra|]. apply Rinv_le_contravar; [apply pow2_pos|]. apply Rle_pow; [lra|lia]. }
  pose proof (inv_pow_le 1074) as I. assert (2 ^ 10 = 1024) by (cbn; lra). rewrite H in Q. lra.
Qed.

Section D.
Variable d : dtype.
Variable v : val F64.
Hypothesis Fv : finite v.
Hypothesis Rv : rep d (real v).
Notation fits_in := (fits_in d).

(** beta * v *)
Lemma softplus_arg (b t : val F64) : finite b -> / 2 ^ 20 <= real b <= 2 ^ 20 -> finite t -> real b * real t <= 709 -> fle v t = true -> real b * real v <= 709.
Proof.
  intros Fb Bb Ft B E. apply le_eq in E; auto. assert (0 < / 2 ^ 20) by (apply Rinv_0_lt_compat, pow2_pos). eapply Rle_trans; [apply Rmult_le_compat_l; [lra|exact E]|exact B].
Qed.
Lemma exp_709 x : x = minus_infinity \/ (finite x /\ real x <= 709) -> finite (Exp m x) /\ 0 <= real (Exp m x).
Proof.
  intros [->|(F & B)]; [rewrite (exp_minus_infinity m G); split; [reflexivity|unfold real; cbn; lra]|].
  assert (A : finite (Exp m x)) by now apply (exp_finite m G). split; [exact A|now apply (exp_positive m G)].
Qed.
Lemma rep_709 : rep F64 709.
Proof. now apply (rep_int F64 709). Qed.
Lemma f_softplus b t : finite b -> / 2 ^ 20 <= real b <= 2 ^ 20 -> finite t -> real b * real t <= 709 -> fits_in (go_softplus m b t v).
Proof.
  intros Fb Bb Ft B. unfold go_softplus. destruct (fle v t) eqn:E; [|destruct (flt t v); [now apply fits_self|apply fits_0]].
  pose proof (softplus_arg b t Fb Bb Ft B E) as A. assert (Pb : 0 < real b) by (assert (0 < / 2 ^ 20) by (apply Rinv_0_lt_compat, pow2_pos); lra).
  destruct (exp_709 (fmul b v)) as (Fe & Pe); [apply mul_below; auto; [apply rep_709|lra]|].
  destruct (one_plus F64 _ Fe Pe) as (F1 & B1 & _). destruct (log_in _ F1 B1) as (Fl & Bl). destruct (one_eq F64) as (Fo & Vo).
  destruct (div_abs F64 fone b (2 ^ 20) Fo) as (Fi & Bi); [lra|apply rep_pow2; cbn; lia| |].
  - rewrite Vo, Rabs_R1, (Rabs_pos_eq (real b)) by lra. apply Rmult_le_reg_l with (/ 2 ^ 20); [apply Rinv_0_lt_compat, pow2_pos|]. rewrite <- Rmult_assoc, Rinv_l, Rmult_1_l by (pose proof (pow2_pos 20); lra). lra.
  - destruct (mul_abs F64 (fdiv fone b) (Log m (fadd fone (Exp m (fmul b v)))) (2 ^ 30) Fi Fl) as (F2 & B2); [apply rep_pow2; cbn; lia| |].
    + replace (2 ^ 30) with (2 ^ 20 * 1024) by (replace 30%nat with (20 + 10)%nat by lia; rewrite pow_add; f_equal; cbn; lra). apply Rmult_le_compat; auto using Rabs_pos. apply Rabs_le. lra.
    + split; [exact F2|]. exists (2 ^ 30). split; [apply rep_pow2; destruct d; cbn; lia|exact B2].
Qed.

(** ** Derivatives *)
Lemma g_tanh : fits_in (go_tanh_deriv m v).
Proof.
  unfold go_tanh_deriv. destruct (tanh_range m G v (finite_number _ v Fv)) as (Ft & Bt). destruct (square_range m G _ Ft Bt) as (Fp & Bp). destruct (one_eq F64) as (Fo & Vo).
  destruct (sub_in F64 fone (Pow m (Tanh m v) (lit 2 0)) 0 1 Fo Fp (rep_0 _) (rep_1 _)) as (A & B & _); [lra|]. apply fits_1; [exact A|apply Rabs_le; lra].
Qed.
Lemma fits_small : fits_in go_0_2.
Proof. destruct (lit_eq F64 3602879701896397 (-54) (3602879701896397 / 18014398509481984)) as (F2 & V2); [cbn; lra|cbn; lia..|]. apply fits_1; [exact F2|]. fold go_0_2 in V2. rewrite V2. apply Rabs_le. lra. Qed.
Lemma g_softsign : fits_in (go_softsign_deriv m v).
Proof.
  unfold go_softsign_deriv. destruct (softsign_in v Fv) as (Fs & Bs). destruct (one_eq F64) as (Fo & Vo).
  destruct (sub_in F64 fone (fabs (go_softsign v)) 0 1 Fo (abs_finite _ _ Fs) (rep_0 _) (rep_1 _)) as (A & B & _); [rewrite abs_eq, Vo; pose proof (Rabs_pos (real (go_softsign v))); lra|].
  destruct (square_range m G _ A) as (Fp & Bp); [apply Rabs_le; lra|]. apply fits_1; [exact Fp|apply Rabs_le; lra].
Qed.
Lemma g_celu a : moderate a -> 0 < real a -> fits_in (go_celu_deriv m a v).
Proof.
  intros (Fa & Ba) Pa. unfold go_celu_deriv. destruct (fle v fzero) eqn:E; [|destruct (flt fzero v); [apply fits_one|apply fits_0]]. apply le_eq in E; [|auto|reflexivity]. change (real fzero) with 0 in E.
  destruct (exp_unit m G (fdiv v a)) as (F1 & B1); [now apply div_nonpos|]. apply fits_1; [exact F1|apply Rabs_le; lra].
Qed.
Lemma times_moderate a x : moderate a -> finite x -> Rabs (real x) <= 1 -> finite (fmul a x) /\ Rabs (real (fmul a x)) <= 2 ^ 100.
Proof.
  intros (Fa & Ba) Fx Bx. apply mul_abs; auto; [apply rep_pow2; cbn; lia|]. rewrite <- (Rmult_1_r (2 ^ 100)). apply Rmult_le_compat; auto using Rabs_pos.
Qed.
Lemma fits_100 w : finite w -> Rabs (real w) <= 2 ^ 100 -> fits_in w.
Proof. intros A B. split; [exact A|]. exists (2 ^ 100). split; [apply rep_100|exact B]. Qed.
Lemma g_elu a : moderate a -> fits_in (go_elu_deriv m a v).
Proof.
  intros Ma. unfold go_elu_deriv. destruct (fle v fzero) eqn:E; [|destruct (flt fzero v); [apply fits_one|apply fits_0]]. apply le_eq in E; [|auto|reflexivity]. change (real fzero) with 0 in E.
  destruct (exp_unit m G v) as (F1 & B1); [now right|]. destruct (times_moderate a (Exp m v) Ma F1); [apply Rabs_le; lra|]. now apply fits_100.
Qed.
Lemma g_leaky a : finite a -> Rabs (real a) <= 1 -> fits_in (go_leaky_deriv a v).
Proof. intros. unfold go_leaky_deriv. destruct (fle v fzero); [now apply fits_1|destruct (flt fzero v); [apply fits_one|apply fits_0]]. Qed.
Lemma g_selu a s : moderate a -> finite s -> Rabs (real s) <= 1 -> fits_in (go_selu_deriv m a s v).
Proof.
  intros Ma Fs Bs. unfold go_selu_deriv. destruct (fle v fzero) eqn:E; [|destruct (flt fzero v); [now apply fits_1|apply fits_0]]. apply le_eq in E; [|auto|reflexivity]. change (real fzero) with 0 in E.
  destruct (exp_unit m G v) as (F1 & B1); [now right|]. destruct Ma as (Fa & Ba).
  destruct (mul_abs F64 s a (2 ^ 100) Fs Fa) as (F3 & B3); [apply rep_pow2; cbn; lia|rewrite <- (Rmult_1_l (2 ^ 100)); apply Rmult_le_compat; auto using Rabs_pos|].
  destruct (times_moderate (fmul s a) (Exp m v)); [now split|exact F1|apply Rabs_le; lra|]. now apply fits_100.
Qed.
Lemma g_softplus b t : finite b -> / 2 ^ 20 <= real b <= 2 ^ 20 -> finite t -> real b * real t <= 709 -> fits_in (go_softplus_deriv m b t v).
Proof.
  intros Fb Bb Ft B. unfold go_softplus_deriv. destruct (fle v t) eqn:E; [|destruct (flt t v); [apply fits_one|apply fits_0]].
  pose proof (softplus_arg b t Fb Bb Ft B E) as A. destruct (exp_709 (fmul v b)) as (Fe & Pe); [apply mul_below; auto; [apply rep_709|lra|lra]|]. cbv zeta.
  destruct (plus_one F64 _ Fe Pe) as (F1 & B1 & B2). destruct (div_abs F64 (Exp m (fmul v b)) (fadd (Exp m (fmul v b)) fone) 1 Fe) as (X & Y); [lra|apply rep_1|rewrite !Rabs_pos_eq; lra|]. now apply fits_1.
Qed.
Lemma g_sigmoid : 0 <= real v <= 1 -> fits_in (go_sigmoid_deriv v).
Proof.
  intros B. unfold go_sigmoid_deriv. destruct (one_eq F64) as (Fo & Vo). destruct (sub_in F64 fone v 0 1 Fo Fv (rep_0 _) (rep_1 _)) as (F1 & B1 & _); [lra|].
  destruct (mul_abs F64 v (fsub fone v) 1 Fv F1 (rep_1 _)) as (X & Y); [|now apply fits_1]. rewrite !Rabs_pos_eq by lra. rewrite <- (Rmult_1_r 1). apply Rmult_le_compat; lra.
Qed.
(** e * s / (E * E) where E = e + 1 and s is at most 2^10 E *)
Lemma swish_quotient (e E s : val F64) : finite e -> finite E -> finite s -> 0 <= real e <= real E -> 1 <= real E <= 2 ^ 504 -> Rabs (real s) <= 2 ^ 10 * real E ->
  let q := fdiv (fmul e s) (fmul E E) in fits_in q.
Proof.
  intros Fe FE Fs Be BE Bs. cbv zeta. pose proof (pow2_pos 10) as P10.
  assert (EE : 1 <= real E * real E <= 2 ^ 504 * 2 ^ 504).
  { split; [rewrite <- (Rmult_1_r 1)|]; apply Rmult_le_compat; lra. }
  rewrite <- pow_add in EE. change (504 + 504)%nat with 1008%nat in EE.
  assert (R8 : rep F64 (2 ^ 1008)).
  { rewrite pow2. replace (bpow radix2 (Z.of_nat 1008)) with (1 * bpow radix2 (Z.of_nat 1008)) by ring. apply rep_scale; [apply rep_1|lia|]. rewrite Rmult_1_l, limit_eq, Rabs_pos_eq by apply bpow_ge_0. apply bpow_lt. cbn. lia. }
  destruct (mul_in F64 E E 1 (2 ^ 1008) FE FE (rep_1 _) R8 EE) as (Fd & Bd & Vd). pose proof (half_below _ (proj1 EE)) as H. rewrite <- Vd in H.
  set (den := fmul E E) in *.
  assert (L11 : Rabs (real den * bpow radix2 11) < limit F64).
  { rewrite Rabs_mult, !Rabs_pos_eq by (lra || apply bpow_ge_0). apply Rle_lt_trans with (2 ^ 1008 * bpow radix2 11); [apply Rmult_le_compat_r; [apply bpow_ge_0|lra]|].
    rewrite pow2, <- bpow_plus, limit_eq. apply bpow_lt. cbn. lia. }
  assert (B11 : bpow radix2 11 = 2 * 2 ^ 10) by (rewrite <- pow2_S, pow2; reflexivity).
  destruct (mul_abs F64 e s (real den * bpow radix2 11) Fe Fs) as (Fn & Bn); [apply rep_scale; [now apply rep_real|lia|exact L11]| |].
  - rewrite (Rabs_pos_eq (real e)) by lra. apply Rle_trans with (real E * (2 ^ 10 * real E)); [apply Rmult_le_compat; auto using Rabs_pos; lra|].
    rewrite B11. replace (real E * (2 ^ 10 * real E)) with (2 ^ 10 * (real E * real E)) by ring. replace (real den * (2 * 2 ^ 10)) with (2 ^ 10 * (2 * real den)) by ring. apply Rmult_le_compat_l; lra.
  - destruct (div_abs F64 (fmul e s) den (2 ^ 11) Fn) as (Fq & Bq); [lra|apply rep_pow2; cbn; lia|rewrite (Rabs_pos_eq (real den)) by lra; rewrite pow2_S, <- B11, Rmult_comm; exact Bn|].
    split; [exact Fq|]. exists (2 ^ 11). split; [apply rep_pow2; destruct d; cbn; lia|exact Bq].
Qed.
Lemma exp_345 x : finite x -> Rabs (real x) <= 345 -> finite (Exp m x) /\ 0 <= real (Exp m x) <= 2 ^ 503.
Proof. intros F B. apply Rabs_le_inv in B. change 503%nat with (502 + 1)%nat. apply exp_upper; auto; [change (Z.of_nat 502) with 502%Z|]; lra. Qed.
Lemma exp_plus_one x : finite x -> Rabs (real x) <= 345 -> let e := Exp m x in finite (fadd e fone) /\ real e <= real (fadd e fone) /\ 1 <= real (fadd e fone) <= 2 ^ 504.
Proof.
  intros F B. cbv zeta. destruct (exp_345 x F B) as (Fe & Be). destruct (plus_one F64 _ Fe (proj1 Be)) as (F1 & B1 & B2). split; [exact F1|]. split; [exact B2|]. split; [exact B1|].
  destruct (one_eq F64) as (Fo & Vo). destruct (add_abs F64 (Exp m x) fone (2 ^ 504) Fe Fo) as (_ & Q); [apply rep_pow2; cbn; lia| |apply Rabs_le_inv in Q; lra].
  rewrite Vo, Rabs_R1, Rabs_pos_eq by lra. rewrite pow2_S. assert (1 <= 2 ^ 503) by (apply pow_R1_Rle; lra). lra.
Qed.
Lemma rep_9 (E : val F64) k : finite E -> 1 <= real E <= 2 ^ 504 -> (k <= 20)%nat -> rep F64 (2 ^ k * real E).
Proof.
  intros F B K. rewrite pow2, Rmult_comm. apply rep_scale; [now apply rep_real|lia|]. rewrite Rabs_mult, !Rabs_pos_eq by (lra || apply bpow_ge_0).
  apply Rle_lt_trans with (2 ^ 504 * bpow radix2 (Z.of_nat k)); [apply Rmult_le_compat_r; [apply bpow_ge_0|lra]|]. rewrite pow2, <- bpow_plus, limit_eq. apply bpow_lt. change (emax F64) with 1024%Z. lia.
Qed.
Lemma g_swish : Rabs (real v) <= 345 -> fits_in (go_swish_deriv m v).
Proof.
  intros B. unfold go_swish_deriv. cbv zeta. destruct (exp_345 v Fv B) as (Fe & Be). destruct (exp_plus_one v Fv B) as (F1 & B1 & B2). cbv zeta in *. set (e := Exp m v) in *. set (E := fadd e fone) in *.
  destruct (add_abs F64 E v (2 ^ 10 * real E) F1 Fv) as (Fs & Bs); [apply rep_9; auto; lia| |apply swish_quotient; auto; lra].
  rewrite (Rabs_pos_eq (real E)) by lra. assert (2 ^ 10 = 1024) by (cbn; lra). rewrite H. lra.
Qed.
Lemma g_swishb b : finite (fmul v b) -> Rabs (real (fmul v b)) <= 345 -> fits_in (go_swishb_deriv m b v).
Proof.
  intros Fp B. unfold go_swishb_deriv. cbv zeta. set (p := fmul v b) in *. destruct (exp_345 p Fp B) as (Fe & Be). destruct (exp_plus_one p Fp B) as (F1 & B1 & B2). cbv zeta in *. set (e := Exp m p) in *. set (E := fadd e fone) in *.
  assert (T9 : 2 ^ 9 = 512) by (cbn; lra). assert (T10 : 2 ^ 10 = 1024) by (cbn; lra).
  destruct (add_abs F64 e p (2 ^ 9 * real E) Fe Fp) as (Fs & Bs); [apply rep_9; auto; lia|rewrite (Rabs_pos_eq (real e)), T9 by lra; lra|].
  destruct (one_eq F64) as (Fo & Vo).
  destruct (add_abs F64 (fadd e p) fone (2 ^ 10 * real E) Fs Fo) as (Fs' & Bs'); [apply rep_9; auto; lia|rewrite Vo, Rabs_R1, T10; rewrite T9 in Bs; lra|apply swish_quotient; auto; lra].
Qed.
Lemma two_eq k : (Z.abs k < 2 ^ 24)%Z -> finite (lit k 0 : val F64) /\ real (lit k 0 : val F64) = IZR k.
Proof. intros H. apply lit_eq; [cbn; ring|unfold prec, emax; lia..]. Qed.
Lemma rep_big t n : (Z.of_nat n < emax t)%Z -> rep t (2 ^ n).
Proof.
  intros H. rewrite pow2. replace (bpow radix2 (Z.of_nat n)) with (1 * bpow radix2 (Z.of_nat n)) by ring. apply rep_scale; [apply rep_1|lia|].
  rewrite Rmult_1_l, limit_eq, Rabs_pos_eq by apply bpow_ge_0. now apply bpow_lt.
Qed.
(** the derivative of Mish for |v| <= b *)
Lemma g_mish_k (k : nat) (b : Z) : Rabs (real v) <= IZR b -> (3 * b <= 709)%Z -> IZR b <= IZR (Z.of_nat k) * (44 / 64) -> (6 <= k <= 249)%nat ->
  finite (go_mish_deriv m v) /\ Rabs (real (go_mish_deriv m v)) <= 2 ^ (4 * k + 4).
Proof.
  intros Bv B3 Bk K. unfold go_mish_deriv. cbv zeta. pose proof Bv as Av. apply Rabs_le_inv in Bv.
  assert (B0 : (0 <= b)%Z) by (apply le_IZR; pose proof (Rabs_pos (real v)); lra). apply IZR_le in B3. rewrite mult_IZR in B3.
  destruct (two_eq 2 eq_refl) as (F2 & V2). destruct (two_eq 3 eq_refl) as (F3 & V3). destruct (two_eq 4 eq_refl) as (F4 & V4). destruct (two_eq 6 eq_refl) as (F6 & V6). destruct (one_eq F64) as (Fo & Vo).
  assert (P : forall a c, (a <= c)%nat -> 2 ^ a <= 2 ^ c) by (intros; apply Rle_pow; [lra|lia]).
  assert (RP : forall n, (n <= 1023)%nat -> rep F64 (2 ^ n)) by (intros; apply rep_big; cbn; lia).
  assert (D : forall n, 2 ^ n + 2 ^ n = 2 ^ (n + 1)) by (intros; rewrite Nat.add_1_r, pow2_S; lra).
  assert (Rb : forall c, (1 <= c <= 3)%Z -> rep F64 (IZR (c * b))) by (intros; apply rep_int; assert (3 * b <= 709)%Z by (apply le_IZR; rewrite mult_IZR; exact B3); nia).
  assert (MV : forall c, (1 <= c <= 3)%Z -> finite (lit c 0 : val F64) -> real (lit c 0 : val F64) = IZR c -> finite (fmul (lit c 0) v) /\ real (fmul (lit c 0) v) <= IZR c * IZR b).
  { intros c Hc Fc Vc. destruct (mul_abs F64 (lit c 0) v (IZR (c * b)) Fc Fv (Rb c Hc)) as (A & Q).
    - rewrite Vc, mult_IZR, (Rabs_pos_eq (IZR c)) by (apply (IZR_le 0); lia). apply Rmult_le_compat_l; [apply (IZR_le 0); lia|exact Av].
    - split; [exact A|]. rewrite <- mult_IZR. apply Rabs_le_inv in Q. lra. }
  assert (Zk : forall c, (0 <= c)%Z -> IZR c * IZR b <= IZR (Z.of_nat (Z.to_nat c * k)) * (44 / 64)).
  { intros c Hc. rewrite Nat2Z.inj_mul, Z2Nat.id, mult_IZR by lia. rewrite Rmult_assoc. apply Rmult_le_compat_l; [now apply (IZR_le 0)|exact Bk]. }
  destruct (exp_upper v k Fv) as (Fe & Be); [lra|lra|]. destruct (MV 2%Z) as (G2 & H2); auto; [lia|]. destruct (MV 3%Z) as (G3 & H3); auto; [lia|].
  destruct (exp_upper (fmul (lit 2 0) v) (2 * k) G2) as (Fe2 & Be2); [eapply Rle_trans; [exact H2|apply (Zk 2%Z); lia]|lra|].
  destruct (exp_upper (fmul (lit 3 0) v) (3 * k) G3) as (Fe3 & Be3); [eapply Rle_trans; [exact H3|apply (Zk 3%Z); lia]|lra|].
  set (e := Exp m v) in *. set (e2 := Exp m (fmul (lit 2 0) v)) in *. set (e3 := Exp m (fmul (lit 3 0) v)) in *.
  assert (T8 : 2 ^ 8 = 256) by (cbn; lra). assert (T2 : 2 ^ 2 = 4) by (cbn; lra). assert (T1 : 2 ^ 1 = 2) by (cbn; lra).
  assert (MM : forall (x y : val F64) a c, finite x -> finite y -> Rabs (real x) <= 2 ^ a -> Rabs (real y) <= 2 ^ c -> (a + c <= 1023)%nat -> finite (fmul x y) /\ Rabs (real (fmul x y)) <= 2 ^ (a + c)).
  { intros x y a c Fx Fy Bx By L. apply mul_abs; auto. rewrite pow_add. apply Rmult_le_compat; auto using Rabs_pos. }
  assert (AA : forall (x y : val F64) a, finite x -> finite y -> Rabs (real x) <= 2 ^ a -> Rabs (real y) <= 2 ^ a -> (a <= 1022)%nat -> finite (fadd x y) /\ Rabs (real (fadd x y)) <= 2 ^ (a + 1)).
  { intros x y a Fx Fy Bx By L. apply add_abs; auto; [apply RP; lia|]. rewrite <- D. lra. }
  assert (A8 : Rabs (real v) <= 2 ^ 8) by (rewrite T8; apply Rabs_le; lra).
  assert (Ab : forall (x : val F64) a c, 0 <= real x <= 2 ^ a -> (a <= c)%nat -> Rabs (real x) <= 2 ^ c) by (intros x a c (L & U) H; rewrite Rabs_pos_eq by exact L; specialize (P a c H); lra).
  (* omega *)
  destruct (AA v fone 8%nat) as (X1 & Y1); auto; [rewrite Vo, Rabs_R1, T8; lra|lia|].
  destruct (MM (lit 4 0) (fadd v fone) 2%nat 9%nat) as (X2 & Y2); auto; [rewrite V4, Rabs_pos_eq, T2 by lra; lra|lia|].
  destruct (MM (lit 4 0) e2 2%nat (2 * k + 1)%nat) as (X3 & Y3); auto; [rewrite V4, Rabs_pos_eq, T2 by lra; lra|now apply (Ab _ (2 * k + 1)%nat)|lia|].
  destruct (AA (fmul (lit 4 0) (fadd v fone)) (fmul (lit 4 0) e2) (2 * k + 3)%nat) as (X4 & Y4); auto; [eapply Rle_trans; [exact Y2|apply P; lia]|eapply Rle_trans; [exact Y3|apply P; lia]|lia|].
  set (s1 := fadd (fmul (lit 4 0) (fadd v fone)) (fmul (lit 4 0) e2)) in *.
  destruct (AA s1 e3 (3 * k + 1)%nat) as (X5 & Y5); auto; [eapply Rle_trans; [exact Y4|apply P; lia]|now apply (Ab _ (3 * k + 1)%nat)|lia|].
  destruct (MM (lit 4 0) v 2%nat 8%nat) as (X6 & Y6); auto; [rewrite V4, Rabs_pos_eq, T2 by lra; lra|lia|].
  destruct (AA (fmul (lit 4 0) v) (lit 6 0) 10%nat) as (X7 & Y7); auto; [rewrite V6, Rabs_pos_eq by lra; specialize (P 8%nat 10%nat ltac:(lia)); lra|lia|].
  destruct (MM e (fadd (fmul (lit 4 0) v) (lit 6 0)) (k + 1)%nat 11%nat) as (X8 & Y8); auto; [now apply (Ab _ (k + 1)%nat)|lia|].
  set (s2 := fadd s1 e3) in *. set (t2 := fmul e (fadd (fmul (lit 4 0) v) (lit 6 0))) in *.
  destruct (AA s2 t2 (3 * k + 2)%nat) as (X9 & Y9); auto; [eapply Rle_trans; [exact Y5|apply P; lia]|eapply Rle_trans; [exact Y8|apply P; lia]|lia|].
  set (omega := fadd s2 t2) in *.
  (* delta *)
  destruct (mul_in F64 (lit 2 0) e 0 (2 ^ (k + 2)) F2 Fe (rep_0 _)) as (Z1 & W1 & _); [apply RP; lia|rewrite V2; replace (k + 2)%nat with (Datatypes.S (k + 1)) by lia; rewrite pow2_S; lra|].
  destruct (add_in F64 (fmul (lit 2 0) e) e2 0 (2 ^ (2 * k + 2)) Z1 Fe2 (rep_0 _)) as (Z2 & W2 & _); [apply RP; lia|replace (2 * k + 2)%nat with (2 * k + 1 + 1)%nat by lia; rewrite <- D; specialize (P (k + 2)%nat (2 * k + 1)%nat ltac:(lia)); lra|].
  destruct (add_in F64 (fadd (fmul (lit 2 0) e) e2) (lit 2 0) 2 (2 ^ (2 * k + 3)) Z2 F2) as (Z3 & W3 & _); [apply (rep_int F64 2); reflexivity|apply RP; lia|rewrite V2; replace (2 * k + 3)%nat with (2 * k + 2 + 1)%nat by lia; rewrite <- D; specialize (P 1%nat (2 * k + 2)%nat ltac:(lia)); lra|].
  set (delta := fadd (fadd (fmul (lit 2 0) e) e2) (lit 2 0)) in *.
  destruct (mul_in F64 delta delta 1 (2 ^ (2 * k + 3 + (2 * k + 3))) Z3 Z3 (rep_1 _)) as (Z4 & W4 & _); [apply RP; lia| |].
  { split; [rewrite <- (Rmult_1_r 1)|rewrite pow_add]; apply Rmult_le_compat; lra. }
  destruct (div_abs F64 omega (fmul delta delta) (2 ^ (3 * k + 3)) X9) as (Z5 & W5); [lra|apply RP; lia| |].
  { rewrite (Rabs_pos_eq (real (fmul _ _))) by lra. rewrite <- (Rmult_1_r (Rabs (real omega))). replace (3 * k + 2 + 1)%nat with (3 * k + 3)%nat in Y9 by lia. apply Rmult_le_compat; auto using Rabs_pos; lra. }
  destruct (MM e (fdiv omega (fmul delta delta)) (k + 1)%nat (3 * k + 3)%nat) as (Z6 & W6); auto; [now apply (Ab _ (k + 1)%nat)|lia|].
  split; [exact Z6|]. eapply Rle_trans; [exact W6|apply P; lia].
Qed.
Lemma g_mish : Rabs (real v) <= match d with F32 => 20 | F64 => 170 end -> fits_in (go_mish_deriv m v).
Proof.
  intros B. destruct d.
  - destruct (g_mish_k 30 20) as (A & Q); [exact B|lia|change (Z.of_nat 30) with 30%Z; lra|lia|]. split; [exact A|]. exists (2 ^ (4 * 30 + 4)). split; [apply rep_big; cbn; lia|exact Q].
  - destruct (g_mish_k 248 170) as (A & Q); [exact B|lia|change (Z.of_nat 248) with 248%Z; lra|lia|]. split; [exact A|]. exists (2 ^ (4 * 248 + 4)). split; [apply rep_big; cbn; lia|exact Q].
Qed.
(** the derivative of GELU for |v| <= 2^k *)
Lemma g_gelu_k (k : nat) : Rabs (real v) <= 2 ^ k -> (k <= 300)%nat -> finite (go_gelu_deriv m v) /\ Rabs (real (go_gelu_deriv m v)) <= 2 ^ (3 * k + 5).
Proof.
  intros B K. unfold go_gelu_deriv. cbv zeta.
  assert (P : forall a c, (a <= c)%nat -> 2 ^ a <= 2 ^ c) by (intros; apply Rle_pow; [lra|lia]).
  assert (RP : forall n, (n <= 1023)%nat -> rep F64 (2 ^ n)) by (intros; apply rep_big; cbn; lia).
  assert (D : forall n, 2 ^ n + 2 ^ n = 2 ^ (n + 1)) by (intros; rewrite Nat.add_1_r, pow2_S; lra).
  assert (AA : forall (x y : val F64) a, finite x -> finite y -> Rabs (real x) <= 2 ^ a -> Rabs (real y) <= 2 ^ a -> (a <= 1022)%nat -> finite (fadd x y) /\ Rabs (real (fadd x y)) <= 2 ^ (a + 1)).
  { intros x y a Fx Fy Bx By L. apply add_abs; auto; [apply RP; lia|]. rewrite <- D. lra. }
  assert (M1 : forall (x y : val F64) a, finite x -> finite y -> Rabs (real x) <= 1 -> Rabs (real y) <= 2 ^ a -> (a <= 1023)%nat -> finite (fmul x y) /\ Rabs (real (fmul x y)) <= 2 ^ a).
  { intros x y a Fx Fy Bx By L. apply mul_abs; auto. rewrite <- (Rmult_1_l (2 ^ a)). apply Rmult_le_compat; auto using Rabs_pos. }
  assert (C : forall n e x, (e = -50 \/ e = -53 \/ e = -55 \/ e = -56)%Z -> (0 <= n < 2 ^ 50)%Z \/ ((0 <= n < 2 ^ 53)%Z /\ e <> (-50)%Z) -> x = IZR n * bpow radix2 e -> finite (lit n e : val F64) /\ Rabs (real (lit n e : val F64)) <= 1).
  { intros n e x He Hn Hx. destruct (lit_eq F64 n e x Hx) as (A & V); [unfold prec, emax; lia..|]. split; [exact A|]. rewrite V, Hx, Rabs_mult, (Rabs_pos_eq (bpow _ _)), <- abs_IZR, Z.abs_eq by (apply bpow_ge_0 || lia).
    destruct Hn as [Hn|(Hn & Ne)].
    - apply Rle_trans with (bpow radix2 50 * bpow radix2 e); [apply Rmult_le_compat_r; [apply bpow_ge_0|]; change (bpow radix2 50) with (IZR (2 ^ 50)); apply IZR_le; lia|]. rewrite <- bpow_plus. change 1 with (bpow radix2 0). apply bpow_le. lia.
    - apply Rle_trans with (bpow radix2 53 * bpow radix2 e); [apply Rmult_le_compat_r; [apply bpow_ge_0|]; change (bpow radix2 53) with (IZR (2 ^ 53)); apply IZR_le; lia|]. rewrite <- bpow_plus. change 1 with (bpow radix2 0). apply bpow_le. lia. }
  destruct (C 1285413802764385 (-55) _ ltac:(lia) ltac:(lia) eq_refl)%Z as (Fa & Ba). destruct (C 898338647171127 (-50) _ ltac:(lia) ltac:(lia) eq_refl)%Z as (Fb & Bb).
  destruct (C 3856241408293155 (-56) _ ltac:(lia) ltac:(lia) eq_refl)%Z as (Fc & Bc). destruct (C 3593350085084881 (-53) _ ltac:(lia) ltac:(lia) eq_refl)%Z as (Fd & Bd).
  destruct (lit_eq F64 1 (-1) (1/2)) as (Fh & Vh); [cbn; lra|cbn; lia..|].
  destruct (cube_value m G v Fv) as (Fx & Vx); [eapply Rle_trans; [exact B|apply P; lia]|].
  assert (Bx : Rabs (real (Pow m v (lit 3 0))) <= 2 ^ (3 * k + 1)).
  { assert (Q : Rabs (real v ^ 3) <= 2 ^ (3 * k)) by (rewrite <- RPow_abs, Nat.mul_comm, pow_mult; apply pow_incr; split; [apply Rabs_pos|exact B]).
    set (x3 := Pow m v (lit 3 0)) in *. replace (real x3) with (real x3 - real v ^ 3 + real v ^ 3) by ring. eapply Rle_trans; [apply Rabs_triang|].
    assert (Q1 : Rabs (real v ^ 3) / 2 ^ 50 <= Rabs (real v ^ 3) / 2).
    { unfold Rdiv. apply Rmult_le_compat_l; [apply Rabs_pos|]. apply Rinv_le_contravar; [lra|]. rewrite pow2_S. assert (1 <= 2 ^ 49) by (apply pow_R1_Rle; lra). lra. }
    assert (I : / 2 ^ 1074 <= / 2) by (apply Rinv_le_contravar; [lra|]; rewrite pow2_S; assert (1 <= 2 ^ 1073) by (apply pow_R1_Rle; lra); lra).
    rewrite <- D. assert (1 <= 2 ^ (3 * k)) by (apply pow_R1_Rle; lra). lra. }
  set (x3 := Pow m v (lit 3 0)) in *.
  destruct (M1 (lit 1285413802764385 (-55)) x3 (3 * k + 1)%nat) as (X1 & Y1); auto; [lia|].
  destruct (M1 (lit 898338647171127 (-50)) v k) as (X2 & Y2); auto; [lia|].
  destruct (AA (fmul (lit 1285413802764385 (-55)) x3) (fmul (lit 898338647171127 (-50)) v) (3 * k + 1)%nat) as (X3 & Y3); auto; [eapply Rle_trans; [exact Y2|apply P; lia]|lia|].
  set (u := fadd (fmul (lit 1285413802764385 (-55)) x3) (fmul (lit 898338647171127 (-50)) v)) in *.
  destruct (M1 (lit 3856241408293155 (-56)) x3 (3 * k + 1)%nat) as (X4 & Y4); auto; [lia|].
  destruct (M1 (lit 3593350085084881 (-53)) v k) as (X5 & Y5); auto; [lia|].
  destruct (AA (fmul (lit 3856241408293155 (-56)) x3) (fmul (lit 3593350085084881 (-53)) v) (3 * k + 1)%nat) as (X6 & Y6); auto; [eapply Rle_trans; [exact Y5|apply P; lia]|lia|].
  set (w := fadd (fmul (lit 3856241408293155 (-56)) x3) (fmul (lit 3593350085084881 (-53)) v)) in *.
  destruct (tanh_range m G u (finite_number _ u X3)) as (Ft & Bt).
  destruct (one_eq F64) as (Fo & Vo).
  assert (R : finite (fdiv fone (Cosh m u)) /\ Rabs (real (fdiv fone (Cosh m u))) <= 1).
  { destruct (cosh_range m G u X3) as [E|(Fc' & Bc')].
    - rewrite E. assert (Ez : fdiv (fone : val F64) infinity = B754_zero false) by (apply B2SF_inj; reflexivity). rewrite Ez. split; [reflexivity|]. unfold real. cbn. rewrite Rabs_R0. lra.
    - apply div_abs; [exact Fo|lra|apply rep_1|]. rewrite Vo, Rabs_R1, Rabs_pos_eq; lra. }
  destruct R as (Fr & Br). destruct (square_range m G _ Fr Br) as (Fq & Bq). set (q := Pow m (fdiv fone (Cosh m u)) (lit 2 0)) in *.
  assert (X7 : finite (fmul w q) /\ Rabs (real (fmul w q)) <= 2 ^ (3 * k + 2)).
  { apply mul_abs; auto; [apply RP; lia|]. rewrite <- (Rmult_1_r (2 ^ (3 * k + 2))). replace (3 * k + 1 + 1)%nat with (3 * k + 2)%nat in Y6 by lia. apply Rmult_le_compat; auto using Rabs_pos. apply Rabs_le. lra. }
  destruct X7 as (X7 & Y7).
  destruct (mul_abs F64 (lit 1 (-1)) (Tanh m u) 1 Fh Ft (rep_1 _)) as (X8 & Y8); [rewrite Vh, (Rabs_pos_eq (1/2)) by lra; lra|].
  assert (1 <= 2 ^ (3 * k + 2)) by (apply pow_R1_Rle; lra).
  destruct (AA (fmul (lit 1 (-1)) (Tanh m u)) (fmul w q) (3 * k + 2)%nat) as (X9 & Y9); auto; [lra|lia|].
  destruct (AA (fadd (fmul (lit 1 (-1)) (Tanh m u)) (fmul w q)) (lit 1 (-1)) (3 * k + 3)%nat) as (Z1 & W1); auto; [replace (3 * k + 3)%nat with (3 * k + 2 + 1)%nat by lia; exact Y9|rewrite Vh, Rabs_pos_eq by lra; specialize (P (3 * k + 2)%nat (3 * k + 3)%nat ltac:(lia)); lra|lia|].
  split; [exact Z1|]. eapply Rle_trans; [exact W1|apply P; lia].
Qed.
Lemma g_gelu : Rabs (real v) <= match d with F32 => 2 ^ 40 | F64 => 2 ^ 300 end -> fits_in (go_gelu_deriv m v).
Proof.
  intros B. destruct d.
  - destruct (g_gelu_k 40 B) as (A & Q); [lia|]. split; [exact A|]. exists (2 ^ (3 * 40 + 5)). split; [apply rep_big; cbn; lia|exact Q].
  - destruct (g_gelu_k 300 B) as (A & Q); [lia|]. split; [exact A|]. exists (2 ^ (3 * 300 + 5)). split; [apply rep_big; cbn; lia|exact Q].
Qed.
End D.
End M.
