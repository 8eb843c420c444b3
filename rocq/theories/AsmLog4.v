(** * How near the kernels of Log32 are to the logarithm *)
From Coq Require Import ZArith String Bool Lia List Reals Lra.
From Flocq Require Binary Bits.
From Flocq Require Import Core BinarySingleNaN.
From Verif Require Import AsmModel AsmCode AsmCalls DenseModel FloatModel NumModel FloatSpec FloatProofs NumSpec NumLemmas AsmFloatSpec AsmFloat AsmWords AsmExp AsmExp2 AsmLog AsmLog2 AsmLog3.
Import ListNotations.
Local Open Scope R_scope.
Local Notation B := (bin words). Local Notation U := (un words).

Lemma l0_eq : decode l0_w = lit 9445819 (-27). Proof. const 9445819%Z (-27)%Z. Qed.
Lemma l1_eq : decode l1_w = lit (-1931831) (-24). Proof. const (-1931831)%Z (-24)%Z. Qed.
Lemma l2_eq : decode l2_w = lit 7836301 (-26). Proof. const 7836301%Z (-26)%Z. Qed.
Lemma l3_eq : decode l3_w = lit (-16670031) (-27). Proof. const (-16670031)%Z (-27)%Z. Qed.
Lemma l4_eq : decode l4_w = lit 9562559 (-26). Proof. const 9562559%Z (-26)%Z. Qed.
Lemma l5_eq : decode l5_w = lit (-699109) (-22). Proof. const (-699109)%Z (-22)%Z. Qed.
Lemma l6_eq : decode l6_w = lit 3355563 (-24). Proof. const 3355563%Z (-24)%Z. Qed.
Lemma l7_eq : decode l7_w = lit (-4194303) (-24). Proof. const (-4194303)%Z (-24)%Z. Qed.
Lemma l8_eq : decode l8_w = lit 5592405 (-24). Proof. const 5592405%Z (-24)%Z. Qed.
Lemma q1_eq : decode q1_w = lit (-14581891) (-36). Proof. const (-14581891)%Z (-36)%Z. Qed.
Lemma q2_eq : decode q2_w = lit 355 (-9). Proof. const 355%Z (-9)%Z. Qed.
Lemma minus_half_eq : decode minus_half_w = lit (-1) (-1). Proof. const (-1)%Z (-1)%Z. Qed.
Lemma l0_real : finite (decode l0_w) /\ real (decode l0_w) = 9445819 / 134217728. Proof. rewrite l0_eq. lit32. Qed.
Lemma l1_real : finite (decode l1_w) /\ real (decode l1_w) = - 1931831 / 16777216. Proof. rewrite l1_eq. lit32. Qed.
Lemma l2_real : finite (decode l2_w) /\ real (decode l2_w) = 7836301 / 67108864. Proof. rewrite l2_eq. lit32. Qed.
Lemma l3_real : finite (decode l3_w) /\ real (decode l3_w) = - 16670031 / 134217728. Proof. rewrite l3_eq. lit32. Qed.
Lemma l4_real : finite (decode l4_w) /\ real (decode l4_w) = 9562559 / 67108864. Proof. rewrite l4_eq. lit32. Qed.
Lemma l5_real : finite (decode l5_w) /\ real (decode l5_w) = - 699109 / 4194304. Proof. rewrite l5_eq. lit32. Qed.
Lemma l6_real : finite (decode l6_w) /\ real (decode l6_w) = 3355563 / 16777216. Proof. rewrite l6_eq. lit32. Qed.
Lemma l7_real : finite (decode l7_w) /\ real (decode l7_w) = - 4194303 / 16777216. Proof. rewrite l7_eq. lit32. Qed.
Lemma l8_real : finite (decode l8_w) /\ real (decode l8_w) = 5592405 / 16777216. Proof. rewrite l8_eq. lit32. Qed.
Lemma q1_real : finite (decode q1_w) /\ real (decode q1_w) = - 14581891 / 68719476736. Proof. rewrite q1_eq. lit32. Qed.
Lemma q2_real : finite (decode q2_w) /\ real (decode q2_w) = 355 / 512. Proof. rewrite q2_eq. lit32. Qed.
Lemma minus_half_real : finite (decode minus_half_w) /\ real (decode minus_half_w) = - / 2. Proof. rewrite minus_half_eq. lit32. Qed.

(** one step of the Horner scheme, with a constant of either sign *)
Lemma horner_either (r q p : val F32) a Q eq bQ P bP : finite r -> finite q -> finite p -> real p = P -> Rabs P <= bP -> bP <= 1 -> Rabs (real r) <= a -> 0 <= a <= 1 -> Rabs (real q - Q) <= eq -> 0 <= eq <= 1 -> Rabs Q <= bQ -> bQ <= 1 ->
  finite (fadd (fmul r q) p) /\ Rabs (real (fadd (fmul r q) p) - (real r * Q + P)) <= a * eq + eps * (2 * (a * bQ) + bP + 2 * a * eq + 3 * eps) + 2 * tiny /\ Rabs (real r * Q + P) <= a * bQ + bP.
Proof.
  intros Fr Fq Fp Ep HP HP1 Ha Ha1 He He1 HQ HQ1. pose proof (Rabs_pos Q). pose proof (Rabs_pos P).
  assert (0 <= bQ) by lra. assert (a * (bQ + eq) <= 2) by nra. assert (0 <= a * eq <= 1) by nra. assert (0 <= a * bQ <= 1) by nra.
  pose proof tiny_small.
  destruct (mul_near r q a Q eq bQ Fr Fq Ha He HQ) as (F1 & E1); [lra|].
  assert (B1 : Rabs (real r * Q) <= a * bQ) by (rewrite Rabs_mult; apply Rmult_le_compat; auto using Rabs_pos).
  assert (B2 : Rabs (real r * Q + P) <= a * bQ + bP) by (eapply Rle_trans; [apply Rabs_triang|]; lra).
  destruct (add_near (fmul r q) p (real r * Q) P (a * eq + eps * (a * (bQ + eq)) + tiny) 0 (a * bQ + bP) F1 Fp E1) as (F2 & E2); [rewrite Ep; apply self|exact B2|unfold eps; lra|].
  split; [exact F2|split; [|exact B2]]. eapply Rle_trans; [exact E2|]. unfold eps in *. nra.
Qed.
(** f times the quotient *)
Lemma horner_ok f : finite (decode f) -> Rabs (real (decode f)) <= 0.41422 ->
  finite (decode (horner_w f)) /\ Rabs (real (decode (horner_w f)) - real (decode f) * quotient (real (decode f))) <= 1.5 * eps * Rabs (real (decode f)) + tiny /\
  Rabs (quotient (real (decode f))) <= 0.49.
Proof.
  intros Fr Hr. pose proof tiny_small as TS.
  destruct l0_real as (F0 & E0), l1_real as (F1 & E1), l2_real as (F2 & E2), l3_real as (F3 & E3), l4_real as (F4 & E4), l5_real as (F5 & E5), l6_real as (F6 & E6), l7_real as (F7 & E7), l8_real as (F8 & E8).
  unfold horner_w. cbv zeta. cbn [bin words]. unfold arith. rewrite !decode_encode. set (x := decode f) in *. unfold quotient. set (v := real x) in *.
  set (q0 := decode l0_w) in *.
  assert (H0 : Rabs (real q0 - 9445819 / 134217728) <= 0) by (rewrite E0; apply self). assert (B0 : Rabs (9445819 / 134217728) <= 0.0704) by (apply Rabs_le; lra).
  destruct (horner_either x q0 (decode l1_w) 0.41422 (9445819 / 134217728) 0 0.0704 _ 0.1152 Fr F0 F1 E1) as (G1 & H1 & B1); [apply Rabs_le; lra|lra|exact Hr|lra|exact H0|lra|exact B0|lra|]. fold v in H1, B1.
  set (q1 := fadd (fmul x q0) (decode l1_w)) in *. set (Q1 := v * (9445819 / 134217728) + - 1931831 / 16777216) in *.
  destruct (horner_either x q1 (decode l2_w) 0.41422 Q1 (0.18 * eps) 0.1445 _ 0.1168 Fr G1 F2 E2) as (G2 & H2 & B2); [apply Rabs_le; lra|lra|exact Hr|lra|eapply Rle_trans; [exact H1|unfold eps; lra]|unfold eps; lra|lra|lra|]. fold v in H2, B2.
  set (q2 := fadd (fmul x q1) (decode l2_w)) in *. set (Q2 := v * Q1 + 7836301 / 67108864) in *.
  destruct (horner_either x q2 (decode l3_w) 0.41422 Q2 (0.32 * eps) 0.177 _ 0.1243 Fr G2 F3 E3) as (G3 & H3 & B3); [apply Rabs_le; lra|lra|exact Hr|lra|eapply Rle_trans; [exact H2|unfold eps; lra]|unfold eps; lra|lra|lra|]. fold v in H3, B3.
  set (q3 := fadd (fmul x q2) (decode l3_w)) in *. set (Q3 := v * Q2 + - 16670031 / 134217728) in *.
  destruct (horner_either x q3 (decode l4_w) 0.41422 Q3 (0.41 * eps) 0.198 _ 0.1425 Fr G3 F4 E4) as (G4 & H4 & B4); [apply Rabs_le; lra|lra|exact Hr|lra|eapply Rle_trans; [exact H3|unfold eps; lra]|unfold eps; lra|lra|lra|]. fold v in H4, B4.
  set (q4 := fadd (fmul x q3) (decode l4_w)) in *. set (Q4 := v * Q3 + 9562559 / 67108864) in *.
  destruct (horner_either x q4 (decode l5_w) 0.41422 Q4 (0.48 * eps) 0.225 _ 0.1667 Fr G4 F5 E5) as (G5 & H5 & B5); [apply Rabs_le; lra|lra|exact Hr|lra|eapply Rle_trans; [exact H4|unfold eps; lra]|unfold eps; lra|lra|lra|]. fold v in H5, B5.
  set (q5 := fadd (fmul x q4) (decode l5_w)) in *. set (Q5 := v * Q4 + - 699109 / 4194304) in *.
  destruct (horner_either x q5 (decode l6_w) 0.41422 Q5 (0.56 * eps) 0.26 _ 0.2001 Fr G5 F6 E6) as (G6 & H6 & B6); [apply Rabs_le; lra|lra|exact Hr|lra|eapply Rle_trans; [exact H5|unfold eps; lra]|unfold eps; lra|lra|lra|]. fold v in H6, B6.
  set (q6 := fadd (fmul x q5) (decode l6_w)) in *. set (Q6 := v * Q5 + 3355563 / 16777216) in *.
  destruct (horner_either x q6 (decode l7_w) 0.41422 Q6 (0.66 * eps) 0.308 _ 0.25 Fr G6 F7 E7) as (G7 & H7 & B7); [apply Rabs_le; lra|lra|exact Hr|lra|eapply Rle_trans; [exact H6|unfold eps; lra]|unfold eps; lra|lra|lra|]. fold v in H7, B7.
  set (q7 := fadd (fmul x q6) (decode l7_w)) in *. set (Q7 := v * Q6 + - 4194303 / 16777216) in *.
  destruct (horner_either x q7 (decode l8_w) 0.41422 Q7 (0.79 * eps) 0.378 _ 0.3334 Fr G7 F8 E8) as (G8 & H8 & B8); [apply Rabs_le; lra|lra|exact Hr|lra|eapply Rle_trans; [exact H7|unfold eps; lra]|unfold eps; lra|lra|lra|]. fold v in H8, B8.
  set (q8 := fadd (fmul x q7) (decode l8_w)) in *. set (Q8 := v * Q7 + 5592405 / 16777216) in *.
  destruct (mul_near x q8 (Rabs v) Q8 (0.99 * eps) 0.49 Fr G8) as (Gh & Hh); [unfold v; lra|eapply Rle_trans; [exact H8|unfold eps; lra]|lra|unfold eps; nra|].
  split; [exact Gh|]. split; [|lra]. fold v in Hh. eapply Rle_trans; [exact Hh|]. pose proof (Rabs_pos v). unfold eps in *. nra.
Qed.

Lemma ln_upper y : 0 < y -> ln y <= y - 1.
Proof. intros H. pose proof (exp_ineq1_le (ln y)) as E. rewrite exp_ln in E by exact H. lra. Qed.
Lemma ln_bounds v : -1 < v -> v <= (1 + v) * ln (1 + v) /\ ln (1 + v) <= v.
Proof.
  intros H. split; [|pose proof (ln_upper (1 + v)); lra]. pose proof (ln_upper (/ (1 + v)) ltac:(apply Rinv_0_lt_compat; lra)) as E. rewrite ln_Rinv in E by lra.
  apply Rmult_le_compat_l with (r := 1 + v) in E; [|lra]. rewrite Rmult_minus_distr_l, Rinv_r in E by lra. lra.
Qed.
Definition log_sum (v n : R) : R := n * (355 / 512) + (v + ((v * v * (v * quotient v) + n * (- 14581891 / 68719476736)) + v * v * - / 2)).
(** the sum of the kernel is near the exact one *)
Lemma sum_near f e N : finite (decode f) -> -0.2929 <= real (decode f) <= 0.41422 -> decode e = lit N 0 -> (-127 <= N <= 128)%Z ->
  finite (decode (sum_w f e)) /\ exists s, Rabs (s - log_sum (real (decode f)) (IZR N)) <= eps * (2.6 * Rabs (real (decode f)) + 0.001 * Rabs (IZR N)) + 20 * tiny /\
    Rabs (real (decode (sum_w f e)) - s) <= eps * Rabs s.
Proof.
  intros Ff Hv En HN. destruct (int_real N) as (Fn & Rn); [lia|]. assert (Hr : Rabs (real (decode f)) <= 0.41422) by (apply Rabs_le; lra).
  destruct (horner_ok f Ff Hr) as (Fh & Hh & BQ). destruct q1_real as (F1 & E1), q2_real as (F2 & E2), minus_half_real as (F3 & E3).
  assert (HNR : -127 <= IZR N <= 128) by (split; apply IZR_le; lia).
  unfold sum_w. cbv zeta. cbn [bin words]. unfold arith. rewrite !decode_encode, En. unfold log_sum.
  set (x := decode f) in *. set (v := real x) in *. set (n' := lit N 0 : val F32) in *. set (h := decode (horner_w f)) in *. set (n := IZR N) in *. set (Q := quotient v) in *.
  set (k1 := decode q1_w) in *. set (k2 := decode q2_w) in *. set (k3 := decode minus_half_w) in *. clearbody x n' h k1 k2 k3 Q.
  pose proof tiny_small as TS. assert (A0 := Rabs_pos v). assert (n0 := Rabs_pos n). assert (NB : Rabs n <= 128) by (apply Rabs_le; lra). set (A := Rabs v) in *. set (m := Rabs n) in *.
  assert (W : Rabs (v * v) = A * A) by (unfold A; apply Rabs_mult). assert (WA : A * A <= 0.41422 * A) by nra. assert (W0 : 0 <= A * A) by nra.
  (* z *)
  destruct (mul_near x x A v 0 A Ff Ff) as (Fz & Hz); [unfold A, v; lra|apply self|unfold A; lra|nra|]. fold v in Hz. set (z := fmul x x) in *.
  assert (Hz' : Rabs (real z - v * v) <= eps * (A * A) + tiny) by (eapply Rle_trans; [exact Hz|]; unfold eps; nra).
  assert (Bz : Rabs (real z) <= 1.01 * (A * A) + tiny). { replace (real z) with (v * v + (real z - v * v)) by lra. eapply Rle_trans; [apply Rabs_triang|]. rewrite W. unfold eps in *. lra. }
  (* z h *)
  assert (BvQ : Rabs (v * Q) <= 0.49 * A). { rewrite Rabs_mult. fold A. nra. }
  destruct (mul_near z h (1.01 * (A * A) + tiny) (v * Q) (1.5 * eps * A + tiny) (0.49 * A) Fz Fh Bz Hh BvQ) as (Ft & Ht); [unfold eps; nra|]. set (t := fmul z h) in *.
  assert (Ht' : Rabs (real t - v * v * (v * Q)) <= 0.45 * eps * A + 2 * tiny).
  { replace (real t - v * v * (v * Q)) with ((real t - real z * (v * Q)) + (real z - v * v) * (v * Q)) by lra. eapply Rle_trans; [apply Rabs_triang|]. rewrite (Rabs_mult (real z - v * v)).
    assert (Rabs (real z - v * v) * Rabs (v * Q) <= (eps * (A * A) + tiny) * (0.49 * A)) by (apply Rmult_le_compat; auto using Rabs_pos).
    assert (A * A * A <= 0.17158 * A) by nra. assert (0 <= A * A * A) by nra. assert (tiny * A <= 0.42 * tiny) by nra. assert (0 <= tiny * A) by nra. assert (tiny * tiny <= 0.001 * tiny) by nra. assert (A * A * tiny <= 0.18 * tiny) by nra.
    unfold eps in *. nra. }
  assert (Bt : Rabs (v * v * (v * Q)) <= 0.0842 * A). { rewrite Rabs_mult, W. assert (A * A * A <= 0.17158 * A) by nra. assert (A * A * Rabs (v * Q) <= A * A * (0.49 * A)) by (apply Rmult_le_compat_l; lra). lra. }
  (* n q1 *)
  destruct (mul_step n' k1 (0.000213 * m) Fn F1) as (Fa & Ha); [rewrite Rn, E1, Rabs_mult; fold m; rewrite (Rabs_left (- 14581891 / 68719476736)) by lra; nra|lra|]. rewrite Rn, E1 in Ha. set (a := fmul n' k1) in *.
  assert (Ba : Rabs (n * (- 14581891 / 68719476736)) <= 0.000213 * m) by (rewrite Rabs_mult; fold m; rewrite (Rabs_left (- 14581891 / 68719476736)) by lra; nra).
  (* y1 *)
  destruct (add_near t a (v * v * (v * Q)) (n * (- 14581891 / 68719476736)) (0.45 * eps * A + 2 * tiny) (eps * (0.000213 * m) + tiny) (0.0842 * A + 0.000213 * m) Ft Fa Ht' Ha) as (Fy1 & Hy1); [eapply Rle_trans; [apply Rabs_triang|]; lra|unfold eps; lra|].
  set (y1 := fadd t a) in *. set (Y1 := v * v * (v * Q) + n * (- 14581891 / 68719476736)) in *.
  assert (BY1 : Rabs Y1 <= 0.0842 * A + 0.000213 * m) by (unfold Y1; eapply Rle_trans; [apply Rabs_triang|]; lra).
  assert (Hy1' : Rabs (real y1 - Y1) <= 0.54 * eps * A + 0.00043 * eps * m + 4 * tiny) by (eapply Rle_trans; [exact Hy1|unfold eps; lra]).
  (* - z / 2 *)
  destruct (mul_near z k3 (1.01 * (A * A) + tiny) (- / 2) 0 (/ 2) Fz F3 Bz) as (Fb & Hb); [rewrite E3; apply self|rewrite Rabs_left; lra|nra|]. set (b := fmul z k3) in *.
  assert (Hb' : Rabs (real b - v * v * - / 2) <= 0.42 * eps * A + 2 * tiny).
  { replace (real b - v * v * - / 2) with ((real b - real z * - / 2) + (real z - v * v) * - / 2) by lra. eapply Rle_trans; [apply Rabs_triang|]. rewrite (Rabs_mult (real z - v * v)), (Rabs_left (- / 2)) by lra. unfold eps in *. lra. }
  assert (Bb : Rabs (v * v * - / 2) <= 0.20712 * A) by (rewrite Rabs_mult, W, (Rabs_left (- / 2)) by lra; lra).
  (* y2 *)
  destruct (add_near y1 b Y1 (v * v * - / 2) _ _ (0.2914 * A + 0.000213 * m) Fy1 Fb Hy1' Hb') as (Fy2 & Hy2); [eapply Rle_trans; [apply Rabs_triang|]; lra|unfold eps; lra|].
  set (y2 := fadd y1 b) in *. set (Y2 := Y1 + v * v * - / 2) in *.
  assert (BY2 : Rabs Y2 <= 0.2914 * A + 0.000213 * m) by (unfold Y2; eapply Rle_trans; [apply Rabs_triang|]; lra).
  assert (Hy2' : Rabs (real y2 - Y2) <= 1.26 * eps * A + 0.00065 * eps * m + 7 * tiny) by (eapply Rle_trans; [exact Hy2|unfold eps; lra]).
  (* f + y2 *)
  destruct (add_near x y2 v Y2 0 _ (1.2914 * A + 0.000213 * m) Ff Fy2 ltac:(apply self) Hy2') as (Fs & Hs); [eapply Rle_trans; [apply Rabs_triang|]; fold A; lra|unfold eps; lra|].
  set (s := fadd x y2) in *.
  assert (Hs' : Rabs (real s - (v + Y2)) <= 2.56 * eps * A + 0.0009 * eps * m + 8 * tiny) by (eapply Rle_trans; [exact Hs|unfold eps; lra]).
  (* n q2 is exact *)
  assert (R : rep F32 (n * (355 / 512))).
  { apply (rep_dyadic F32 (N * 355) (-9)); [|change (2 ^ prec F32)%Z with 16777216%Z; lia|unfold emax, prec; lia|unfold emax, prec; lia]. rewrite mult_IZR. fold n. change (-9)%Z with (Z.neg 9). rewrite neg_pow. change (IZR (Zpower_pos 2 9)) with 512. lra. }
  destruct (mul_in F32 n' k2 _ _ Fn F2 R R) as (Fc & Bc & _); [rewrite Rn, E2; lra|]. assert (Vc : real (fmul n' k2) = n * (355 / 512)) by lra. set (c := fmul n' k2) in *.
  destruct (add_step c s (Rabs (real c + real s)) Fc Fs) as (Fr & Hrr); [lra| |].
  { eapply Rle_trans; [apply Rabs_triang|]. rewrite Vc, Rabs_mult, (Rabs_right (355 / 512)) by lra. fold m.
    replace (real s) with ((v + Y2) + (real s - (v + Y2))) by lra. pose proof (Rabs_triang (v + Y2) (real s - (v + Y2))). pose proof (Rabs_triang v Y2). fold A in H0. unfold eps in *. lra. }
  split; [exact Fr|]. exists (real c + real s). split; [|exact Hrr]. fold Y1. fold Y2. rewrite Vc.
  replace (n * (355 / 512) + real s - (n * (355 / 512) + (v + Y2))) with (real s - (v + Y2)) by lra. eapply Rle_trans; [exact Hs'|]. unfold eps. lra.
Qed.
