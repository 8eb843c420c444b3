(** * NormFloat64 in floating point: the test of a strip and the tail *)
From Coq Require Import List ZArith Reals Lia Lra Bool.
From Flocq Require Import Core BinarySingleNaN.
From Verif Require Import RandModel RandSpec FloatModel FloatSpec NumModel NumSpec NumLemmas AsmFloatSpec AsmFloat OptFloatNum.
From Verif Require Import GaussTables GaussModel GaussSpec GaussTab GaussReal GaussProofs GaussFloat.
Import ListNotations.
Open Scope R_scope.

Lemma u32 : u F32 = / 2 ^ 24. Proof. reflexivity. Qed.
Lemma u64 : u F64 = / 2 ^ 53. Proof. reflexivity. Qed.
Lemma tiny_le d : 0 < half_tiny d <= / 2 ^ 100.
Proof. destruct (tiny_small d) as (A & B). split; [assumption|]. eapply Rle_trans; [exact B|]. apply Rinv_le_contravar; [apply pow2_pos|]. apply Rle_pow; [lra|lia]. Qed.
Lemma level_1 i : (i < 128)%nat -> 0 < level i <= 1.
Proof.
  induction i as [|i IH]; intros Hi; [destruct base_facts as (_ & _ & -> & _); lra|]. destruct (strip_facts (S i) ltac:(lia)) as (_ & H & _).
  replace (S i - 1)%nat with i in H by lia. specialize (IH ltac:(lia)). lra.
Qed.
Lemma rep_2 d : rep d 2. Proof. apply (rep_int d 2). cbn. lia. Qed.

Lemma height_close i w : is_word w -> (1 <= i < 128)%nat ->
  finite (height_of i w) /\ Rabs (real (height_of i w) - (level i + unit w * (level (i - 1) - level i))) <= 6 / 2 ^ 24.
Proof.
  intros H Hi. destruct (unit_of_eq w H) as (Fu & Ru & Bu & _). pose proof (Rinv_0_lt_compat _ (pow2_pos 53)) as P53.
  destruct (strip_facts i Hi) as (_ & (L1 & L2) & _). pose proof (level_1 (i - 1) ltac:(lia)) as L3.
  destruct (f_real i ltac:(lia)) as (Ff & _). destruct (f_real (i - 1) ltac:(lia)) as (Ff' & _). unfold level in *.
  set (f := nth i fn fzero) in *. set (f' := nth (i - 1) fn fzero) in *. pose proof (tiny_le F32) as T.
  destruct (conv_in F64 F32 (unit_of w) 0 1 Fu (rep_0 _) (rep_1 _) ltac:(rewrite Ru; lra)) as (Fc & Bc & Ec).
  pose proof (round_error F32 (real (unit_of w))) as Rc. rewrite <- Ec, Ru, u32 in Rc. rewrite (Rabs_right (unit w)) in Rc by lra.
  destruct (sub_in F32 f' f 0 1 Ff' Ff (rep_0 _) (rep_1 _) ltac:(lra)) as (Fs & Bs & Es).
  pose proof (round_error F32 (real f' - real f)) as Rs. rewrite <- Es, u32 in Rs. rewrite (Rabs_right (real f' - real f)) in Rs by lra.
  set (c := conv F64 F32 (unit_of w)) in *. set (s := fsub f' f) in *.
  destruct (mul_in F32 c s 0 1 Fc Fs (rep_0 _) (rep_1 _)) as (Fp & Bp & Ep).
  { split; [apply Rmult_le_pos; lra|]. replace 1 with (1 * 1) by ring. apply Rmult_le_compat; lra. }
  pose proof (round_error F32 (real c * real s)) as Rp. rewrite <- Ep, u32 in Rp.
  assert (Bq : 0 <= real c * real s <= 1). { split; [apply Rmult_le_pos; lra|]. replace 1 with (1 * 1) by ring. apply Rmult_le_compat; lra. }
  rewrite (Rabs_right (real c * real s)) in Rp by lra. set (p := fmul c s) in *.
  destruct (add_in F32 f p 0 2 Ff Fp (rep_0 _) (rep_2 _) ltac:(lra)) as (Fh & Bh & Eh).
  pose proof (round_error F32 (real f + real p)) as Rh. rewrite <- Eh, u32 in Rh. rewrite (Rabs_right (real f + real p)) in Rh by lra.
  unfold height_of. fold f f' c s p. split; [exact Fh|]. clear Fu Ru Ff Ff' Fc Ec Fs Es Fp Ep Fh Eh. unfold real in *.
  set (D := B2R f' - B2R f) in *. set (h := B2R (fadd f p)) in *. set (vp := B2R p) in *. set (vs := B2R s) in *. set (vc := B2R c) in *. set (vf := B2R f) in *.
  set (uu := unit w) in *. set (t := half_tiny F32) in *. assert (HD : 0 < D <= 1) by (unfold D; lra). clearbody h vp vs vc vf uu t D.
  assert (E1 : Rabs (vc * vs - uu * D) <= / 2 ^ 24 + / 2 ^ 24 + 2 * t).
  { replace (vc * vs - uu * D) with ((vc - uu) * vs + uu * (vs - D)) by ring. eapply Rle_trans; [apply Rabs_triang|]. rewrite !Rabs_mult, (Rabs_right vs), (Rabs_right uu) by lra.
    assert (Rabs (vc - uu) * vs <= (/ 2 ^ 24 * uu + t) * 1) by (apply Rmult_le_compat; [apply Rabs_pos|lra|exact Rc|lra]).
    assert (uu * Rabs (vs - D) <= 1 * (/ 2 ^ 24 * D + t)) by (apply Rmult_le_compat; [lra|apply Rabs_pos|lra|exact Rs]).
    assert (/ 2 ^ 24 * uu <= / 2 ^ 24 * 1) by (apply Rmult_le_compat_l; [left; apply Rinv_0_lt_compat, pow2_pos|lra]).
    assert (/ 2 ^ 24 * D <= / 2 ^ 24 * 1) by (apply Rmult_le_compat_l; [left; apply Rinv_0_lt_compat, pow2_pos|lra]). lra. }
  apply rabs_le in Rh, Rp, E1. apply Rabs_le. destruct T as (T1 & T2).
  assert (/ 2 ^ 100 <= / 2 ^ 24 / 16) by (cbn [pow]; lra).
  assert (/ 2 ^ 24 * (vf + vp) <= / 2 ^ 24 * 2) by (apply Rmult_le_compat_l; [left; apply Rinv_0_lt_compat, pow2_pos|lra]).
  assert (/ 2 ^ 24 * (vc * vs) <= / 2 ^ 24 * 1) by (apply Rmult_le_compat_l; [left; apply Rinv_0_lt_compat, pow2_pos|lra]).
  unfold Rdiv. set (e := / 2 ^ 24) in *. set (g := / 2 ^ 100) in *. clearbody e g. lra.
Qed.

Lemma exp_near q t e : Rabs (q - t) <= e -> e <= / 4 -> Rabs (exp q - exp t) <= 2 * e * exp t.
Proof.
  intros H He. replace q with (t + (q - t)) by ring. rewrite exp_plus. set (x := q - t) in *. clearbody x. apply rabs_le in H.
  pose proof (exp_pos t) as Tp. set (E := exp t) in *. clearbody E.
  pose proof (exp_ineq1_le x) as A. pose proof (exp_ineq1_le (- x)) as B. rewrite exp_Ropp in B. pose proof (exp_pos x) as Xp.
  assert (C : exp x * (1 - x) <= 1). { apply (Rmult_le_reg_l (/ exp x)); [now apply Rinv_0_lt_compat|]. rewrite <- Rmult_assoc, Rinv_l, Rmult_1_l, Rmult_1_r by lra. lra. }
  assert (D : exp x <= 1 + 2 * e). { assert (exp x * (1 - e) <= 1) by nra. nra. }
  replace (E * exp x - E) with (E * (exp x - 1)) by ring. rewrite Rabs_mult, (Rabs_right E) by lra. rewrite Rmult_comm. apply Rmult_le_compat_r; [lra|]. apply Rabs_le. lra.
Qed.
Lemma half_eq : finite minus_half /\ real minus_half = - / 2.
Proof.
  destruct (lit_eq F64 1 (-1) (/ 2)) as (F & E); [cbn; lra|cbn; lia..|]. split; [now apply neg_finite|]. unfold minus_half. now rewrite neg_eq, E.
Qed.
Lemma density_close_to (m : libm) x : go_math m -> finite x -> Rabs (real x) <= 4 ->
  finite (density m x) /\ Rabs (real (density m x) - bell (real x)) <= / 2 ^ 24 + / 2 ^ 30.
Proof.
  intros M Fx Bx. destruct half_eq as (Fm & Em). pose proof (tiny_le F64) as T. pose proof (tiny_le F32) as T'.
  assert (R4 : rep F64 4) by (apply (rep_int F64 4); cbn; lia). assert (R16 : rep F64 16) by (apply (rep_int F64 16); cbn; lia).
  destruct (mul_op minus_half x 4 Fm Fx R4) as (Fp & Bp & Np). { rewrite Em, Rabs_mult, Rabs_Ropp, (Rabs_right (/ 2)) by lra. lra. }
  set (p := fmul minus_half x) in *. destruct (mul_op p x 16 Fp Fx R16) as (Fq & Bq & Nq).
  { rewrite Rabs_mult. replace 16 with (4 * 4) by ring. apply Rmult_le_compat; try apply Rabs_pos; assumption. }
  set (q := fmul p x) in *. unfold near_to in Np, Nq. rewrite Em, u64 in Np. rewrite u64 in Nq.
  assert (Hq : Rabs (real q - - (real x * real x / 2)) <= / 2 ^ 45).
  { replace (real q - - (real x * real x / 2)) with ((real q - real p * real x) + (real p - - / 2 * real x) * real x) by field.
    eapply Rle_trans; [apply Rabs_triang|]. rewrite (Rabs_mult _ (real x)).
    assert (Rabs (real p * real x) <= 16) by (rewrite Rabs_mult; replace 16 with (4 * 4) by ring; apply Rmult_le_compat; try apply Rabs_pos; assumption).
    assert (Rabs (- / 2 * real x) <= 2) by (rewrite Rabs_mult, Rabs_Ropp, (Rabs_right (/ 2)); lra).
    assert (Rabs (real p - - / 2 * real x) * Rabs (real x) <= (/ 2 ^ 53 * 2 + half_tiny F64) * 4).
    { apply Rmult_le_compat; [apply Rabs_pos|apply Rabs_pos| |assumption]. eapply Rle_trans; [exact Np|]. apply Rplus_le_compat_r, Rmult_le_compat_l; [left; apply Rinv_0_lt_compat, pow2_pos|assumption]. }
    assert (/ 2 ^ 53 * Rabs (real p * real x) <= / 2 ^ 53 * 16) by (apply Rmult_le_compat_l; [left; apply Rinv_0_lt_compat, pow2_pos|assumption]).
    assert (/ 2 ^ 100 <= / 2 ^ 53) by (apply Rinv_le_contravar; [apply pow2_pos|apply Rle_pow; [lra|lia]]).
    assert (/ 2 ^ 45 = 256 * / 2 ^ 53) by (cbn [pow]; field). set (e := / 2 ^ 53) in *. clearbody e. lra. }
  pose proof (rabs_le _ _ Bq) as Bq'. pose proof (exp_finite m M q Fq ltac:(lra)) as FE. pose proof (NumSpec.exp_value m M q Fq FE) as VE. pose proof (exp_positive m M q Fq FE) as PE.
  pose proof (exp_near _ _ _ Hq ltac:(cbn [pow]; lra)) as NE. fold (bell (real x)) in NE. pose proof (bell_1 (real x)) as B1. pose proof (bell_pos (real x)) as B0.
  set (b := bell (real x)) in *.
  assert (HE : Rabs (real (Exp m q) - b) <= / 2 ^ 40).
  { assert (exp (real q) <= 2). { apply rabs_le in NE. assert (2 * / 2 ^ 45 * b <= 2 * / 2 ^ 45 * 1) by (apply Rmult_le_compat_l; [pose proof (Rinv_0_lt_compat _ (pow2_pos 45)); lra|lra]). assert (2 * / 2 ^ 45 * 1 <= 1) by (cbn [pow]; lra). lra. }
    replace (real (Exp m q) - b) with ((real (Exp m q) - exp (real q)) + (exp (real q) - b)) by ring. eapply Rle_trans; [apply Rabs_triang|].
    assert (2 * / 2 ^ 45 * b <= 2 * / 2 ^ 45 * 1) by (apply Rmult_le_compat_l; [pose proof (Rinv_0_lt_compat _ (pow2_pos 45)); lra|lra]).
    assert (exp (real q) / 2 ^ 50 <= 2 / 2 ^ 50) by (apply Rmult_le_compat_r; [left; apply Rinv_0_lt_compat, pow2_pos|assumption]).
    assert (/ 2 ^ 1074 <= / 2 ^ 50) by (apply Rinv_le_contravar; [apply pow2_pos|apply Rle_pow; [lra|lia]]). set (z := / 2 ^ 1074) in *. clearbody z.
    assert (2 * / 2 ^ 45 * 1 + 2 / 2 ^ 50 + / 2 ^ 50 <= / 2 ^ 40) by (cbn [pow]; lra). lra. }
  apply rabs_le in HE. assert (E2 : / 2 ^ 40 <= / 2 ^ 31) by (cbn [pow]; lra). assert (E3 : / 2 ^ 31 <= 1) by (cbn [pow]; lra).
  destruct (conv_in F64 F32 (Exp m q) 0 2 FE (rep_0 _) (rep_2 _) ltac:(lra)) as (Fc & _ & Ec).
  pose proof (round_error F32 (real (Exp m q))) as Rc. rewrite <- Ec, u32 in Rc. unfold density. fold p q. split; [exact Fc|].
  rewrite (Rabs_right (real (Exp m q))) in Rc by lra. apply rabs_le in Rc. apply Rabs_le.
  assert (/ 2 ^ 24 * real (Exp m q) <= / 2 ^ 24 * (1 + / 2 ^ 40)) by (apply Rmult_le_compat_l; [left; apply Rinv_0_lt_compat, pow2_pos|lra]).
  assert (/ 2 ^ 24 * (1 + / 2 ^ 40) + / 2 ^ 100 + / 2 ^ 40 <= / 2 ^ 24 + / 2 ^ 30) by (cbn [pow]; lra). lra.
Qed.
