(** * The tails of Exp32 and Log32, and the special values of Log32 *)
From Coq Require Import ZArith Bool Lia List Reals Lra Psatz.
From Flocq Require Binary Bits.
From Flocq Require Import Core BinarySingleNaN.
From Verif Require Import AsmModel AsmCode AsmCalls DenseModel FloatModel NumModel FloatSpec FloatProofs NumSpec NumLemmas AsmFloatSpec AsmFloat AsmWords AsmExp AsmExp2 AsmExp4 AsmLog AsmLog2 AsmLog3 AsmLog4 AsmLog5.
Local Open Scope R_scope.

(** ** The tails: math.Exp and math.Log *)
Lemma narrow (v : val F64) : finite v -> Rabs (real v) <= 1.5 * bpow radix2 127 -> finite (conv F64 F32 v) /\ Rabs (real (conv F64 F32 v) - real v) <= eps * Rabs (real v) + tiny.
Proof.
  intros F B. assert (E : Rabs (nearest F32 (real v) - real v) <= eps * Rabs (real v) + tiny).
  { pose proof (round_error F32 (real v)) as E. replace (u F32) with eps in E by (unfold u, eps; simpl; lra). exact E. }
  assert (L : Rabs (nearest F32 (real v)) < limit F32).
  { replace (nearest F32 (real v)) with (real v + (nearest F32 (real v) - real v)) by lra. eapply Rle_lt_trans; [apply Rabs_triang|].
    rewrite limit_eq. change (emax F32) with (1 + 127)%Z. rewrite bpow_plus. change (bpow radix2 1) with 2.
    pose proof tiny_small. assert (1 <= bpow radix2 127) by (change 1 with (bpow radix2 0); apply bpow_le; lia). unfold eps in *. lra. }
  unfold real in *. destruct v as [s|s| |s m e H]; try discriminate.
  - split; [reflexivity|]. cbn [conv B2R]. rewrite Rminus_0_r, Rabs_R0. pose proof tiny_small. unfold eps. lra.
  - pose proof (conv_finite F64 F32 s m e H) as C. cbv zeta in C. rewrite Rlt_bool_true in C by exact L. destruct C as (C1 & C2 & _). split; [exact C1|]. rewrite C2. exact E.
Qed.
Lemma scalar_exp_near g w : go_math g -> finite (decode w) -> real (decode w) <= 88.376 ->
  let y := decode (scalar (Exp g) w) in finite y /\ Rabs (real y - exp (real (decode w))) <= / 2 ^ 21 * exp (real (decode w)) + / 2 ^ 126 /\
    (-87.33 <= real (decode w) -> Rabs (real y - exp (real (decode w))) <= / 2 ^ 21 * exp (real (decode w))).
Proof.
  intros G F H. unfold scalar. rewrite decode_encode. cbv zeta. destruct (conv_wide F32 F64 (decode w) I F) as (F1 & V1 & _).
  set (x := conv F32 F64 (decode w)) in *. assert (V : real x = real (decode w)) by exact V1. rewrite <- V in *. clear V V1.
  assert (Fe : finite (Exp g x)) by (apply (exp_finite g G); [exact F1|lra]). pose proof (exp_value g G x F1 Fe) as E. set (e := exp (real x)) in *. set (v := Exp g x) in *.
  assert (P : 0 < e) by apply exp_pos.
  assert (Be : e <= 1.49 * bpow radix2 127).
  { rewrite pow_exp. assert (Q : exp (0.1733 + 0.1733) <= 1.49).
    { rewrite exp_plus. pose proof (exp_ineq1_le (Ropp 0.1733)) as Q. rewrite exp_Ropp in Q. pose proof (exp_pos 0.1733) as Q0. apply Rmult_le_compat_l with (r := exp 0.1733) in Q; [|lra]. rewrite Rinv_r in Q by lra. nra. }
    apply Rle_trans with (exp (0.1733 + 0.1733) * exp (127 * ln 2)); [|apply Rmult_le_compat_r; [left; apply exp_pos|exact Q]].
    unfold e. rewrite <- exp_plus. pose proof ln2_lower. destruct (Rle_lt_or_eq_dec (real x) (0.1733 + 0.1733 + 127 * ln 2)) as [Q'|Q']; [lra|left; now apply exp_increasing|rewrite Q'; lra]. }
  assert (S1 : 0 < / 2 ^ 1074 <= / 2 ^ 130). { split; [apply Rinv_0_lt_compat, pow_lt; lra|]. rewrite !pow_inv. apply bpow_le. lia. }
  assert (S2 : tiny <= / 2 ^ 130) by (unfold tiny; rewrite !pow_inv; apply bpow_le; lia).
  assert (S3 : / 2 ^ 126 = 16 * / 2 ^ 130). { rewrite !pow_inv. change 16 with (bpow radix2 4). rewrite <- bpow_plus. f_equal. }
  assert (S4 : / 2 ^ 130 <= 0.001). { rewrite pow_inv. apply Rle_trans with (bpow radix2 (-10)); [apply bpow_le; lia|change (bpow radix2 (-10)) with (/ 1024); lra]. }
  assert (B1 : 1 <= bpow radix2 127) by (change 1 with (bpow radix2 0); apply bpow_le; lia).
  assert (E' : Rabs (real v - e) <= / 1000000000 * e + / 2 ^ 130). { eapply Rle_trans; [exact E|]. apply Rplus_le_compat; [|lra]. unfold Rdiv. rewrite Rmult_comm. apply Rmult_le_compat_r; [lra|]. apply Rinv_le_contravar; lra. }
  assert (Bv : Rabs (real v) <= 1.001 * e + / 2 ^ 130). { replace (real v) with (e + (real v - e)) by lra. eapply Rle_trans; [apply Rabs_triang|]. rewrite (Rabs_right e) by lra. lra. }
  destruct (narrow v Fe) as (Fy & Hy); [lra|]. split; [exact Fy|].
  replace (/ 2 ^ 21) with (8 * eps) by (unfold eps; lra). split.
  { replace (real (conv F64 F32 v) - e) with ((real (conv F64 F32 v) - real v) + (real v - e)) by lra. eapply Rle_trans; [apply Rabs_triang|].
    rewrite S3. unfold eps in *. lra. }
  intros HL. assert (L : bpow radix2 (-126) <= e).
  { rewrite pow_exp. unfold e. pose proof ln2_lower. destruct (Rle_lt_or_eq_dec (-126 * ln 2) (real x)) as [Q'|Q']; [lra|left; now apply exp_increasing|rewrite <- Q'; lra]. }
  assert (T1 : tiny <= eps * e). { apply Rle_trans with (eps * bpow radix2 (-126)); [|apply Rmult_le_compat_l; [unfold eps; lra|exact L]]. unfold tiny, eps. rewrite pow_inv. change (/ 16777216) with (bpow radix2 (-24)). rewrite <- bpow_plus. apply bpow_le. lia. }
  assert (T2 : / 2 ^ 1074 <= tiny) by (unfold tiny; rewrite !pow_inv; apply bpow_le; lia).
  assert (E2 : Rabs (real v - e) <= / 1000000000 * e + tiny). { eapply Rle_trans; [exact E|]. apply Rplus_le_compat; [|lra]. unfold Rdiv. rewrite Rmult_comm. apply Rmult_le_compat_r; [lra|]. apply Rinv_le_contravar; lra. }
  assert (B2 : Rabs (real v) <= 1.001 * e). { replace (real v) with (e + (real v - e)) by lra. eapply Rle_trans; [apply Rabs_triang|]. rewrite (Rabs_right e) by lra. unfold eps in *. lra. }
  replace (real (conv F64 F32 v) - e) with ((real (conv F64 F32 v) - real v) + (real v - e)) by lra. eapply Rle_trans; [apply Rabs_triang|]. unfold eps in *. lra.
Qed.
Lemma scalar_log_near g w : go_math g -> (0 <= w < 2 ^ 32)%Z -> finite (decode w) -> / 2 ^ 126 <= real (decode w) ->
  let y := decode (scalar (Log g) w) in finite y /\ Rabs (real y - ln (real (decode w))) <= / 2 ^ 20 * Rabs (ln (real (decode w))).
Proof.
  intros G Hw F H. unfold scalar. rewrite decode_encode. cbv zeta. destruct (conv_up F32 (decode w) F) as (F1 & V1).
  assert (P0 : 0 < real (decode w)). { assert (0 < / 2 ^ 126) by (apply Rinv_0_lt_compat, pow_lt; lra). lra. }
  destruct (split_ok w Hw F H) as (N & HN & _ & _ & Hv & Ex & Nz). set (f := real (decode (shifted_w (fraction_w w)))) in *. clearbody f.
  assert (LX : ln (real (decode w)) = IZR N * ln 2 + ln (1 + f)). { rewrite Ex, ln_mult by (try apply bpow_gt_0; lra). rewrite pow_exp, ln_exp. reflexivity. }
  destruct (size_ok f N Hv) as (S1 & S2). rewrite <- LX in S1, S2.
  assert (HL : Rabs (ln (real (decode w))) <= 90).
  { rewrite LX. destruct (ln_bounds f) as (B1 & B2); [lra|]. pose proof ln2_lower. pose proof ln2_upper. assert (-126 <= IZR N <= 128) by (split; apply IZR_le; lia). apply Rabs_le. split; nra. }
  set (x := conv F32 F64 (decode w)) in *. clearbody x. rewrite <- V1 in *. assert (Fl : finite (Log g x)) by (apply (log_finite g G); auto). pose proof (log_value g G x F1 P0) as E.
  set (L := ln (real x)) in *. set (v := Log g x) in *. clearbody v. pose proof (Rabs_pos L) as PL.
  assert (T1 : 0 < / 2 ^ 1074 <= / 2 ^ 151). { split; [apply Rinv_0_lt_compat, pow_lt; lra|]. rewrite !pow_inv. apply bpow_le. lia. }
  assert (T2 : / 2 ^ 151 <= tiny) by (unfold tiny; rewrite !pow_inv; apply bpow_le; lia).
  assert (Hc : f = 0 /\ N = 0%Z \/ / 33554432 <= Rabs L).
  { destruct Nz as [V0|V0]; [|right; lra]. destruct (Z.eq_dec N 0) as [->|HN0]; [left; auto|right]. assert (1 <= Rabs (IZR N)) by (rewrite <- abs_IZR; apply IZR_le; lia). lra. }
  pose proof tiny_small as TS. assert (B1 : 1000 <= bpow radix2 127). { apply Rle_trans with (bpow radix2 10); [change (bpow radix2 10) with 1024; lra|apply bpow_le; lia]. }
  assert (E' : Rabs (real v - L) <= / 1000000000 * Rabs L + / 2 ^ 1074). { eapply Rle_trans; [exact E|]. apply Rplus_le_compat_r. unfold Rdiv. rewrite Rmult_comm. apply Rmult_le_compat_r; [lra|]. apply Rinv_le_contravar; lra. }
  assert (Bv : Rabs (real v) <= 1.001 * Rabs L + tiny). { replace (real v) with (L + (real v - L)) by lra. eapply Rle_trans; [apply Rabs_triang|]. lra. }
  destruct (narrow v Fl) as (Fy & Hy); [lra|]. split; [exact Fy|]. destruct Hc as [(V0 & N0)|Hc].
  - assert (L0 : L = 0) by (rewrite LX, V0, N0, Rplus_0_r, ln_1; lra). clearbody L. rewrite L0 in *. clear L0 LX.
    assert (Z : real (conv F64 F32 v) = 0).
    { unfold real in *. rewrite Rabs_R0, Rmult_0_r, Rplus_0_l, Rminus_0_r in E'. destruct v as [s|s| |s m e Hb]; try discriminate; [reflexivity|].
      pose proof (conv_finite F64 F32 s m e Hb) as C. cbv zeta in C. set (r := B2R (B754_finite s m e Hb : val F64)) in *.
      assert (Z : nearest F32 r = 0). { unfold nearest. destruct (Req_dec r 0) as [->|R0]; [apply round_0; auto with typeclass_instances|].
        assert (M : (mag radix2 r <= -150)%Z). { apply mag_le_bpow; [exact R0|]. eapply Rle_lt_trans; [exact E'|]. eapply Rle_lt_trans; [apply T1|]. rewrite pow_inv. apply bpow_lt. lia. }
        destruct (mag radix2 r) as (k & Hk). cbn [mag_val] in M. apply (round_N_small radix2 _ _ r k); [now apply Hk|]. unfold FLT_exp. lia. }
      rewrite Z, Rabs_R0, Rlt_bool_true in C by (rewrite limit_eq; apply bpow_gt_0). apply C. }
    rewrite Z, Rminus_0_r, Rabs_R0. lra.
  - replace (real (conv F64 F32 v) - L) with ((real (conv F64 F32 v) - real v) + (real v - L)) by lra. eapply Rle_trans; [apply Rabs_triang|].
    assert (tiny <= / 2 ^ 60) by (unfold tiny; rewrite !pow_inv; apply bpow_le; lia).
    replace (/ 2 ^ 20) with (16 * eps) by (unfold eps; lra). unfold eps in *. lra.
Qed.

(** ** Special values *)
Lemma word_eq w x : (0 <= w < 2 ^ 32)%Z -> decode w = x -> is_nan x = false -> w = encode x.
Proof.
  intros Hw <- Hn. unfold encode, decode in *. rewrite <- (Bits.bits_of_binary_float_of_bits 23 8 eq_refl eq_refl eq_refl w) at 1 by exact Hw. unfold Bits.bits_of_b32. f_equal.
  change (Bits.binary_float_of_bits 23 8 eq_refl eq_refl eq_refl w) with (Bits.b32_of_bits w). destruct (Bits.b32_of_bits w); try reflexivity. discriminate.
Qed.
Lemma encode_range x : (0 <= encode x < 2 ^ 32)%Z.
Proof. apply (Bits.bits_of_binary_float_range 23 8); reflexivity. Qed.
Lemma lor_ones z : (0 <= z < 2 ^ 32)%Z -> Z.lor (2 ^ 32 - 1) z = (2 ^ 32 - 1)%Z.
Proof.
  intros H. change (2 ^ 32 - 1)%Z with (Z.ones 32). apply Z.bits_inj'. intros n Hn. rewrite Z.lor_spec. destruct (Z.lt_ge_cases n 32).
  - rewrite Z.ones_spec_low by lia. reflexivity.
  - rewrite Z.ones_spec_high by lia. cbn [orb]. destruct (Z.eq_dec z 0) as [->|]; [apply Z.bits_0|]. apply Z.bits_above_log2; [lia|]. apply Z.lt_le_trans with 32%Z; [|lia]. apply Z.log2_lt_pow2; lia.
Qed.
Lemma sum_w_range f e : (0 <= sum_w f e < 2 ^ 32)%Z. Proof. unfold sum_w. cbv zeta. cbn [bin words]. unfold arith. apply encode_range. Qed.
Lemma ones_nan : decode (2 ^ 32 - 1) = B754_nan. Proof. apply B2SF_inj. vm_compute. reflexivity. Qed.
Lemma log_w_eq w : log_w w = Z.lor (mask (fle (decode w) fzero)) (result_w (if flt (decode least_w) (decode w) then w else least_w)).
Proof. unfold log_w, result_w. cbv zeta. cbn [bin words]. rewrite zero_w. reflexivity. Qed.
(** zeros, negative numbers and -Inf *)
Lemma log_not_positive c w : fle (decode w) fzero = true -> decode (lane_function (LogKernel32 c) w) = B754_nan.
Proof. intros H. rewrite log_lane, log_w_eq, H. unfold mask. rewrite lor_ones by apply sum_w_range. apply ones_nan. Qed.
(** NaNs, and the numbers below 2^-126 *)
Definition low_log : val F32 := lit (-11447376)%Z (-17)%Z.
Lemma result_least : decode (result_w least_w) = low_log. Proof. apply B2SF_inj. vm_compute. reflexivity. Qed.
Lemma log_low c w : fle (decode w) fzero = false -> flt (decode least_w) (decode w) = false -> decode (lane_function (LogKernel32 c) w) = low_log.
Proof. intros H1 H2. rewrite log_lane, log_w_eq, H1, H2. unfold mask. rewrite Z.lor_0_l. apply result_least. Qed.
Lemma log_nan c w : is_nan (decode w) = true -> decode (lane_function (LogKernel32 c) w) = low_log.
Proof. intros H. destruct (decode w) as [s|s| |s m e B] eqn:E; try discriminate. apply log_low; rewrite E; [reflexivity|]. rewrite least_eq. vm_compute. reflexivity. Qed.
Lemma log_subnormal c w : finite (decode w) -> 0 < real (decode w) <= / 2 ^ 126 -> decode (lane_function (LogKernel32 c) w) = low_log.
Proof.
  intros F H. destruct least_real as (FL & EL). apply log_low.
  - destruct (fle (decode w) fzero) eqn:E; [|reflexivity]. apply le_eq in E; [|exact F|reflexivity]. change (real fzero) with 0 in E. lra.
  - destruct (flt (decode least_w) (decode w)) eqn:E; [|reflexivity]. apply lt_eq in E; auto. lra.
Qed.
(** +Inf *)
Definition high_log : val F32 := lit 11629080%Z (-17)%Z.
Lemma log_infinite c w : (0 <= w < 2 ^ 32)%Z -> decode w = NumSpec.infinity -> decode (lane_function (LogKernel32 c) w) = high_log.
Proof. intros Hw E. rewrite log_lane. rewrite (word_eq w _ Hw E eq_refl). apply B2SF_inj. vm_compute. reflexivity. Qed.
(** in the tail, everything is as math.Log gives it *)
Lemma scalar_log_zero g w : go_math g -> eq_val (decode w) fzero = true -> decode (scalar (Log g) w) = NumSpec.minus_infinity.
Proof.
  intros G E. unfold scalar. rewrite decode_encode. destruct (decode w) as [s|s| |s m e B]; try (destruct s); try discriminate; cbn [conv]; rewrite (log_zero g G); reflexivity.
Qed.
Lemma scalar_log_infinity g w : go_math g -> decode w = NumSpec.infinity -> decode (scalar (Log g) w) = NumSpec.infinity.
Proof. intros G E. unfold scalar. rewrite decode_encode, E. change (conv F32 F64 NumSpec.infinity) with (NumSpec.infinity : val F64). rewrite (log_infinity g G). reflexivity. Qed.
Lemma scalar_exp_overflow g w : go_math g -> finite (decode w) -> 89 <= real (decode w) -> decode (scalar (Exp g) w) = NumSpec.infinity.
Proof.
  intros G F H. unfold scalar. rewrite decode_encode. destruct (conv_up F32 (decode w) F) as (F1 & V1). set (x := conv F32 F64 (decode w)) in *. clearbody x. rewrite <- V1 in H. clear V1 F.
  destruct (exp_either g G x F1) as [Fe|Ei]; [|rewrite Ei; reflexivity]. pose proof (exp_value g G x F1 Fe) as E. set (v := Exp g x) in *. clearbody v.
  assert (B : 1.2 * bpow radix2 128 <= exp (real x)).
  { rewrite pow_exp. apply Rle_trans with (exp (0.27 + 128 * ln 2)).
    - rewrite exp_plus. apply Rmult_le_compat_r; [left; apply exp_pos|]. pose proof (exp_ineq1_le 0.27). lra.
    - pose proof ln2_upper. destruct (Rle_lt_or_eq_dec (0.27 + 128 * ln 2) (real x)) as [Q|Q]; [lra|left; now apply exp_increasing|rewrite Q; lra]. }
  assert (P1 : 1 <= bpow radix2 128) by (change 1 with (bpow radix2 0); apply bpow_le; lia).
  assert (S1 : / 2 ^ 1074 <= 0.001). { rewrite pow_inv. apply Rle_trans with (bpow radix2 (-10)); [apply bpow_le; lia|change (bpow radix2 (-10)) with (/ 1024); lra]. }
  assert (V : bpow radix2 128 <= real v). { apply Rabs_le_inv in E. assert (exp (real x) / 2 ^ 50 <= 0.001 * exp (real x)). { unfold Rdiv. rewrite Rmult_comm. apply Rmult_le_compat_r; [lra|]. replace 0.001 with (/ 1000) by lra. apply Rinv_le_contravar; lra. } lra. }
  unfold real in *. destruct v as [s|s| |s m e Hb]; try discriminate; [cbn [B2R] in V; lra|].
  pose proof (conv_finite F64 F32 s m e Hb) as C. cbv zeta in C. set (r := B2R (B754_finite s m e Hb : val F64)) in *.
  assert (N : bpow radix2 128 <= nearest F32 r). { unfold nearest. assert (P24 : Prec_gt_0 24) by reflexivity. apply round_ge_generic; [apply (FLT_exp_valid (-149) 24)|auto with typeclass_instances|apply generic_format_bpow; unfold FLT_exp; lia|exact V]. }
  rewrite Rlt_bool_false in C. 2: { rewrite limit_eq. eapply Rle_trans; [exact N|apply RRle_abs]. }
  destruct s; [|exact C]. exfalso. change r with (IZR (Z.neg m) * bpow radix2 e) in V. pose proof (bpow_gt_0 radix2 e). assert (IZR (Z.neg m) < 0) by (apply IZR_lt; lia). nra.
Qed.
