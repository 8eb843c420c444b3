(** * How near the kernels of Log32 are to the logarithm, and the special values *)
From Coq Require Import ZArith Bool Lia List Reals Lra Psatz.
From Flocq Require Binary Bits.
From Flocq Require Import Core BinarySingleNaN.
From Verif Require Import AsmModel AsmCode AsmCalls DenseModel FloatModel NumModel FloatSpec FloatProofs NumSpec NumLemmas AsmFloatSpec AsmFloat AsmWords AsmExp AsmExp2 AsmExp4 AsmLog AsmLog2 AsmLog3 AsmLog4.
Local Open Scope R_scope.

Lemma least_eq : decode least_w = lit 1%Z (-126)%Z. Proof. const 1%Z (-126)%Z. Qed.
Lemma pow_inv n : / 2 ^ n = bpow radix2 (- Z.of_nat n).
Proof. rewrite bpow_opp. f_equal. rewrite bpow_powerRZ, <- pow_powerRZ. reflexivity. Qed.
Lemma least_real : finite (decode least_w) /\ real (decode least_w) = / 2 ^ 126.
Proof. rewrite least_eq, pow_inv. apply pow_lit. lia. Qed.
Lemma zero_w : decode 0 = fzero. Proof. apply B2SF_inj. vm_compute. reflexivity. Qed.
Definition result_w (u : Z) : Z := sum_w (shifted_w (fraction_w u)) (adjusted_w (fraction_w u) (power_w u)).
(** above the least normal number, nothing is replaced *)
Lemma log_w_normal w : (0 <= w < 2 ^ 32)%Z -> finite (decode w) -> / 2 ^ 126 <= real (decode w) ->
  exists u, (0 <= u < 2 ^ 32)%Z /\ finite (decode u) /\ real (decode u) = real (decode w) /\ log_w w = result_w u.
Proof.
  intros Hw F H. destruct least_real as (FL & EL). assert (P : 0 < / 2 ^ 126) by (apply Rinv_0_lt_compat, pow_lt; lra).
  unfold log_w. cbv zeta. cbn [bin words]. rewrite zero_w.
  assert (E : fle (decode w) fzero = false). { destruct (fle (decode w) fzero) eqn:E; [|reflexivity]. apply le_eq in E; [|exact F|reflexivity]. change (real fzero) with 0 in E. lra. }
  rewrite E. unfold mask. rewrite Z.lor_0_l. destruct (flt (decode least_w) (decode w)) eqn:E2.
  - exists w. split; [exact Hw|]. split; [exact F|]. split; [reflexivity|]. unfold result_w. reflexivity.
  - apply lt_false in E2; auto. exists least_w. split; [unfold least_w; lia|]. split; [exact FL|]. split; [lra|]. unfold result_w. reflexivity.
Qed.
(** the word of 1 *)
Lemma word_one u : (0 <= u < 2 ^ 32)%Z -> finite (decode u) -> real (decode u) = 1 -> u = one_w.
Proof.
  intros Hu F E. assert (P : 0 < / 2 ^ 126 <= 1). { split; [apply Rinv_0_lt_compat, pow_lt; lra|]. rewrite pow_inv. change 1 with (bpow radix2 0). apply bpow_le. lia. }
  destruct (normal (decode u) F) as (m & e & H & D & Hm & He & R); [lra|]. rewrite (word_of u false m e H Hu D) by lia. rewrite E in R. cbv beta iota.
  assert (M1 : bpow radix2 23 <= IZR (Z.pos m) < bpow radix2 24) by (change (bpow radix2 23) with (IZR (2 ^ 23)); change (bpow radix2 24) with (IZR (2 ^ 24)); split; [apply IZR_le|apply IZR_lt]; lia).
  pose proof (bpow_gt_0 radix2 e) as Pe.
  assert (E1 : bpow radix2 (23 + e) < bpow radix2 1). { rewrite bpow_plus. change (bpow radix2 1) with 2. nra. }
  assert (E2 : bpow radix2 0 < bpow radix2 (24 + e)). { rewrite bpow_plus. change (bpow radix2 0) with 1. nra. }
  apply lt_bpow in E1. apply lt_bpow in E2. assert (e = -23)%Z by lia. subst e.
  assert (IZR (Z.pos m) = IZR (2 ^ 23)) as Em. { change (bpow radix2 (-23)) with (/ 8388608) in R. change (IZR (2 ^ 23)) with 8388608. lra. }
  apply eq_IZR in Em. rewrite Em. reflexivity.
Qed.
Lemma result_one : decode (result_w one_w) = fzero. Proof. apply B2SF_inj. vm_compute. reflexivity. Qed.

(** |f| and |N| against |N ln 2 + ln (1 + f)| *)
Lemma size_ok v N : -0.2929 <= v <= 0.41422 -> let L := Rabs (IZR N * ln 2 + ln (1 + v)) in Rabs v <= 1.49 * L /\ Rabs (IZR N) <= 3.6 * L.
Proof.
  intros Hv L. destruct (ln_bounds v) as (B1 & B2); [lra|]. pose proof ln2_lower as L1. pose proof ln2_upper as L2. set (l := ln (1 + v)) in *.
  assert (Bl : -0.41425 <= l <= 0.41425) by (split; nra).
  destruct (Z.eq_dec N 0) as [->|HN].
  - unfold L. rewrite Rmult_0_l, Rplus_0_l, Rabs_R0. split; [|pose proof (Rabs_pos l); lra]. unfold Rabs. destruct (Rcase_abs v), (Rcase_abs l); nra.
  - assert (1 <= Rabs (IZR N)) by (rewrite <- abs_IZR; apply IZR_le; lia). assert (Rabs v <= 0.41422) by (apply Rabs_le; lra).
    assert (0.6931 * Rabs (IZR N) - 0.41425 <= L).
    { unfold L. set (n := IZR N) in *. clearbody n. unfold Rabs in *. destruct (Rcase_abs n), (Rcase_abs (n * ln 2 + l)); nra. }
    split; lra.
Qed.
Lemma log_sum_split v n l : log_sum v n - (n * l + ln (1 + v)) = n * (355 / 512 - 14581891 / 68719476736 - l) + (log_poly v - ln (1 + v)).
Proof. unfold log_sum, log_poly. generalize (quotient v), (ln (1 + v)). intros. field. Qed.
Theorem log_near c w : (0 <= w < 2 ^ 32)%Z -> finite (decode w) -> / 2 ^ 126 <= real (decode w) ->
  let y := decode (lane_function (LogKernel32 c) w) in finite y /\ Rabs (real y - ln (real (decode w))) <= / 2 ^ 20 * Rabs (ln (real (decode w))).
Proof.
  intros Hw F H. rewrite log_lane. destruct (log_w_normal w Hw F H) as (u & Hu & Fu & Eu & ->). rewrite <- Eu in H |- *. clear Eu F Hw w.
  destruct (split_ok u Hu Fu H) as (N & HN & EN & Ff & Hv & Ex & Nz). unfold result_w.
  destruct (sum_near _ _ N Ff Hv EN) as (Fy & s & Hs & Hy); [lia|]. cbv zeta. split; [exact Fy|].
  set (y := real (decode (sum_w _ _))) in *. remember (real (decode (shifted_w (fraction_w u)))) as v eqn:Dv.
  assert (LX : ln (real (decode u)) = IZR N * ln 2 + ln (1 + v)).
  { rewrite Ex, ln_mult by (try apply bpow_gt_0; lra). rewrite pow_exp, ln_exp. reflexivity. }
  destruct (size_ok v N Hv) as (S1 & S2). rewrite <- LX in S1, S2. pose proof (log_poly_near v Hv) as LP. pose proof ln2_lower as L1. pose proof ln2_upper as L2.
  assert (E : Rabs (log_sum v (IZR N) - ln (real (decode u))) <= 0.0003 * eps * Rabs (IZR N) + 6.5 * eps * Rabs v).
  { rewrite LX. rewrite log_sum_split.
    eapply Rle_trans; [apply Rabs_triang|]. apply Rplus_le_compat; [|unfold eps; replace (6.5 * / 16777216) with (6.5 / 2 ^ 24) by lra; exact LP].
    rewrite Rabs_mult. pose proof (Rabs_pos (IZR N)). assert (Rabs (355 / 512 - 14581891 / 68719476736 - ln 2) <= 0.0003 * eps) by (unfold eps; apply Rabs_le; lra). nra. }
  assert (Hn : v = 0 /\ N = 0%Z \/ / 16777216 <= Rabs v + Rabs (IZR N)).
  { destruct Nz as [V0|V0]; [|right; pose proof (Rabs_pos (IZR N)); lra]. destruct (Z.eq_dec N 0) as [->|HN0]; [left; auto|right]. assert (1 <= Rabs (IZR N)) by (rewrite <- abs_IZR; apply IZR_le; lia). pose proof (Rabs_pos v). lra. }
  destruct Hn as [(V0 & N0)|Hn].
  - assert (X1 : real (decode u) = 1). { rewrite Ex, V0, N0. change (bpow radix2 0) with 1. lra. }
    unfold y. rewrite (word_one u Hu Fu X1). change (sum_w (shifted_w (fraction_w one_w)) (adjusted_w (fraction_w one_w) (power_w one_w))) with (result_w one_w).
    rewrite result_one. replace (real (decode one_w)) with 1 by (symmetry; apply one_real). rewrite ln_1. change (real fzero) with 0. rewrite Rminus_0_r, Rabs_R0. lra.
  - set (L := Rabs (ln (real (decode u)))) in *.
    assert (T : 1000000 * tiny <= eps * (Rabs v + Rabs (IZR N))).
    { apply Rle_trans with (eps * eps). 2: { apply Rmult_le_compat_l; [unfold eps; lra|exact Hn]. } unfold tiny, eps. lra. }
    assert (Hs' : Rabs (s - ln (real (decode u))) <= eps * (9.11 * Rabs v + 0.0014 * Rabs (IZR N))).
    { replace (s - ln (real (decode u))) with ((s - log_sum v (IZR N)) + (log_sum v (IZR N) - ln (real (decode u)))) by lra. eapply Rle_trans; [apply Rabs_triang|]. clear - Hs E T. pose proof tiny_small. pose proof (Rabs_pos v). pose proof (Rabs_pos (IZR N)). unfold eps in *. lra. }
    assert (Bs : Rabs s <= L + eps * (9.11 * Rabs v + 0.0014 * Rabs (IZR N))).
    { replace s with (ln (real (decode u)) + (s - ln (real (decode u)))) at 1 by lra. eapply Rle_trans; [apply Rabs_triang|]. fold L. lra. }
    replace (y - ln (real (decode u))) with ((y - s) + (s - ln (real (decode u)))) by lra. eapply Rle_trans; [apply Rabs_triang|].
    replace (/ 2 ^ 20) with (16 * eps) by (unfold eps; lra). pose proof (Rabs_pos v). pose proof (Rabs_pos (IZR N)). unfold eps in *. lra.
Qed.
