(** * The kernels of Exp32: the results *)
From Coq Require Import ZArith String Bool Lia List Reals Lra.
From Flocq Require Binary Bits.
From Flocq Require Import Core BinarySingleNaN.
From Verif Require Import AsmModel AsmCode AsmCalls DenseModel FloatModel NumModel FloatSpec FloatProofs NumSpec NumLemmas AsmFloatSpec AsmFloat AsmWords AsmExp AsmExp2 AsmExp3.
Import ListNotations.
Local Open Scope R_scope.
Local Notation B := (bin words). Local Notation U := (un words).

Lemma abs_pow r a n : Rabs r <= a -> - a ^ n <= r ^ n <= a ^ n.
Proof. intros H. apply Rabs_le_inv. rewrite <- RPow_abs. apply pow_incr. split; [apply Rabs_pos|exact H]. Qed.
Lemma poly_near r : Rabs r <= 0.347 -> Rabs (poly r - exp r) <= 0.78 * eps.
Proof.
  intros H. pose proof (taylor7_ok r H) as T. apply Rabs_le_inv in T.
  pose proof (abs_pow r _ 3 H). pose proof (abs_pow r _ 4 H). pose proof (abs_pow r _ 5 H). pose proof (abs_pow r _ 6 H). pose proof (abs_pow r _ 7 H).
  assert (D : poly r = taylor7 r + (5592405 / 33554432 - / 6) * r ^ 3 + (11184577 / 268435456 - / 24) * r ^ 4 + (1118497 / 134217728 - / 120) * r ^ 5
     + (6005223 / 4294967296 - / 720) * r ^ 6 + (13658471 / 68719476736 - / 5040) * r ^ 7) by (unfold poly, taylor7; field).
  apply Rabs_le. rewrite D. clear D H. unfold eps. simpl pow in *. lra.
Qed.
Lemma exp_near_1 d : Rabs d <= / 1000 -> Rabs (exp d - 1) <= 1.01 * Rabs d.
Proof.
  intros H. pose proof (exp_ineq1_le d). pose proof (exp_ineq1_le (- d)) as M. rewrite exp_Ropp in M. pose proof (exp_pos d) as P.
  assert (exp d * (1 - d) <= 1). { apply Rmult_le_compat_l with (r := exp d) in M; [|lra]. rewrite Rinv_r in M by lra. lra. }
  unfold Rabs in *. destruct (Rcase_abs d), (Rcase_abs (exp d - 1)); nra.
Qed.
Lemma pow_exp N : bpow radix2 N = exp (IZR N * ln 2).
Proof. apply (bpow_exp radix2). Qed.
Lemma pow_lit N : (-149 <= N <= 127)%Z -> finite (lit 1 N : val F32) /\ real (lit 1 N : val F32) = bpow radix2 N.
Proof.
  intros H. destruct (Z.le_gt_cases N 104) as [L|L]; [apply lit32; [lra|reflexivity|lia|lia]|].
  assert (R : rep F32 (bpow radix2 N)).
  { apply (rep_dyadic F32 8388608 (N - 23)); [|reflexivity|cbn; lia|cbn; lia]. change 8388608 with (bpow radix2 23). rewrite <- bpow_plus. f_equal. lia. }
  destruct R as (R1 & R2). pose proof (binary_normalize_correct (prec F32) (emax F32) (prec_pos F32) (prec_emax F32) mode_NE 1 N false) as C. cbv zeta in C.
  unfold F2R in C. cbn [Fnum Fexp] in C. rewrite Rmult_1_l, <- nearest_eq, <- limit_eq, R1, Rlt_bool_true in C by auto. unfold finite, real, lit. tauto.
Qed.
(** the product of the mantissa and the power of two *)
Lemma scaled_result (c n : Z) N : finite (decode c) -> decode n = lit N 0 -> (-126 <= N <= 127)%Z -> n = encode (lit N 0) ->
  Rabs (real (decode c) * (12102203 / 8388608) - IZR N) <= / 2 + / 50000 ->
  let y := decode (poly_w (reduce_w c n) n) in
  finite y /\ 0 <= real y /\ Rabs (real y - exp (real (decode c))) <= exp (real (decode c)) * (7.9 * eps).
Proof.
  intros Fc En HN Wn H y. destruct (reduce_ok c n N Fc En ltac:(lia) H) as (Fr & Hr & Br). set (r := reduce_w c n) in *.
  destruct (mantissa_ok r Fr Br) as (Fg & Hg). pose proof (poly_near _ Br) as Hp.
  unfold y. rewrite poly_w_eq. cbn [bin words]. unfold arith. rewrite decode_encode, Wn, scale_eq by exact HN.
  set (g := decode (mantissa_w r)) in *. set (v := real (decode r)) in *. set (x := real (decode c)) in *.
  assert (HNR : -127 <= IZR N <= 127) by (split; apply IZR_le; lia).
  assert (exists d, exp v = exp (x - IZR N * ln 2) * exp d /\ Rabs d <= 0.95 * eps) as (d & Ed & Hd).
  { exists (v - (x - IZR N * ln 2)). split; [rewrite <- exp_plus; f_equal; lra|]. pose proof ln2_lower. pose proof ln2_upper.
    replace (v - (x - IZR N * ln 2)) with ((v - (x - IZR N * (c1 - c2))) + IZR N * (ln 2 - (c1 - c2))) by lra.
    assert (Rabs (IZR N * (ln 2 - (c1 - c2))) <= 127 * (/ 80000000000)). { rewrite Rabs_mult. apply Rmult_le_compat; try apply Rabs_pos; apply Rabs_le; unfold c1, c2; lra. }
    eapply Rle_trans; [apply Rabs_triang|]. unfold eps in *. lra. }
  set (E := exp (x - IZR N * ln 2)) in *. set (S := bpow radix2 N).
  assert (ES : exp x = S * E). { unfold S, E. rewrite pow_exp, <- exp_plus. f_equal. lra. }
  assert (SP : 0 < S) by apply bpow_gt_0.
  assert (Hd1 : Rabs (exp d - 1) <= 0.96 * eps). { eapply Rle_trans; [apply exp_near_1; unfold eps in *; lra|]. unfold eps in *. lra. }
  assert (EP : 0 < E) by apply exp_pos.
  assert (Ev : 0.682 <= exp v <= 1.47).
  { apply Rabs_le_inv in Br. fold v in Br. replace v with (v / 2 + v / 2) by lra. rewrite exp_plus. pose proof (exp_ineq1_le (v / 2)). split; [nra|].
    pose proof (exp_ineq1_le (- (v / 2))) as M. rewrite exp_Ropp in M. pose proof (exp_pos (v / 2)). assert (exp (v / 2) * (1 - v / 2) <= 1). { apply Rmult_le_compat_l with (r := exp (v / 2)) in M; [|lra]. rewrite Rinv_r in M by lra. lra. }
    assert (exp (v / 2) <= 1.2105) by nra. nra. }
  assert (EE : Rabs (exp v - E) <= E * (0.96 * eps)). { rewrite Ed. replace (E * exp d - E) with (E * (exp d - 1)) by lra. rewrite Rabs_mult, (Rabs_right E) by lra. apply Rmult_le_compat_l; lra. }
  assert (GE : Rabs (real g - E) <= E * (5.19 * eps)).
  { apply Rabs_le_inv in EE, Hp, Hg. fold g in Hg. fold v in Hg. unfold eps in *. apply Rabs_le. lra. }
  assert (Eb : 0.68 <= E <= 1.471) by (apply Rabs_le_inv in EE; unfold eps in *; lra).
  destruct (pow_lit N) as (Fs & Rs); [lia|]. fold S in Rs.
  assert (ST : tiny <= eps * S).
  { unfold tiny, eps. rewrite pow2, <- bpow_opp. change (/ 16777216) with (bpow radix2 (-24)). unfold S. rewrite <- bpow_plus. apply bpow_le. lia. }
  assert (SU : S <= 8388608 * bpow radix2 104). { change 8388608 with (bpow radix2 23). rewrite <- bpow_plus. apply bpow_le. lia. }
  assert (GB : 0 <= real g <= 1.48). { apply Rabs_le_inv in GE. unfold eps in *. lra. }
  assert (GS : 0 <= real g * S <= 12582912 * bpow radix2 104).
  { pose proof (bpow_gt_0 radix2 104). split; [apply Rmult_le_pos; lra|]. apply Rle_trans with (1.5 * (8388608 * bpow radix2 104)); [|lra]. apply Rmult_le_compat; lra. }
  destruct (mul_in F32 g (lit 1 N) 0 (12582912 * bpow radix2 104) Fg Fs (rep_0 F32)) as (Fy & By & Ey); [|rewrite Rs; exact GS|].
  { apply (rep_dyadic F32 12582912 104); [reflexivity|reflexivity|cbn; lia|cbn; lia]. }
  split; [exact Fy|split; [lra|]]. rewrite Ey, Rs. pose proof (round_error F32 (real g * S)) as RE. replace (u F32) with eps in RE by (unfold u, eps; simpl; lra). change (half_tiny F32) with tiny in RE.
  rewrite (Rabs_right (real g * S)) in RE by lra. rewrite ES.
  replace (nearest F32 (real g * S) - S * E) with ((nearest F32 (real g * S) - real g * S) + S * (real g - E)) by lra.
  eapply Rle_trans; [apply Rabs_triang|]. rewrite (Rabs_mult S), (Rabs_right S) by lra.
  apply Rle_trans with (S * (eps * real g + eps) + S * (E * (5.19 * eps))); [apply Rplus_le_compat; [lra|apply Rmult_le_compat_l; lra]|].
  rewrite <- Rmult_plus_distr_l, Rmult_assoc. apply Rmult_le_compat_l; [lra|]. apply Rabs_le_inv in GE. unfold eps in *. lra.
Qed.

(** ** Both kernels *)
Section Kernel.
Variable w : Z.
Notation x := (decode w).
Notation c := (clamp_w w).
Notation t := (scaled_w c).
Definition exponent : Z := Zfloor (real (decode t)).
Lemma exponent_ok : (-127 <= exponent <= 127)%Z /\ Rabs (real (decode c) * (12102203 / 8388608) - IZR exponent) <= / 2 + / 50000 /\
  exists n, n = encode (lit exponent 0) /\ exp_avx_w w = poly_w (reduce_w c n) n /\ exp_sse_w w = poly_w (reduce_w c n) n.
Proof.
  destruct (clamp_ok w) as (Fc & Bc & _). destruct (scaled_ok c Fc Bc) as (Ft & Bt & Et & St). fold t in Ft, Bt, Et, St.
  assert (HN : (-127 <= exponent <= 127)%Z). { unfold exponent. split; [apply Zfloor_lub; apply Bt|]. assert (Zfloor (real (decode t)) < 128)%Z; [|lia]. apply lt_IZR. eapply Rle_lt_trans; [apply Zfloor_lb|apply Bt]. }
  split; [exact HN|]. split.
  - pose proof (Zfloor_lb (real (decode t))). pose proof (Zfloor_ub (real (decode t))). unfold exponent. apply Rabs_le_inv in Et. apply Rabs_le. lra.
  - exists (encode (lit exponent 0)). split; [reflexivity|].
    assert (K : forall k, decode (B Sub k (B And (B Cmplt t k) one_w)) = lit exponent 0 -> B Sub k (B And (B Cmplt t k) one_w) = encode (lit exponent 0)).
    { intros k Hk. rewrite <- Hk. cbn [bin words]. unfold arith. now rewrite decode_encode. }
    split; [unfold exp_avx_w; cbv zeta; rewrite (K _ (floor_avx t Ft Bt St)); reflexivity|unfold exp_sse_w; cbv zeta; rewrite (K _ (floor_sse t Ft Bt)); reflexivity].
Qed.
End Kernel.
(** both kernels compute the same, from every word *)
Theorem exp_kernels_agree w : lane_function exp_avx32 w = lane_function exp_sse32 w.
Proof. rewrite exp_avx_lane, exp_sse_lane. destruct (exponent_ok w) as (_ & _ & n & _ & -> & ->). reflexivity. Qed.
Lemma exp_lane c w : lane_function (ExpKernel32 c) w = exp_avx_w w.
Proof. unfold ExpKernel32. destruct (avx2 c); cbn [choose]; [|rewrite <- exp_kernels_agree]; apply exp_avx_lane. Qed.
(** a result is finite and not negative, and has the value of the exponential of the clamped argument *)
Lemma exp_clamped w : let y := decode (exp_avx_w w) in let c := real (decode (clamp_w w)) in
  finite y /\ 0 <= real y /\ ((-126 <= exponent w)%Z -> Rabs (real y - exp c) <= exp c * (7.9 * eps)) /\ (exponent w = (-127)%Z -> real y = 0).
Proof.
  intros y cc. destruct (exponent_ok w) as (HN & HE & n & Wn & Ea & _). destruct (clamp_ok w) as (Fc & Bc & _).
  assert (En : decode n = lit (exponent w) 0) by (rewrite Wn; apply decode_encode). unfold y. rewrite Ea.
  destruct (Z.eq_dec (exponent w) (-127)) as [Q|Q].
  - assert (Y : finite (decode (poly_w (reduce_w (clamp_w w) n) n)) /\ real (decode (poly_w (reduce_w (clamp_w w) n) n)) = 0).
    { destruct (reduce_ok (clamp_w w) n (exponent w) Fc En HN HE) as (Fr & _ & Br). destruct (mantissa_ok _ Fr Br) as (Fg & _).
      rewrite poly_w_eq. cbn [bin words]. unfold arith. rewrite decode_encode, Wn, Q, scale_low.
      destruct (mul_in F32 (decode (mantissa_w (reduce_w (clamp_w w) (encode (lit (-127) 0))))) fzero 0 0) as (F & Bd & _); [rewrite <- Q, <- Wn; exact Fg|reflexivity|apply rep_0|apply rep_0|change (real fzero) with 0; lra|]. split; [exact F|lra]. }
    destruct Y as (Y1 & Y2). split; [exact Y1|]. split; [lra|]. split; [lia|intros _; exact Y2].
  - destruct (scaled_result (clamp_w w) n (exponent w) Fc En ltac:(lia) Wn HE) as (Y1 & Y2 & Y3). split; [exact Y1|]. split; [exact Y2|]. split; [intros _; exact Y3|lia].
Qed.
(** the value of eps: 2^-24 *)
Lemma eps8 : 8 * eps = / 2 ^ 21. Proof. unfold eps. simpl. lra. Qed.
Lemma below w : finite (decode w) -> real (decode w) <= 11583653 / 131072 ->
  real (decode (clamp_w w)) = real (decode w) \/ real (decode w) < - 11583653 / 131072 /\ real (decode (clamp_w w)) = - 11583653 / 131072.
Proof.
  intros F H. destruct (Rle_or_lt (- 11583653 / 131072) (real (decode w))) as [L|L]; [left; apply clamp_ok; auto|right]. split; [exact L|].
  destruct hi_real as (Fh & Eh), lo_real as (Fl & El). unfold clamp_w. cbn [bin words].
  assert (flt (decode w) (decode hi_w) = true) as -> by (apply lt_eq; auto; lra).
  destruct (flt (decode lo_w) (decode w)) eqn:Q; [apply lt_eq in Q; auto; lra|exact El].
Qed.
Theorem exp_near c w : finite (decode w) -> -87.68 <= real (decode w) <= 88.376 ->
  let y := decode (lane_function (ExpKernel32 c) w) in finite y /\ Rabs (real y - exp (real (decode w))) <= / 2 ^ 21 * exp (real (decode w)).
Proof.
  intros F H. rewrite exp_lane. destruct (exp_clamped w) as (Y1 & _ & Y2 & _). destruct (clamp_ok w) as (_ & _ & C). destruct (exponent_ok w) as (_ & HE & _).
  rewrite C in * by (auto; lra). split; [exact Y1|]. eapply Rle_trans; [apply Y2|].
  - apply Rabs_le_inv in HE. assert (-127 < exponent w)%Z; [|lia]. apply lt_IZR. lra.
  - rewrite <- eps8. pose proof (exp_pos (real (decode w))). assert (0 < eps) by (unfold eps; lra). nra.
Qed.
Theorem exp_near_low c w : finite (decode w) -> real (decode w) <= 88.376 ->
  let y := decode (lane_function (ExpKernel32 c) w) in finite y /\ Rabs (real y - exp (real (decode w))) <= / 2 ^ 21 * exp (real (decode w)) + / 2 ^ 126.
Proof.
  intros F H. rewrite exp_lane. destruct (exp_clamped w) as (Y1 & _ & Y2 & Y3). destruct (exponent_ok w) as (HN & HE & _). split; [exact Y1|].
  apply Rabs_le_inv in HE. pose proof ln2_lower as L1. pose proof ln2_upper as L2.
  assert (T : 0 < / 2 ^ 126) by (apply Rinv_0_lt_compat, pow_lt; lra). pose proof (exp_pos (real (decode w))) as EP.
  destruct (Z.eq_dec (exponent w) (-127)) as [Q|Q].
  - rewrite Y3, Rminus_0_l, Rabs_Ropp, Rabs_right by (auto; lra). apply Rle_trans with (/ 2 ^ 126); [|assert (0 < / 2 ^ 21) by (apply Rinv_0_lt_compat, pow_lt; lra); nra].
    rewrite pow2, <- bpow_opp, pow_exp. apply Rlt_le, exp_increasing. rewrite Q in HE. destruct (below w F ltac:(lra)) as [E|(E & E')]; [rewrite E in HE|]; cbn [Z.of_nat Pos.of_succ_nat Z.opp Pos.succ]; lra.
  - assert (HN' : (-126 <= exponent w)%Z) by lia. specialize (Y2 HN'). destruct (below w F ltac:(lra)) as [E|(E & E')].
    + rewrite E in Y2. eapply Rle_trans; [exact Y2|]. rewrite <- eps8. assert (0 < eps) by (unfold eps; lra). nra.
    + exfalso. rewrite E' in HE. apply IZR_le in HN'. lra.
Qed.
(** from 88.37626 on the result is the same for every argument, infinities and NaNs included *)
Theorem exp_saturates c w : flt (decode w) (decode hi_w) = false -> decode (lane_function (ExpKernel32 c) w) = lit 11863204 104.
Proof.
  intros H. rewrite exp_lane.
  assert (E : clamp_w w = hi_w). { unfold clamp_w. cbn [bin words]. rewrite H. vm_compute. reflexivity. }
  unfold exp_avx_w. rewrite E. apply B2SF_inj. vm_compute. reflexivity.
Qed.
