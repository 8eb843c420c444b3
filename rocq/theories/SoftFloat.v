(** * Softmax and Sigmoid in floating point: ranges and errors *)
From Coq Require Import ZArith Bool Lia List Arith Reals Lra Psatz Permutation.
From Flocq Require Import Core BinarySingleNaN Relative.
From Verif Require Import AsmModel AsmCode AsmCalls AsmSpec FloatModel FloatSpec FloatProofs NumModel NumSpec NumLemmas NumProofs NumProofs2 AsmFloatSpec AsmFloat AsmFloat2 AsmWords AsmWordsSpec AsmExp AsmExp2 AsmExp4 AsmLog5 AsmLog6 AsmProofs7 SoftModel SoftSpec SoftProofs.
Import ListNotations.
Local Open Scope R_scope.

(** ** Real analysis *)
Definition rho (d : dtype) : R := match d with F32 => / 2 ^ 21 | F64 => / 2 ^ 50 end.
Definition tau0 (d : dtype) : R := match d with F32 => / 2 ^ 126 | F64 => / 2 ^ 1074 end.
Definition eta (d : dtype) : R := match d with F32 => / 2 ^ 17 | F64 => / 2 ^ 42 end.
Definition tau (d : dtype) : R := match d with F32 => / 2 ^ 125 | F64 => / 2 ^ 1021 end.
Definition far (d : dtype) : R := match d with F32 => 104 | F64 => 746 end.
Lemma exp_low k r : r <= - INR k * 0.6932 -> exp r <= / 2 ^ k.
Proof.
  intros H. rewrite pow_inv, pow_exp, opp_IZR, <- INR_IZR_INZ. pose proof ln2_upper. pose proof (pos_INR k).
  apply Rle_trans with (exp (- INR k * 0.6932)); [destruct H as [H|H]; [left; now apply exp_increasing|rewrite H; lra]|].
  destruct (Req_dec (INR k) 0) as [Z|Z]; [rewrite Z; right; f_equal; lra|]. left. apply exp_increasing. nra.
Qed.
Lemma inv_le n m : (n <= m)%nat -> / 2 ^ m <= / 2 ^ n.
Proof. intros H. apply Rinv_le_contravar; [apply pow_lt; lra|]. apply Rle_pow; [lra|exact H]. Qed.
Lemma inv_split n m : / 2 ^ (n + m) = / 2 ^ n * / 2 ^ m.
Proof. rewrite pow_add. rewrite Rinv_mult. reflexivity. Qed.
Lemma inv_pos n : 0 < / 2 ^ n. Proof. apply Rinv_0_lt_compat, pow_lt. lra. Qed.
Lemma exp_shift D t e U T r t0 h t1 e0 : D <= 0 -> Rabs (t - D) <= U * Rabs D -> 0 <= U <= / 1000 -> 0 <= T -> U * T <= / 1000 ->
  0 <= r -> 0 <= t0 -> Rabs (e - exp t) <= r * exp t + t0 -> exp (- (T * (1 - U))) <= e0 -> r * (1 + 1.01 * (U * T)) + 1.01 * (U * T) <= h -> (1 + r) * e0 + t0 <= t1 -> t0 <= t1 ->
  Rabs (e - exp D) <= h * exp D + t1.
Proof.
  intros HD Ht HU HT HUT Hr H0 He Hx Hh H1 H2. rewrite (Rabs_left1 D) in Ht by exact HD. pose proof (exp_pos D) as PD. pose proof (exp_pos t) as Pt.
  replace (e - exp D) with ((e - exp t) + (exp t - exp D)) by ring. eapply Rle_trans; [apply Rabs_triang|].
  destruct (Rle_or_lt (- T) D) as [L|L].
  - assert (B : Rabs (t - D) <= U * T) by (eapply Rle_trans; [exact Ht|]; apply Rmult_le_compat_l; lra).
    assert (E : exp t = exp D * exp (t - D)) by (rewrite <- exp_plus; f_equal; ring).
    assert (X : Rabs (exp (t - D) - 1) <= 1.01 * (U * T)). { eapply Rle_trans; [apply exp_near_1; lra|]. apply Rmult_le_compat_l; lra. }
    assert (Y : Rabs (exp t - exp D) <= exp D * (1.01 * (U * T))). { replace (exp t - exp D) with (exp D * (exp (t - D) - 1)) by (rewrite E; ring). rewrite Rabs_mult, (Rabs_right (exp D)) by lra. apply Rmult_le_compat_l; lra. }
    assert (Z : exp t <= exp D * (1 + 1.01 * (U * T))). { apply Rabs_le_inv in Y. lra. }
    apply Rle_trans with (r * (exp D * (1 + 1.01 * (U * T))) + t0 + exp D * (1.01 * (U * T))).
    + apply Rplus_le_compat; [|exact Y]. eapply Rle_trans; [exact He|]. apply Rplus_le_compat_r, Rmult_le_compat_l; lra.
    + replace (r * (exp D * (1 + 1.01 * (U * T))) + t0 + exp D * (1.01 * (U * T))) with ((r * (1 + 1.01 * (U * T)) + 1.01 * (U * T)) * exp D + t0) by ring. apply Rplus_le_compat; [|exact H2]. apply Rmult_le_compat_r; lra.
  - assert (Bt : t <= - (T * (1 - U))). { apply Rabs_le_inv in Ht. nra. }
    assert (Et : exp t <= e0). { eapply Rle_trans; [|exact Hx]. destruct Bt as [B|B]; [left; now apply exp_increasing|rewrite B; lra]. }
    assert (Ed : exp D <= e0). { eapply Rle_trans; [|exact Hx]. left. apply exp_increasing. nra. }
    assert (Y : Rabs (exp t - exp D) <= e0) by (apply Rabs_le; lra).
    assert (0 <= h * exp D). { apply Rmult_le_pos; [|lra]. eapply Rle_trans; [|exact Hh]. assert (0 <= U * T) by (apply Rmult_le_pos; lra). nra. }
    nra.
Qed.
(** the last steps: s is the computed sum of the exponentials, W its exact value, S the sum of the exact exponentials *)
Lemma soft_real E S e s W inv p h t1 a gm uu ht nt : 1 <= S -> 0 <= E <= S -> 0 <= e -> Rabs (e - E) <= h * E + t1 ->
  Rabs (W - S) <= h * S + nt -> nt <= h / 8 -> 0 <= gm <= 8 / 7 * a -> 0 <= a <= / 8 -> Rabs (s - W) <= gm * W -> 0 < h <= / 100000 -> 0 <= t1 -> 0 <= nt ->
  0 <= uu <= h / 128 -> 0 <= ht <= t1 / 2 -> Rabs (inv - / s) <= uu * / s -> Rabs (p - e * inv) <= uu * (e * inv) + ht ->
  Rabs (p - E / S) <= (4 * h + 2 * a) * (E / S) + 2 * t1.
Proof.
  intros HS HE He HeE HW Hnt Hg Ha Hs Hh Ht Hn Hu Hht Hi Hp.
  assert (KW : W <= (1 + 1.125 * h) * S). { apply Rabs_le_inv in HW. nra. }
  assert (W0 : 0 <= W). { apply Rabs_le_inv in HW. nra. }
  assert (GW : gm * W <= 1.1431 * a * S).
  { apply Rle_trans with (8 / 7 * a * ((1 + 1.125 * h) * S)); [apply Rmult_le_compat; lra|]. assert (0 <= a * S) by (apply Rmult_le_pos; lra). nra. }
  set (k := 1.2 * h + 1.15 * a).
  assert (Hk : Rabs (s - S) <= k * S).
  { replace (s - S) with ((s - W) + (W - S)) by ring. eapply Rle_trans; [apply Rabs_triang|]. assert (0 <= a * S) by (apply Rmult_le_pos; lra). assert (h <= h * S) by nra. unfold k. lra. }
  assert (k0 : 0 <= k <= 0.1439) by (unfold k; lra).
  assert (Ps : 0.856 * S <= s). { apply Rabs_le_inv in Hk. assert (k * S <= 0.1439 * S) by (apply Rmult_le_compat_r; lra). lra. }
  assert (P0 : 0 < s) by lra. assert (Pi : 0 < / s) by (apply Rinv_0_lt_compat; exact P0).
  assert (Is : / s <= 1.17 * / S). { replace 1.17 with (/ (/ 1.17)) by lra. rewrite <- Rinv_mult. apply Rinv_le_contravar; [|]; lra. }
  assert (IS : 0 < / S <= 1). { split; [apply Rinv_0_lt_compat; lra|]. rewrite <- Rinv_1. apply Rinv_le_contravar; lra. }
  set (q := E / S). assert (q0 : 0 <= q) by (unfold q, Rdiv; apply Rmult_le_pos; lra).
  assert (Q1 : Rabs (e * / s - q) <= 1.17 * (h + k) * q + 1.17 * t1).
  { replace (e * / s - q) with (((e - E) - q * (s - S)) * / s) by (unfold q; field; lra).
    rewrite Rabs_mult, (Rabs_right (/ s)) by lra. apply Rle_trans with (((h * E + t1) + q * (k * S)) * (1.17 * / S)).
    - apply Rmult_le_compat; [apply Rabs_pos|lra| |exact Is]. unfold Rminus at 1. eapply Rle_trans; [apply Rabs_triang|]. rewrite Rabs_Ropp, Rabs_mult, (Rabs_right q) by lra. apply Rplus_le_compat; [exact HeE|]. apply Rmult_le_compat_l; lra.
    - replace (((h * E + t1) + q * (k * S)) * (1.17 * / S)) with (1.17 * (h + k) * q + 1.17 * t1 * / S) by (unfold q; field; lra). assert (t1 * / S <= t1 * 1) by (apply Rmult_le_compat_l; lra). lra. }
  assert (Q2 : e * / s <= 1.18 * q + 1.17 * t1).
  { apply Rabs_le_inv in Q1. assert (1.17 * (h + k) * q <= 0.18 * q) by (apply Rmult_le_compat_r; [exact q0|]; unfold k in *; lra). lra. }
  assert (Q0 : 0 <= e * / s) by (apply Rmult_le_pos; lra).
  assert (P1 : Rabs (e * inv - e * / s) <= uu * (e * / s)).
  { replace (e * inv - e * / s) with (e * (inv - / s)) by ring. rewrite Rabs_mult, (Rabs_right e) by lra. replace (uu * (e * / s)) with (e * (uu * / s)) by ring. apply Rmult_le_compat_l; lra. }
  assert (P2 : uu * (e * inv) <= 1.001 * (uu * (e * / s))). { apply Rabs_le_inv in P1. assert (uu <= 0.001) by lra. assert (0 <= uu * (e * / s)) by (apply Rmult_le_pos; lra). nra. }
  replace (p - q) with ((p - e * inv) + (e * inv - e * / s) + (e * / s - q)) by ring.
  eapply Rle_trans; [apply Rabs_triang|]. eapply Rle_trans; [apply Rplus_le_compat_r, Rabs_triang|].
  assert (P3 : uu * (e * / s) <= h / 128 * (1.18 * q + 1.17 * t1)) by (apply Rmult_le_compat; lra).
  assert (H9 : 0 <= h * q) by (apply Rmult_le_pos; lra). assert (H8 : h * t1 <= / 100000 * t1) by (apply Rmult_le_compat_r; lra).
  assert (X1 : 1.17 * (h + k) * q = 2.574 * (h * q) + 1.3455 * (a * q)) by (unfold k; lra). assert (0 <= a * q) by (apply Rmult_le_pos; lra).
  replace ((4 * h + 2 * a) * q) with (4 * (h * q) + 2 * (a * q)) by ring. nra.
Qed.

(** ** One exponential *)
Lemma nonneg_finite d (e : val d) : nonneg e -> finite e -> 0 <= real e.
Proof. intros [(_ & P)|E] F; [exact P|]. subst e. discriminate. Qed.
Lemma exp_fin g d c i n (t e : val d) : go_math g -> SoftProofs.exp_value g d c i n t e -> finite t -> real t <= 0 -> finite e /\ 0 <= real e /\ Rabs (real e - exp (real t)) <= rho d * exp (real t) + tau0 d.
Proof.
  intros G. unfold SoftProofs.exp_value, rho, tau0. destruct d.
  - intros (w & <- & ->) F L. destruct (i <? whole (width c) n)%nat.
    + destruct (exp_near_low c w F ltac:(lra)) as (A & B). split; [exact A|]. split; [|exact B]. rewrite exp_lane. apply (exp_clamped w).
    + destruct (scalar_exp_near g w G F ltac:(lra)) as (A & B & _). split; [exact A|]. split; [|exact B]. revert A. unfold scalar. rewrite decode_encode. apply nonneg_finite. apply conv_nonneg. apply (exp_nonneg g G). apply conv_number. now apply finite_number.
  - intros -> F L. assert (A : finite (Exp g t)) by (apply (exp_finite g G); auto; lra). split; [exact A|]. split; [now apply (exp_positive g G)|]. pose proof (NumSpec.exp_value g G t F A) as E. unfold Rdiv in E. lra.
Qed.
Lemma minus_infinity_low : flt (NumSpec.minus_infinity : val F32) (decode hi_w) = true. Proof. vm_compute. reflexivity. Qed.
Lemma low_minus_infinity : flt (decode lo_w) (NumSpec.minus_infinity : val F32) = false. Proof. vm_compute. reflexivity. Qed.
Lemma clamp_low w : decode w = NumSpec.minus_infinity -> clamp_w w = lo_w.
Proof. intros E. unfold clamp_w. cbn [bin words]. rewrite E, minus_infinity_low, E, low_minus_infinity. reflexivity. Qed.
Lemma exp_low_zero w : clamp_w w = lo_w -> decode (exp_avx_w w) = B754_zero false.
Proof. intros E. unfold exp_avx_w. rewrite E. apply B2SF_inj. vm_compute. reflexivity. Qed.
Lemma exp_inf g d c i n (e : val d) : go_math g -> SoftProofs.exp_value g d c i n NumSpec.minus_infinity e -> finite e /\ real e = 0.
Proof.
  intros G. unfold SoftProofs.exp_value. destruct d.
  - intros (w & Ew & ->). destruct (i <? whole (width c) n)%nat.
    + rewrite exp_lane, (exp_low_zero w (clamp_low w Ew)). split; reflexivity.
    + unfold scalar. rewrite decode_encode, Ew. change (conv F32 F64 NumSpec.minus_infinity) with (NumSpec.minus_infinity : val F64). rewrite (exp_minus_infinity g G). split; reflexivity.
  - intros ->. rewrite (exp_minus_infinity g G). split; reflexivity.
Qed.
Lemma eta_tau d : 0 < eta d <= / 100000 /\ 0 < tau d /\ tau d <= / 1000.
Proof. assert (Q : / 2 ^ 17 <= / 100000) by (cbn; lra). unfold eta, tau. destruct d; (split; [split; [apply inv_pos|]|split; [apply inv_pos|]]); (apply Rle_trans with (/ 2 ^ 17); [apply inv_le; lia|]); try exact Q; cbn; lra. Qed.
Lemma shift_32 : let U := / 2 ^ 24 in let T := 104 in 0 <= U <= / 1000 /\ U * T <= / 1000 /\ / 2 ^ 21 * (1 + 1.01 * (U * T)) + 1.01 * (U * T) <= / 2 ^ 17 /\ exp (- (T * (1 - U))) <= / 2 ^ 149.
Proof.
  cbv zeta. assert (/ 2 ^ 24 = / 16777216) by (f_equal; cbn; lra). assert (/ 2 ^ 21 = / 2097152) by (f_equal; cbn; lra). assert (/ 2 ^ 17 = / 131072) by (f_equal; cbn; lra).
  repeat split; try lra. apply exp_low. replace (INR 149) with 149 by (rewrite INR_IZR_INZ; reflexivity). lra.
Qed.
Lemma shift_64 : let U := / 2 ^ 53 in let T := 746 in 0 <= U <= / 1000 /\ U * T <= / 1000 /\ / 2 ^ 50 * (1 + 1.01 * (U * T)) + 1.01 * (U * T) <= / 2 ^ 42 /\ exp (- (T * (1 - U))) <= / 2 ^ 1074.
Proof.
  cbv zeta. assert (/ 2 ^ 53 = / 9007199254740992) by (f_equal; cbn; lra). assert (/ 2 ^ 50 = / 1125899906842624) by (f_equal; cbn; lra). assert (/ 2 ^ 42 = / 4398046511104) by (f_equal; cbn; lra).
  repeat split; try lra. apply exp_low. replace (INR 1074) with 1074 by (rewrite INR_IZR_INZ; reflexivity). lra.
Qed.
Definition low (d : dtype) : R := match d with F32 => / 2 ^ 149 | F64 => / 2 ^ 1074 end.
Lemma inv_small n : (10 <= n)%nat -> / 2 ^ n <= / 1000.
Proof. intros H. apply Rle_trans with (/ 2 ^ 10); [now apply inv_le|]. cbn. lra. Qed.
Lemma low_sum k n m r : (1 <= m)%nat -> (2 <= n)%nat -> 0 <= r <= 1 -> (1 + r) * / 2 ^ (k + n) + / 2 ^ (k + m) <= / 2 ^ k.
Proof.
  intros Hm Hn Hr. rewrite !inv_split. pose proof (inv_pos k) as P. pose proof (inv_le 1 m Hm) as A. pose proof (inv_le 2 n Hn) as B. set (q := / 2 ^ k) in *. set (a := / 2 ^ m) in *. set (b := / 2 ^ n) in *. clearbody q a b. cbn in A, B.
  assert ((1 + r) * b + a <= 1) by nra. nra.
Qed.
Lemma consts d : 0 <= u d <= / 1000 /\ 0 <= far d /\ u d * far d <= / 1000 /\ 0 <= rho d /\ 0 <= tau0 d /\ exp (- (far d * (1 - u d))) <= low d /\
  rho d * (1 + 1.01 * (u d * far d)) + 1.01 * (u d * far d) <= eta d /\ (1 + rho d) * low d + tau0 d <= tau d /\ tau0 d <= tau d.
Proof.
  unfold u, far, rho, tau0, eta, tau, low. destruct d.
  - destruct shift_32 as (S1 & S2 & S3 & S4). split; [exact S1|]. split; [lra|]. split; [exact S2|]. split; [left; apply inv_pos|]. split; [left; apply inv_pos|]. split; [exact S4|]. split; [exact S3|]. split; [|apply inv_le; lia].
    apply (low_sum 125 24 1); [lia|lia|]. split; [left; apply inv_pos|]. pose proof (inv_small 21 ltac:(lia)). lra.
  - destruct shift_64 as (S1 & S2 & S3 & S4). split; [exact S1|]. split; [lra|]. split; [exact S2|]. split; [left; apply inv_pos|]. split; [left; apply inv_pos|]. split; [exact S4|]. split; [exact S3|]. split; [|apply inv_le; lia].
    apply (low_sum 1021 53 53); [lia|lia|]. split; [left; apply inv_pos|]. pose proof (inv_small 50 ltac:(lia)). set (z := / 2 ^ 50) in *. clearbody z. lra.
Qed.
Lemma elem g d c i n (x mx e : val d) : go_math g -> finite x -> finite mx -> real x <= real mx -> SoftProofs.exp_value g d c i n (fadd x (fneg mx)) e ->
  finite e /\ 0 <= real e /\ Rabs (real e - exp (real x - real mx)) <= eta d * exp (real x - real mx) + tau d.
Proof.
  intros G Fx Fm L E. destruct (shifted d x mx Fx Fm L) as (_ & N & [I|F]).
  - rewrite I in E. destruct (exp_inf g d c i n e G E) as (Fe & Ze). split; [exact Fe|]. split; [lra|]. rewrite Ze, Rminus_0_l, Rabs_Ropp. pose proof (exp_pos (real x - real mx)) as P. rewrite Rabs_right by lra.
    assert (D : real x - real mx < - 1000).
    { apply Rnot_le_lt. intros B. destruct (add_in d x (fneg mx) (IZR (-1000)) 0 Fx (neg_finite d mx Fm)) as (A & _); [apply rep_int; reflexivity|apply rep_0|rewrite neg_eq; lra|]. rewrite I in A. discriminate. }
    apply Rle_trans with (tau d); [|pose proof (proj1 (eta_tau d)) as X; assert (0 <= eta d * exp (real x - real mx)) by (apply Rmult_le_pos; [apply Rlt_le, X|lra]); lra]. apply Rle_trans with (/ 2 ^ 1021); [|unfold tau; destruct d; [apply inv_le; lia|apply Rle_refl]].
    apply exp_low. replace (INR 1021) with 1021 by (rewrite INR_IZR_INZ; reflexivity). lra.
  - destruct (exp_fin g d c i n _ e G E F (N F)) as (Fe & Pe & Be). split; [exact Fe|]. split; [exact Pe|].
    destruct (add_back d x (fneg mx) F) as (_ & _ & V). pose proof (plus_error_rel d x (fneg mx)) as Er. rewrite <- V, neg_eq in Er. replace (real x + - real mx) with (real x - real mx) in Er by ring.
    destruct (consts d) as (C1 & C2 & C3 & C4 & C5 & C6 & C7 & C8 & C9).
    apply (exp_shift (real x - real mx) (real (fadd x (fneg mx))) (real e) (u d) (far d) (rho d) (tau0 d) (eta d) (tau d) (low d)); auto. lra.
Qed.
