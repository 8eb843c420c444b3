(** * NormFloat64 in floating point: one attempt, and the tail *)
From Coq Require Import List ZArith Reals Lia Lra Bool.
From Flocq Require Import Core BinarySingleNaN.
From Verif Require Import RandModel RandSpec FloatModel FloatSpec NumModel NumSpec NumLemmas AsmFloatSpec AsmFloat OptFloatNum.
From Verif Require Import GaussTables GaussModel GaussSpec GaussTab GaussReal GaussProofs GaussFloat GaussAttempt.
Import ListNotations.
Open Scope R_scope.

Lemma real_of d (v : val d) m e : B2SF v = SpecFloat.S754_finite false m e -> finite v /\ real v = IZR (Zpos m) * bpow radix2 e.
Proof. destruct v as [s|s| |s m' e' B]; cbn [B2SF]; intros H; inversion H; subst. split; reflexivity. Qed.
Lemma rn_eq : finite rn /\ Rabs (real rn - tail_start) <= / 2 ^ 50.
Proof.
  assert (E : B2SF rn = SpecFloat.S754_finite false 7752090750102504 (-51)) by (vm_compute; reflexivity).
  destruct (real_of _ _ _ _ E) as (F & ->). split; [exact F|]. change (bpow radix2 (-51)) with (/ IZR (2 ^ 51)). unfold tail_start. apply Rabs_le.
  rewrite (powZ 51 51 eq_refl). cbn [pow]. lra.
Qed.
Lemma inv_rn_eq : finite inv_rn /\ Rabs (real inv_rn - / tail_start) <= / tail_start * / 2 ^ 52.
Proof.
  assert (E : B2SF inv_rn = SpecFloat.S754_finite false 5232758557008245 (-54)) by (vm_compute; reflexivity).
  destruct (real_of _ _ _ _ E) as (F & ->). split; [exact F|]. change (bpow radix2 (-54)) with (/ IZR (2 ^ 54)). rewrite (powZ 54 54 eq_refl).
  assert (P : 0 < / tail_start) by (apply Rinv_0_lt_compat; unfold tail_start; lra).
  assert (Q : IZR 5232758557008245 * / 2 ^ 54 * tail_start - 1 <= / 2 ^ 52 /\ - / 2 ^ 52 <= IZR 5232758557008245 * / 2 ^ 54 * tail_start - 1) by (unfold tail_start; cbn [pow]; lra).
  set (z := IZR 5232758557008245 * / 2 ^ 54) in *. replace (z - / tail_start) with (/ tail_start * (z * tail_start - 1)) by (field; unfold tail_start; lra).
  rewrite Rabs_mult, (Rabs_right (/ tail_start)) by lra. apply Rmult_le_compat_l; [lra|]. apply Rabs_le. lra.
Qed.

Section Tail.
Variable m : libm.
Hypothesis M : go_math m.

Lemma ln_2 : ln 2 <= 0.7.
Proof. rewrite <- (ln_exp 0.7). apply Rcomplements.ln_le; [lra|]. pose proof (exp_ge_3 0.7). lra. Qed.
Lemma ln_pow2 n : ln (/ 2 ^ n) = - (INR n * ln 2).
Proof. rewrite ln_Rinv by apply pow2_pos. f_equal. rewrite <- Rpower_pow by lra. unfold Rpower. now rewrite ln_exp. Qed.
Lemma unit_pos w : is_word w -> ~ zero_word w -> / 2 ^ 53 <= unit w <= 1 - / 2 ^ 53.
Proof.
  intros H Z. destruct (unit_of_eq w H) as (_ & _ & B & _). split; [|lra]. unfold zero_word in Z. unfold unit.
  pose proof (Z.mod_pos_bound w (2 ^ 53) ltac:(lia)). assert (1 <= IZR (w mod 2 ^ 53)) by (apply IZR_le; lia).
  rewrite <- (Rmult_1_l (/ 2 ^ 53)). apply Rmult_le_compat_r; [left; apply Rinv_0_lt_compat, pow2_pos|assumption].
Qed.
Lemma neg_ln_range w : is_word w -> ~ zero_word w -> / 2 ^ 53 <= neg_ln w <= 37.1.
Proof.
  intros H Z. pose proof (unit_pos w H Z) as (A & B). pose proof (Rinv_0_lt_compat _ (pow2_pos 53)) as P. unfold neg_ln. split.
  - assert (ln (unit w) <= unit w - 1). { pose proof (exp_ineq1_le (ln (unit w))) as E. rewrite exp_ln in E by lra. lra. } lra.
  - assert (ln (/ 2 ^ 53) <= ln (unit w)) by (apply Rcomplements.ln_le; lra). rewrite ln_pow2 in H0. pose proof ln_2.
    replace (INR 53) with 53 in H0 by (rewrite INR_IZR_INZ; reflexivity). lra.
Qed.
Definition flog (w : Z) : val F64 := fneg (Log m (unit_of w)).
Lemma flog_close w : is_word w -> ~ zero_word w -> finite (flog w) /\ Rabs (real (flog w) - neg_ln w) <= neg_ln w / 2 ^ 49.
Proof.
  intros H Z. pose proof (neg_ln_range w H Z) as (A & B). pose proof (unit_pos w H Z) as (U1 & U2). pose proof (Rinv_0_lt_compat _ (pow2_pos 53)) as P.
  destruct (unit_of_eq w H) as (Fu & Ru & _). assert (Pu : 0 < real (unit_of w)) by (rewrite Ru; lra).
  pose proof (log_finite m M _ Fu Pu) as FL. pose proof (log_value m M _ Fu Pu) as VL. rewrite Ru in VL. unfold flog. split; [now apply neg_finite|].
  rewrite neg_eq. unfold neg_ln in *. rewrite (Rabs_left1 (ln (unit w))) in VL by lra.
  replace (- real (Log m (unit_of w)) - - ln (unit w)) with (- (real (Log m (unit_of w)) - ln (unit w))) by ring. rewrite Rabs_Ropp.
  eapply Rle_trans; [exact VL|]. set (n := - ln (unit w)) in *. clearbody n.
  assert (/ 2 ^ 1074 <= / 2 ^ 53 * / 2 ^ 50). { rewrite <- Rinv_mult, <- pow_add. apply Rinv_le_contravar; [apply pow2_pos|apply Rle_pow; [lra|lia]]. }
  assert (/ 2 ^ 53 * / 2 ^ 50 <= n * / 2 ^ 50) by (apply Rmult_le_compat_r; [left; apply Rinv_0_lt_compat, pow2_pos|assumption]).
  replace (n / 2 ^ 49) with (n / 2 ^ 50 + n * / 2 ^ 50) by (cbn [pow]; field). lra.
Qed.
Definition fbeyond (w : Z) : val F64 := fmul (flog w) inv_rn.
Lemma beyond_range w : is_word w -> ~ zero_word w -> / 2 ^ 55 <= beyond_start w <= 10.8.
Proof.
  intros H Z. pose proof (neg_ln_range w H Z) as (A & B). unfold beyond_start, tail_start. assert (/ 2 ^ 55 = / 2 ^ 53 / 4) by (cbn [pow]; field).
  pose proof (Rinv_0_lt_compat _ (pow2_pos 53)). split; [|lra].
  apply (Rmult_le_reg_r 3.442619855899); [lra|]. unfold Rdiv. rewrite Rmult_assoc, Rinv_l by lra. lra.
Qed.
Lemma fbeyond_close w : is_word w -> ~ zero_word w -> finite (fbeyond w) /\ 0 <= real (fbeyond w) <= 11 /\ Rabs (real (fbeyond w) - beyond_start w) <= beyond_start w / 2 ^ 47.
Proof.
  intros H Z. destruct (flog_close w H Z) as (Fl & Vl). destruct inv_rn_eq as (Fi & Vi). pose proof (neg_ln_range w H Z) as (A & B).
  pose proof (beyond_range w H Z) as (C & D). pose proof (Rinv_0_lt_compat _ (pow2_pos 53)) as P53. pose proof (Rinv_0_lt_compat _ (pow2_pos 55)) as P55.
  unfold beyond_start in *. set (n := neg_ln w) in *. set (I := / tail_start) in *. assert (PI : 0 < I <= 0.3) by (unfold I, tail_start; split; [apply Rinv_0_lt_compat; lra|lra]).
  set (a := n / tail_start) in *. assert (Ea : a = n * I) by reflexivity. clearbody a I n.
  set (vl := real (flog w)) in *. set (vi := real inv_rn) in *.
  assert (E1 : Rabs (vl * vi - a) <= a / 2 ^ 48).
  { replace (vl * vi - a) with ((vl - n) * I + n * (vi - I) + (vl - n) * (vi - I)) by (rewrite Ea; ring).
    eapply Rle_trans; [apply Rabs_triang|]. eapply Rle_trans; [apply Rplus_le_compat_r, Rabs_triang|]. rewrite !Rabs_mult, (Rabs_right n), (Rabs_right I) by lra.
    assert (Rabs (vl - n) * I <= n / 2 ^ 49 * I) by (apply Rmult_le_compat_r; [lra|assumption]).
    assert (n * Rabs (vi - I) <= n * (I * / 2 ^ 52)) by (apply Rmult_le_compat_l; [lra|assumption]).
    assert (Rabs (vl - n) * Rabs (vi - I) <= n / 2 ^ 49 * (I * / 2 ^ 52)) by (apply Rmult_le_compat; try apply Rabs_pos; assumption).
    replace (n / 2 ^ 49 * I) with (a * / 2 ^ 49) in * by (rewrite Ea; field). replace (n * (I * / 2 ^ 52)) with (a * / 2 ^ 52) in * by (rewrite Ea; field).
    replace (n / 2 ^ 49 * (I * / 2 ^ 52)) with (a * / 2 ^ 101) in * by (rewrite Ea; cbn [pow]; field). assert (0 < a) by lra. clear - H0 H1 H2 H3. cbn [pow] in *. lra. }
  assert (E2 : 0 <= vl * vi <= 11). { apply rabs_le in E1. assert (a / 2 ^ 48 <= a * / 100) by (apply Rmult_le_compat_l; [lra|cbn [pow]; lra]). lra. }
  assert (R11 : rep F64 11) by (apply (rep_int F64 11); cbn; lia).
  destruct (mul_in F64 (flog w) inv_rn 0 11 Fl Fi (rep_0 _) R11 E2) as (F & Bx & Ex). fold (fbeyond w) in *. split; [exact F|]. split; [exact Bx|].
  pose proof (round_error F64 (real (flog w) * real inv_rn)) as Rr. rewrite <- Ex, u64 in Rr. fold vl vi in Rr. rewrite (Rabs_right (vl * vi)) in Rr by lra.
  pose proof (tiny_small F64) as (T1 & T2). assert (T3 : / 2 ^ 150 <= a * / 2 ^ 95).
  { replace (/ 2 ^ 150) with (/ 2 ^ 55 * / 2 ^ 95) by (rewrite <- Rinv_mult, <- pow_add; reflexivity). apply Rmult_le_compat_r; [left; apply Rinv_0_lt_compat, pow2_pos|exact C]. }
  replace (real (fbeyond w) - a) with ((real (fbeyond w) - vl * vi) + (vl * vi - a)) by ring. eapply Rle_trans; [apply Rabs_triang|].
  assert (/ 2 ^ 53 * (vl * vi) <= / 2 ^ 53 * (a * 2)). { apply Rmult_le_compat_l; [lra|]. apply rabs_le in E1. assert (a / 2 ^ 48 <= a * 1) by (apply Rmult_le_compat_l; [lra|cbn [pow]; lra]). lra. }
  assert (a / 2 ^ 48 + / 2 ^ 53 * (a * 2) + a * / 2 ^ 95 <= a / 2 ^ 47). { replace (a / 2 ^ 48 + / 2 ^ 53 * (a * 2) + a * / 2 ^ 95) with (a * (/ 2 ^ 48 + 2 / 2 ^ 53 + / 2 ^ 95)) by (unfold Rdiv; ring). apply Rmult_le_compat_l; [lra|]. cbn [pow]; lra. }
  lra.
Qed.

(** the two sides of the test *)
Lemma left_close w : is_word w -> ~ zero_word w -> let x := fbeyond w in let a := beyond_start w in
  finite (fmul x x) /\ Rabs (real (fmul x x) - a * a) <= a * a / 2 ^ 44.
Proof.
  intros H Z x a. destruct (fbeyond_close w H Z) as (F & B & V). pose proof (beyond_range w H Z) as (C & D). fold x a in F, B, V, C, D.
  pose proof (Rinv_0_lt_compat _ (pow2_pos 55)) as P55.
  assert (R128 : rep F64 128) by (apply (rep_int F64 128); cbn; lia).
  destruct (mul_in F64 x x 0 128 F F (rep_0 _) R128) as (Fq & _ & Eq). { split; [apply Rmult_le_pos; lra|]. assert (real x * real x <= 11 * 11) by (apply Rmult_le_compat; lra). lra. }
  split; [exact Fq|]. pose proof (round_error F64 (real x * real x)) as Rr. rewrite <- Eq, u64 in Rr. rewrite (Rabs_right (real x * real x)) in Rr by nra.
  set (q := real (fmul x x)) in *. clearbody q. set (v := real x) in *. clearbody a v. clear Eq Fq F x.
  assert (A2 : / 2 ^ 110 <= a * a). { replace (/ 2 ^ 110) with (/ 2 ^ 55 * / 2 ^ 55) by (rewrite <- Rinv_mult, <- pow_add; reflexivity). apply Rmult_le_compat; lra. }
  assert (T4 : half_tiny F64 <= a * a * / 2 ^ 60).
  { apply Rle_trans with (/ 2 ^ 1075); [right; reflexivity|]. apply Rle_trans with (/ 2 ^ 110 * / 2 ^ 60).
    - rewrite <- Rinv_mult, <- pow_add. apply Rinv_le_contravar; [apply pow2_pos|apply Rle_pow; [lra|lia]].
    - apply Rmult_le_compat_r; [left; apply Rinv_0_lt_compat, pow2_pos|exact A2]. }
  assert (E1 : Rabs (v * v - a * a) <= a * a * (/ 2 ^ 94 + / 2 ^ 46)).
  { replace (v * v - a * a) with ((v - a) * (v - a) + 2 * a * (v - a)) by ring. eapply Rle_trans; [apply Rabs_triang|]. rewrite !Rabs_mult, (Rabs_right 2), (Rabs_right a) by lra.
    assert (X1 : Rabs (v - a) * Rabs (v - a) <= a / 2 ^ 47 * (a / 2 ^ 47)) by (apply Rmult_le_compat; try apply Rabs_pos; assumption).
    assert (X2 : 2 * a * Rabs (v - a) <= 2 * a * (a / 2 ^ 47)) by (apply Rmult_le_compat_l; [lra|assumption]).
    replace (a / 2 ^ 47 * (a / 2 ^ 47)) with (a * a * / 2 ^ 94) in X1 by (cbn [pow]; field). replace (2 * a * (a / 2 ^ 47)) with (a * a * / 2 ^ 46) in X2 by (cbn [pow]; field).
    rewrite (Rmult_plus_distr_l (a * a)). lra. }
  assert (P : 0 < a * a) by (apply Rmult_lt_0_compat; lra). set (s := a * a) in *. set (t := v * v) in *. clearbody s t. clear - Rr T4 E1 P.
  replace (q - s) with ((q - t) + (t - s)) by ring. eapply Rle_trans; [apply Rabs_triang|].
  assert (K : t <= 2 * s). { apply rabs_le in E1. assert (s * (/ 2 ^ 94 + / 2 ^ 46) <= s * 1) by (apply Rmult_le_compat_l; [lra|cbn [pow]; lra]). lra. }
  assert (K2 : / 2 ^ 53 * t <= / 2 ^ 53 * (2 * s)) by (apply Rmult_le_compat_l; [left; apply Rinv_0_lt_compat, pow2_pos|exact K]).
  assert (K3 : / 2 ^ 53 * (2 * s) + s * / 2 ^ 60 + s * (/ 2 ^ 94 + / 2 ^ 46) <= s / 2 ^ 44).
  { replace (/ 2 ^ 53 * (2 * s) + s * / 2 ^ 60 + s * (/ 2 ^ 94 + / 2 ^ 46)) with (s * (2 / 2 ^ 53 + / 2 ^ 60 + / 2 ^ 94 + / 2 ^ 46)) by (unfold Rdiv; ring).
    apply Rmult_le_compat_l; [lra|]. cbn [pow]; lra. }
  lra.
Qed.
Lemma right_close w : is_word w -> ~ zero_word w ->
  finite (fadd (flog w) (flog w)) /\ Rabs (real (fadd (flog w) (flog w)) - 2 * neg_ln w) <= 2 * neg_ln w / 2 ^ 47.
Proof.
  intros H Z. destruct (flog_close w H Z) as (F & V). pose proof (neg_ln_range w H Z) as (C & D). pose proof (Rinv_0_lt_compat _ (pow2_pos 53)) as P53.
  set (x := flog w) in *. set (b := neg_ln w) in *. set (v := real x) in *.
  assert (V' : 0 <= v <= 64). { apply rabs_le in V. assert (b / 2 ^ 49 <= b * / 2) by (apply Rmult_le_compat_l; [lra|cbn [pow]; lra]). lra. }
  assert (R128 : rep F64 128) by (apply (rep_int F64 128); cbn; lia).
  destruct (add_in F64 x x 0 128 F F (rep_0 _) R128) as (Fq & _ & Eq). { fold v. lra. }
  split; [exact Fq|]. pose proof (round_error F64 (real x + real x)) as Rr. rewrite <- Eq, u64 in Rr. fold v in Rr. rewrite (Rabs_right (v + v)) in Rr by lra.
  set (q := real (fadd x x)) in *. clearbody q b v. clear Eq Fq F x.
  assert (T4 : half_tiny F64 <= b * / 2 ^ 60).
  { apply Rle_trans with (/ 2 ^ 1075); [right; reflexivity|]. apply Rle_trans with (/ 2 ^ 53 * / 2 ^ 60).
    - rewrite <- Rinv_mult, <- pow_add. apply Rinv_le_contravar; [apply pow2_pos|apply Rle_pow; [lra|lia]].
    - apply Rmult_le_compat_r; [left; apply Rinv_0_lt_compat, pow2_pos|exact C]. }
  replace (q - 2 * b) with ((q - (v + v)) + 2 * (v - b)) by ring. eapply Rle_trans; [apply Rabs_triang|]. rewrite Rabs_mult, (Rabs_right 2) by lra.
  assert (K : v + v <= 4 * b). { apply rabs_le in V. assert (b / 2 ^ 49 <= b * 1) by (apply Rmult_le_compat_l; [lra|cbn [pow]; lra]). lra. }
  assert (K2 : / 2 ^ 53 * (v + v) <= / 2 ^ 53 * (4 * b)) by (apply Rmult_le_compat_l; [lra|exact K]).
  assert (K3 : / 2 ^ 53 * (4 * b) + b * / 2 ^ 60 + 2 * (b / 2 ^ 49) <= 2 * b / 2 ^ 47).
  { replace (/ 2 ^ 53 * (4 * b) + b * / 2 ^ 60 + 2 * (b / 2 ^ 49)) with (b * (4 / 2 ^ 53 + / 2 ^ 60 + 2 / 2 ^ 49)) by (unfold Rdiv; ring). replace (2 * b / 2 ^ 47) with (b * (2 / 2 ^ 47)) by (unfold Rdiv; ring).
    apply Rmult_le_compat_l; [lra|]. cbn [pow]; lra. }
  lra.
Qed.

(** what is returned *)
Definition tail_value (j : Z) (x : val F64) : val F64 := if (0 <? j)%Z then fadd rn x else fsub (fneg rn) x.
Lemma tail_value_eq j x : finite x -> 0 <= real x <= 10.807 -> finite (tail_value j x) /\ 3.4426 <= Rabs (real (tail_value j x)) <= 14.25 /\
  Rabs (real (tail_value j x) - (if (0 <? j)%Z then tail_start + real x else - (tail_start + real x))) <= / 2 ^ 45.
Proof.
  intros F B. destruct rn_eq as (Fr & Er). assert (R : rep F64 14.25).
  { apply (rep_dyadic F64 57 (-2)); [|cbn [prec]; lia|cbn; lia..]. change (bpow radix2 (-2)) with (/ 4). lra. }
  assert (Er' := Er). apply rabs_le in Er'. pose proof (rep_real F64 rn Fr) as Rn. pose proof (tiny_le F64) as T. unfold tail_start in *.
  assert (P50 : / 2 ^ 50 <= / 1000000) by (cbn [pow]; lra).
  assert (K : / 2 ^ 53 * 16 + / 2 ^ 100 + / 2 ^ 50 <= / 2 ^ 45) by (cbn [pow]; lra). pose proof (Rinv_0_lt_compat _ (pow2_pos 53)) as P53.
  unfold tail_value. destruct (0 <? j)%Z.
  - destruct (add_in F64 rn x (real rn) 14.25 Fr F Rn R ltac:(lra)) as (Fv & Bv & Ev). split; [exact Fv|]. rewrite Rabs_right by lra. split; [lra|].
    pose proof (round_error F64 (real rn + real x)) as Rr. rewrite <- Ev, u64, (Rabs_right (real rn + real x)) in Rr by lra. apply rabs_le in Rr. apply Rabs_le.
    assert (/ 2 ^ 53 * (real rn + real x) <= / 2 ^ 53 * 16) by (apply Rmult_le_compat_l; lra). lra.
  - destruct (sub_in F64 (fneg rn) x (- (14.25)) (- real rn) (neg_finite _ _ Fr) F (rep_opp _ _ R) (rep_opp _ _ Rn)) as (Fv & Bv & Ev); [rewrite neg_eq; lra|].
    split; [exact Fv|]. rewrite Rabs_left1 by lra. split; [lra|].
    pose proof (round_error F64 (real (fneg rn) - real x)) as Rr. rewrite <- Ev, u64, neg_eq, (Rabs_left1 (- real rn - real x)) in Rr by lra. apply rabs_le in Rr. apply Rabs_le.
    assert (/ 2 ^ 53 * - (- real rn - real x) <= / 2 ^ 53 * 16) by (apply Rmult_le_compat_l; lra). lra.
Qed.
Lemma fbeyond_small w : is_word w -> ~ zero_word w -> 0 <= real (fbeyond w) <= 10.807.
Proof.
  intros H Z. destruct (fbeyond_close w H Z) as (_ & B & V). pose proof (beyond_range w H Z) as (C & D). split; [lra|]. apply rabs_le in V.
  assert (beyond_start w / 2 ^ 47 <= 10.8 * / 2 ^ 47) by (apply Rmult_le_compat_r; [left; apply Rinv_0_lt_compat, pow2_pos|exact D]).
  assert (10.8 * / 2 ^ 47 <= 0.007) by (cbn [pow]; lra). lra.
Qed.

(** one pass through the loop of the tail *)
Lemma tail_pass j w1 w2 ws : is_word w1 -> is_word w2 ->
  norm_from m (Tail j) (w1 :: w2 :: ws) = if fle (fmul (fbeyond w1) (fbeyond w1)) (fadd (flog w2) (flog w2)) then Got (tail_value j (fbeyond w1)) ws else norm_from m (Tail j) ws.
Proof. intros H1 H2. rewrite tail_step, tail2_step by assumption. reflexivity. Qed.
Lemma tail_accepts j w1 w2 ws : is_word w1 -> is_word w2 -> ~ zero_word w1 -> ~ zero_word w2 ->
  let a := beyond_start w1 in let b := neg_ln w2 in a * a * (1 + / 2 ^ 40) <= 2 * b ->
  norm_from m (Tail j) (w1 :: w2 :: ws) = Got (tail_value j (fbeyond w1)) ws.
Proof.
  intros H1 H2 Z1 Z2 a b K. rewrite tail_pass by assumption. destruct (left_close w1 H1 Z1) as (F1 & V1). destruct (right_close w2 H2 Z2) as (F2 & V2). fold a in V1. fold b in V2.
  pose proof (beyond_range w1 H1 Z1) as (A & _). fold a in A. pose proof (Rinv_0_lt_compat _ (pow2_pos 55)). assert (P : 0 < a * a) by (apply Rmult_lt_0_compat; lra).
  replace (fle _ _) with true; [reflexivity|]. symmetry. apply le_eq; [exact F1|exact F2|]. apply rabs_le in V1. apply rabs_le in V2.
  set (X := real (fmul _ _)) in *. set (Y := real (fadd _ _)) in *. set (s := a * a) in *. clearbody X Y s. set (t := 2 * b) in *. clearbody t. clear - V1 V2 P K. cbn [pow] in *. lra.
Qed.
Lemma tail_rejects j w1 w2 ws : is_word w1 -> is_word w2 -> ~ zero_word w1 -> ~ zero_word w2 ->
  let a := beyond_start w1 in let b := neg_ln w2 in 2 * b * (1 + / 2 ^ 40) <= a * a ->
  norm_from m (Tail j) (w1 :: w2 :: ws) = norm_from m (Tail j) ws.
Proof.
  intros H1 H2 Z1 Z2 a b K. rewrite tail_pass by assumption. destruct (left_close w1 H1 Z1) as (F1 & V1). destruct (right_close w2 H2 Z2) as (F2 & V2). fold a in V1. fold b in V2.
  pose proof (beyond_range w1 H1 Z1) as (A & _). fold a in A. pose proof (Rinv_0_lt_compat _ (pow2_pos 55)). assert (P : 0 < a * a) by (apply Rmult_lt_0_compat; lra).
  destruct (fle _ _) eqn:E; [exfalso|reflexivity]. apply le_eq in E; [|exact F1|exact F2]. apply rabs_le in V1. apply rabs_le in V2.
  set (X := real (fmul _ _)) in *. set (Y := real (fadd _ _)) in *. set (s := a * a) in *. clearbody X Y s. set (t := 2 * b) in *. clearbody t. clear - V1 V2 P K E. cbn [pow] in *. lra.
Qed.

(** one attempt in a strip above the lowest *)
Lemma strip_decides i x w ws : is_word w -> (1 <= i < 128)%nat -> finite x -> Rabs (real x) <= 4 ->
  let h := level i + unit w * (level (i - 1) - level i) in
  (h + / 2 ^ 21 <= bell (real x) -> norm_from m (Strip (Z.of_nat i) x) (w :: ws) = Got x ws) /\
  (bell (real x) + / 2 ^ 21 <= h -> norm_from m (Strip (Z.of_nat i) x) (w :: ws) = norm_from m Start ws).
Proof.
  intros H Hi Fx Bx h. rewrite strip_step by assumption. destruct (height_close i w H Hi) as (Fh & Vh). destruct (density_close_to m x M Fx Bx) as (Fd & Vd). fold h in Vh.
  apply rabs_le in Vh. apply rabs_le in Vd. assert (K : 6 / 2 ^ 24 + (/ 2 ^ 24 + / 2 ^ 30) < / 2 ^ 21) by (cbn [pow]; lra).
  split; intros L; destruct (flt _ _) eqn:E; try reflexivity; exfalso.
  - apply lt_false in E; [|exact Fh|exact Fd]. lra.
  - apply lt_eq in E; [|exact Fh|exact Fd]. lra.
Qed.
End Tail.
