(** * LAMB in floating point: the step and its histories *)
From Coq Require Import Reals.
From Coq Require Import ZArith Bool Lia List Arith Lra Psatz.
From Flocq Require Import Core BinarySingleNaN Relative.
From Verif Require Import DenseModel DenseSpec ArithModel ArithSpec ArithProofs FloatModel FloatSpec NumModel NumSpec NumLemmas AsmFloatSpec AsmFloat
  OptFloatModel OptFloatSpec OptFloatNum OptFloatNum2 OptFloatNum3 OptFloatProofs OptFloatNum4 OptFloatProofs2 OptFloatProofs3
  NormFloatModel NormFloatSpec NormFloatNum NormFloatProofs NormFloatBack LambFloatModel LambFloatSpec LambFloatProofs.
Import ListNotations.
Local Open Scope R_scope.

Lemma step_real U h a q T tr am k dl : 0 < U <= / 2 ^ 24 -> 0 < h -> 0 <= a <= 2 ^ 8 -> 0 <= T ->
  Rabs (tr - T) <= U * Rabs T + h -> Rabs (am - a * tr) <= U * Rabs (a * tr) + h -> Rabs (k - am) <= U * Rabs am + h -> Rabs (dl - q * k) <= U * Rabs (q * k) + h ->
  Rabs tr <= (1 + U) * T + h /\ Rabs (am - a * T) <= 2.01 * U * (a * T) + 2 ^ 10 * h /\ Rabs (k - a * T) <= 3.02 * U * (a * T) + 2 ^ 11 * h /\
  Rabs (q * k) <= (1 + 3.02 * U) * (Rabs q * (a * T)) + 2 ^ 11 * (Rabs q * h) /\
  Rabs (dl - q * (a * T)) <= 4.05 * U * (Rabs q * (a * T)) + 2 ^ 12 * (Rabs q * h) + h.
Proof.
  intros HU Hh Ha HT H1 H2 H3 H4. rewrite (Rabs_right T) in H1 by lra.
  assert (B1 : Rabs tr <= (1 + U) * T + h). { pose proof (Rabs_triang (tr - T) T) as X. replace (tr - T + T) with tr in X by ring. rewrite (Rabs_right T) in X by lra. lra. }
  split; [exact B1|]. assert (PaT : 0 <= a * T) by (apply Rmult_le_pos; lra). assert (Pah : a * h <= 2 ^ 8 * h) by (apply Rmult_le_compat_r; lra). assert (P0 : 0 <= a * h) by (apply Rmult_le_pos; lra).
  assert (B2 : Rabs (am - a * T) <= 2.01 * U * (a * T) + 2 ^ 10 * h).
  { rewrite Rabs_mult, (Rabs_right a) in H2 by lra. assert (X1 : a * Rabs tr <= (1 + U) * (a * T) + a * h). { apply Rle_trans with (a * ((1 + U) * T + h)); [apply Rmult_le_compat_l; lra|lra]. }
    assert (X2 : Rabs (a * tr - a * T) <= U * (a * T) + a * h). { rewrite <- Rmult_minus_distr_l, Rabs_mult, (Rabs_right a) by lra. apply Rle_trans with (a * (U * T + h)); [apply Rmult_le_compat_l; lra|lra]. }
    pose proof (Rabs_triang (am - a * tr) (a * tr - a * T)) as X3. replace (am - a * tr + (a * tr - a * T)) with (am - a * T) in X3 by ring.
    assert (X4 : U * (a * Rabs tr) <= U * ((1 + U) * (a * T) + a * h)) by (apply Rmult_le_compat_l; lra).
    assert (U * (U * (a * T)) <= / 2 ^ 24 * (U * (a * T))) by (apply Rmult_le_compat_r; [apply Rmult_le_pos; lra|lra]). assert (U * (a * h) <= / 2 ^ 24 * (a * h)) by (apply Rmult_le_compat_r; lra). assert (0 <= U * (a * T)) by (apply Rmult_le_pos; lra). lra. }
  split; [exact B2|]. set (t := a * T) in *. assert (PUt : 0 <= U * t) by (apply Rmult_le_pos; lra). assert (PUUt : U * (U * t) <= / 2 ^ 24 * (U * t)) by (apply Rmult_le_compat_r; lra). assert (PUh : U * h <= / 2 ^ 24 * h) by (apply Rmult_le_compat_r; lra).
  assert (B3 : Rabs (k - t) <= 3.02 * U * t + 2 ^ 11 * h).
  { pose proof (Rabs_triang (k - am) (am - t)) as X. replace (k - am + (am - t)) with (k - t) in X by ring. pose proof (Rabs_triang (am - t) t) as Y. replace (am - t + t) with am in Y by ring. rewrite (Rabs_right t) in Y by lra.
    assert (U * Rabs am <= U * (2.01 * U * t + 2 ^ 10 * h + t)) by (apply Rmult_le_compat_l; lra). lra. }
  split; [exact B3|]. pose proof (Rabs_pos q) as Pq. set (aq := Rabs q) in *. assert (Pqt : 0 <= aq * t) by (apply Rmult_le_pos; lra). assert (Pqh : 0 <= aq * h) by (apply Rmult_le_pos; lra).
  assert (B4 : Rabs (q * k - q * t) <= 3.02 * U * (aq * t) + 2 ^ 11 * (aq * h)). { rewrite <- Rmult_minus_distr_l, Rabs_mult. fold aq. apply Rle_trans with (aq * (3.02 * U * t + 2 ^ 11 * h)); [apply Rmult_le_compat_l; lra|lra]. }
  assert (B5 : Rabs (q * k) <= (1 + 3.02 * U) * (aq * t) + 2 ^ 11 * (aq * h)). { pose proof (Rabs_triang (q * k - q * t) (q * t)) as Y. replace (q * k - q * t + q * t) with (q * k) in Y by ring. rewrite (Rabs_mult q t), (Rabs_right t) in Y by lra. fold aq in Y. lra. }
  split; [exact B5|]. pose proof (Rabs_triang (dl - q * k) (q * k - q * t)) as X. replace (dl - q * k + (q * k - q * t)) with (dl - q * t) in X by ring.
  assert (X2 : U * Rabs (q * k) <= U * ((1 + 3.02 * U) * (aq * t) + 2 ^ 11 * (aq * h))) by (apply Rmult_le_compat_l; lra).
  assert (U * (U * (aq * t)) <= / 2 ^ 24 * (U * (aq * t))) by (apply Rmult_le_compat_r; [apply Rmult_le_pos; lra|lra]). assert (U * (aq * h) <= / 2 ^ 24 * (aq * h)) by (apply Rmult_le_compat_r; lra). assert (0 <= U * (aq * t)) by (apply Rmult_le_pos; lra). lra.
Qed.
Definition t_max (d : dtype) : R := match d with F32 => 2 ^ 116 | F64 => 2 ^ 963 end.
Lemma t_facts d : n_high d <= t_max d * (0.99 * n_low d) /\ 1 <= t_max d /\ rep F64 (2 * t_max d) /\ rep F64 (2 ^ 10 * t_max d) /\ rep d (2 ^ 11 * t_max d) /\
  rep d (2 ^ 10 * n_high d) /\ 2 ^ 40 <= n_high d /\ 2 * lamb_max d * half_tiny d <= / 2 ^ 119 /\ rep d (2 ^ 11 * n_high d) /\ lamb_max d <= n_high d /\ 2 ^ 30 <= lamb_max d /\ 3 * n_low d <= n_high d.
Proof.
  unfold t_max, n_high, n_low, half_tiny, lamb_max. destruct d.
  - repeat split; try (rewrite <- pow_add; apply rep_big; cbn; lia); try (change (2 * 2 ^ 116) with (2 ^ 117); apply rep_big; cbn; lia); lra.
  - assert (E1 : 2 ^ 963 * / 2 ^ 538 = 2 ^ 425) by (change 963%nat with (425 + 538)%nat; rewrite pow_add; field; apply pow_nonzero; lra).
    assert (E2 : 2 * 2 ^ 400 * / 2 ^ 1075 = / 2 ^ 674) by (change (2 * 2 ^ 400) with (2 ^ 401); change 1075%nat with (401 + 674)%nat; rewrite pow_add; field; split; apply pow_nonzero; lra).
    rewrite E2. assert (2 ^ 40 <= 2 ^ 424) by (apply Rle_pow; [lra|lia]). assert (2 ^ 425 = 2 * 2 ^ 424) by reflexivity. assert (/ 2 ^ 538 <= 1). { rewrite <- Rinv_1. apply Rinv_le_contravar; [lra|apply pow_R1_Rle; lra]. }
    repeat split; try (rewrite <- pow_add; apply rep_big; cbn; lia); try (change (2 * 2 ^ 963) with (2 ^ 964); apply rep_big; cbn; lia); try lra; apply Rle_pow; try lra; lia.
Qed.
Section Step.
Variables (d : dtype) (alpha tr : val F64) (q : val d) (T : R).
Notation cv := (conv F64 d).
Hypothesis Ha : rate (2 ^ 8) alpha.
Hypothesis Ft : finite tr.
Hypothesis Nt : near_to F64 (real tr) T.
Hypothesis HT : 0 <= T <= t_max d.
Hypothesis Fq : finite q.
Hypothesis Hq : Rabs (real q) <= 2 * lamb_max d.
Hypothesis HqT : Rabs (real q) * T <= 1.35 * n_high d.
Let dl := fmul q (cv (fmul alpha tr)).
Lemma step_near : finite dl /\ Rabs (real dl - real q * (real alpha * T)) <= 4.05 * u d * (Rabs (real q) * (real alpha * T)) + / 2 ^ 105 /\ Rabs (real dl) <= 2 ^ 10 * n_high d.
Proof.
  destruct Ha as (Fa & Pa). destruct (t_facts d) as (_ & T1 & R1 & R2 & R3 & R4 & N1 & HH & _). pose proof (u_small d) as HU. pose proof (tiny_small d) as Hh.
  pose proof (near_64 d _ _ Nt) as Nt'. unfold near_to in Nt'.
  assert (Bt : Rabs (real tr) <= 2 * t_max d).
  { pose proof (Rabs_triang (real tr - T) T) as X. replace (real tr - T + T) with (real tr) in X by ring. rewrite (Rabs_right T) in * by lra. assert (u d * T <= / 2 ^ 24 * t_max d) by (apply Rmult_le_compat; lra). lra. }
  assert (X1 : Rabs (real alpha * real tr) <= 2 ^ 10 * t_max d).
  { rewrite Rabs_mult, (Rabs_right (real alpha)) by lra. pose proof (Rabs_pos (real tr)). apply Rle_trans with (2 ^ 8 * (2 * t_max d)); [apply Rmult_le_compat; lra|lra]. }
  destruct (mul_op alpha tr _ Fa Ft R2 X1) as (Fm & Lm & Nm). pose proof (near_64 d _ _ Nm) as Nm'. unfold near_to in Nm'.
  assert (X2 : Rabs (real (fmul alpha tr)) <= 2 ^ 11 * t_max d) by lra.
  destruct (conv_op (d := d) (fmul alpha tr) _ Fm R3 X2) as (Fc & Lc & Nc). unfold near_to in Nc.
  assert (D0 : Rabs (real q * real (cv (fmul alpha tr)) - real q * real (cv (fmul alpha tr))) <= u d * Rabs (real q * real (cv (fmul alpha tr))) + half_tiny d).
  { replace (real q * real (cv (fmul alpha tr)) - real q * real (cv (fmul alpha tr))) with 0 by ring. rewrite Rabs_R0. pose proof (Rabs_pos (real q * real (cv (fmul alpha tr)))). assert (0 <= u d * Rabs (real q * real (cv (fmul alpha tr)))) by (apply Rmult_le_pos; lra). lra. }
  destruct (step_real (u d) (half_tiny d) (real alpha) (real q) T _ _ _ _ HU (proj1 Hh) Pa (proj1 HT) Nt' Nm' Nc D0) as (_ & _ & _ & Q1 & _).
  assert (QH : Rabs (real q) * half_tiny d <= / 2 ^ 119). { apply Rle_trans with (2 * lamb_max d * half_tiny d); [apply Rmult_le_compat_r; lra|exact HH]. }
  assert (QT : Rabs (real q) * (real alpha * T) <= 2 ^ 8 * (1.35 * n_high d)).
  { replace (Rabs (real q) * (real alpha * T)) with (real alpha * (Rabs (real q) * T)) by ring. apply Rmult_le_compat; try lra. apply Rmult_le_pos; [apply Rabs_pos|lra]. }
  assert (PQ : 0 <= Rabs (real q) * (real alpha * T)) by (apply Rmult_le_pos; [apply Rabs_pos|apply Rmult_le_pos; lra]).
  set (z := Rabs (real q) * (real alpha * T)) in *.
  assert (UZ : u d * z <= / 2 ^ 24 * z) by (apply Rmult_le_compat_r; lra).
  assert (X3 : Rabs (real q * real (cv (fmul alpha tr))) <= 2 ^ 10 * n_high d) by lra.
  destruct (mul_op q (cv (fmul alpha tr)) _ Fq Fc R4 X3) as (Fd & Ld & Nd). unfold near_to in Nd.
  destruct (step_real (u d) (half_tiny d) (real alpha) (real q) T _ _ _ _ HU (proj1 Hh) Pa (proj1 HT) Nt' Nm' Nc Nd) as (_ & _ & _ & _ & Q2). fold z dl in Q2.
  split; [exact Fd|]. split; [|exact Ld]. eapply Rle_trans; [exact Q2|]. lra.
Qed.
(** the new weight *)
Lemma step_new (x : val d) : finite x -> Rabs (real x) <= lamb_max d -> let t := real q * (real alpha * T) in
  finite (fsub x dl) /\ Rabs (real (fsub x dl) - (real x - t)) <= 5.2 * u d * Rabs t + u d * Rabs (real x) + / 2 ^ 104.
Proof.
  intros Fx Hx t. destruct step_near as (Fd & E & L). destruct (t_facts d) as (_ & _ & _ & _ & _ & _ & N1 & _ & R5 & LN & _). pose proof (u_small d) as HU.
  assert (Et : Rabs t = Rabs (real q) * (real alpha * T)). { unfold t. rewrite Rabs_mult. f_equal. apply Rabs_right. destruct Ha as (_ & ?). apply Rle_ge, Rmult_le_pos; lra. }
  fold t in E. rewrite <- Et in E. pose proof (Rabs_pos t) as Pt. pose proof (Rabs_pos (real x)) as Px.
  assert (X : Rabs (real x - real dl) <= 2 ^ 11 * n_high d). { eapply Rle_trans; [apply Rabs_triang|]. rewrite Rabs_Ropp. lra. }
  destruct (sub_op x dl _ Fx Fd R5 X) as (F & _ & N & _). split; [exact F|].
  pose proof (Rabs_triang (real (fsub x dl) - (real x - real dl)) (- (real dl - t))) as Y. replace (real (fsub x dl) - (real x - real dl) + - (real dl - t)) with (real (fsub x dl) - (real x - t)) in Y by ring. rewrite Rabs_Ropp in Y.
  assert (D : Rabs (real dl) <= Rabs t + Rabs (real dl - t)). { pose proof (Rabs_triang t (real dl - t)) as Z. replace (t + (real dl - t)) with (real dl) in Z by ring. lra. }
  assert (XD : Rabs (real x - real dl) <= Rabs (real x) + Rabs (real dl)). { eapply Rle_trans; [apply Rabs_triang|]. rewrite Rabs_Ropp. lra. }
  set (ut := u d * Rabs t). assert (Put : 0 <= ut) by (apply Rmult_le_pos; lra).
  replace (4.05 * u d * Rabs t) with (4.05 * ut) in E by (unfold ut; ring). replace (5.2 * u d * Rabs t) with (5.2 * ut) by (unfold ut; ring).
  assert (Z : u d * Rabs (real x - real dl) <= u d * (Rabs (real x) + (Rabs t + (4.05 * ut + / 2 ^ 105)))) by (apply Rmult_le_compat_l; lra).
  replace (u d * (Rabs (real x) + (Rabs t + (4.05 * ut + / 2 ^ 105)))) with (u d * Rabs (real x) + ut + u d * (4.05 * ut + / 2 ^ 105)) in Z by (unfold ut; ring).
  assert (u d * (4.05 * ut + / 2 ^ 105) <= / 2 ^ 24 * (4.05 * ut + / 2 ^ 105)) by (apply Rmult_le_compat_r; lra). lra.
Qed.
End Step.

(** ** The trust ratio *)
Section Trust.
Variable d : dtype.
Lemma ratio_near (wn qn : val F64) : finite wn -> finite qn -> 0 <= real wn <= n_high d -> 0.99 * n_low d <= real qn ->
  finite (fdiv wn qn) /\ near_to F64 (real (fdiv wn qn)) (real wn / real qn) /\ 0 <= real wn / real qn <= t_max d.
Proof.
  intros Fw Fq Hw Hq. destruct (t_facts d) as (T0 & T1 & R1 & _). pose proof (n_low_facts d) as (L0 & _).
  assert (B : 0 <= real wn / real qn <= t_max d).
  { unfold Rdiv. split; [apply Rmult_le_pos; [lra|left; apply Rinv_0_lt_compat; lra]|]. apply (Rmult_le_reg_r (real qn)); [lra|]. rewrite Rmult_assoc, Rinv_l, Rmult_1_r by lra.
    apply Rle_trans with (t_max d * (0.99 * n_low d)); [lra|apply Rmult_le_compat_l; lra]. }
  destruct (div_op wn qn (2 * t_max d) Fw ltac:(lra) R1) as (F & _ & N); [rewrite Rabs_right by lra; lra|]. auto.
Qed.
End Trust.
