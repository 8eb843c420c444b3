(** * LAMB in floating point: the norms, the trust ratio and the step *)
From Coq Require Import Reals.
From Coq Require Import ZArith Bool Lia List Arith Lra Psatz.
From Flocq Require Import Core BinarySingleNaN Relative.
From Verif Require Import DenseModel DenseSpec ArithModel ArithSpec ArithProofs FloatModel FloatSpec NumModel NumSpec NumLemmas AsmFloatSpec AsmFloat
  OptFloatModel OptFloatSpec OptFloatNum OptFloatNum2 OptFloatNum3 OptFloatProofs OptFloatNum4 OptFloatProofs2 OptFloatProofs3
  NormFloatModel NormFloatSpec NormFloatNum NormFloatProofs LambFloatModel LambFloatSpec.
Import ListNotations.
Local Open Scope R_scope.

Lemma is0_spec (v : val F64) : finite v -> (is0 v = true <-> real v = 0).
Proof.
  intros F. unfold is0. rewrite (Beqb_correct (prec F64) (emax F64) v fzero F eq_refl). change (B2R v) with (real v). change (B2R (fzero (d := F64))) with 0.
  destruct (Req_bool_spec (real v) 0) as [E|E]; split; intros H; auto; try discriminate; try contradiction.
Qed.
(** the smallest norm that is not zero, and one for which the squares of the elements vanish *)
Definition n_low (d : dtype) : R := match d with F32 => / 2 ^ 75 | F64 => / 2 ^ 538 end.
Definition n_high (d : dtype) : R := match d with F32 => 2 ^ 40 | F64 => 2 ^ 424 end.
Lemma n_low_facts d : 0 < n_low d /\ n_low d * n_low d <= half_tiny d /\ half_tiny d <= 4 * (n_low d * n_low d) /\ half_tiny F64 <= u F64 * n_low d /\ n_low d <= / 2 ^ 75.
Proof.
  unfold n_low, half_tiny, u. destruct d.
  - replace (/ 2 ^ 75 * / 2 ^ 75) with (/ 2 ^ 150) by (rewrite <- Rinv_mult, <- pow_add; reflexivity). assert (0 < / 2 ^ 150) by (apply Rinv_0_lt_compat, pow_lt; lra).
    repeat split; lra.
  - replace (/ 2 ^ 538 * / 2 ^ 538) with (/ 2 ^ 1076) by (rewrite <- Rinv_mult, <- pow_add; reflexivity).
    assert (E : / 2 ^ 1075 = 2 * / 2 ^ 1076) by (replace (2 ^ 1076) with (2 * 2 ^ 1075) by reflexivity; field; apply pow_nonzero; lra). assert (0 < / 2 ^ 1076) by (apply Rinv_0_lt_compat, pow_lt; lra).
    repeat split; try lra; try (apply Rinv_0_lt_compat, pow_lt; lra).
Qed.
Lemma visible_facts d : half_tiny d * 200 <= u d * (visible d * visible d) /\ 0 < visible d /\ 4 * n_low d <= visible d.
Proof.
  unfold half_tiny, u, visible, n_low. destruct d.
  - rewrite <- !Rinv_mult, <- !pow_add. change (24 + (56 + 56))%nat with 136%nat. replace (/ 2 ^ 136) with (/ 2 ^ 150 * 2 ^ 14) by (change 150%nat with (136 + 14)%nat; rewrite pow_add; field; split; apply pow_nonzero; lra).
    assert (0 < / 2 ^ 150) by (apply Rinv_0_lt_compat, pow_lt; lra). repeat split; try lra.
  - rewrite <- !Rinv_mult, <- !pow_add. change (53 + (480 + 480))%nat with 1013%nat. replace (/ 2 ^ 1013) with (/ 2 ^ 1075 * 2 ^ 62) by (change 1075%nat with (1013 + 62)%nat; rewrite pow_add; field; split; apply pow_nonzero; lra).
    assert (0 < / 2 ^ 1075) by (apply Rinv_0_lt_compat, pow_lt; lra). split; [apply Rmult_le_compat_l; lra|]. split; [apply Rinv_0_lt_compat, pow_lt; lra|].
    replace (/ 2 ^ 480) with (/ 2 ^ 538 * 2 ^ 58) by (change 538%nat with (480 + 58)%nat; rewrite pow_add; field; split; apply pow_nonzero; lra). assert (0 < / 2 ^ 538) by (apply Rinv_0_lt_compat, pow_lt; lra). nra.
Qed.
Section Norm.
Variables (d : dtype) (sum : nat -> list (val d) -> val d) (k : nat) (x : list (val d)).
Hypothesis A : adds_all sum.
Hypothesis Few : few d (length x).
Hypothesis Sx : sized (2 * lamb_max d) x.
Let s := sum k (square d x).
Let N := sqrt64 (conv d F64 s).
Lemma lamb_in : 2 * lamb_max d <= in_max d /\ 0 < lamb_max d.
Proof. unfold lamb_max, in_max. destruct d; [lra|]. change (2 * 2 ^ 400) with (2 ^ 401). split; [apply Rle_pow; [lra|lia]|apply pow_lt; lra]. Qed.
Lemma sized_in : sized (in_max d) x.
Proof. pose proof lamb_in as (L & _). unfold sized in *. eapply Forall_impl; [|exact Sx]. intros v (F & H). split; [exact F|lra]. Qed.
Lemma norm_s : finite s /\ 0 <= real s /\ Rabs (real s - squares (reals x)) <= 1.01 * rho d (length x) * squares (reals x) + 2 * (INR (length x) * half_tiny d) /\
  Forall (fun v => (1 - u d) * real v ^ 2 - half_tiny d <= real s) x.
Proof. destruct (sum_squares d k sum x A sized_in Few) as (F & P & E & G). fold s in F, P, E, G. repeat split; auto; apply P. Qed.
Lemma norm_real : finite N /\ real N = nearest F64 (sqrt (real s)) /\ 0 <= real N.
Proof.
  destruct norm_s as (F & P & _). destruct (conv_up d s F) as (F1 & E1). destruct (sqrt64_spec (conv d F64 s) F1) as (F2 & E2); [rewrite E1; exact P|].
  rewrite E1 in E2. fold N in F2, E2. split; [exact F2|]. split; [exact E2|]. rewrite E2. apply nearest_pos, sqrt_pos.
Qed.
(** a positive sum of squares has a norm that is accurate *)
Lemma norm_positive : 0 < real s -> 0.99 * n_low d <= real N /\ rel (2 * u F64) (real N) (sqrt (real s)) /\ n_low d <= sqrt (real s).
Proof.
  intros P. destruct norm_s as (F & _ & _). destruct norm_real as (FN & EN & _). pose proof (smallest d s F P) as L. pose proof (n_low_facts d) as (L1 & L2 & _ & L4 & _).
  assert (L3 : n_low d <= sqrt (real s)). { rewrite <- (sqrt_square (n_low d)) by lra. apply sqrt_le_1_alt. lra. }
  assert (E : rel (2 * u F64) (real N) (sqrt (real s))).
  { apply near_rel; [rewrite EN; apply round_error|]. rewrite Rabs_right by lra. eapply Rle_trans; [exact L4|]. apply Rmult_le_compat_l; [pose proof (u_small F64); lra|exact L3]. }
  split; [|split; [exact E|exact L3]]. unfold rel in E. rewrite (Rabs_right (sqrt _)) in E by lra. apply rabs_le in E. pose proof (u_small F64). nra.
Qed.
Lemma norm_0 : is0 N = true -> real s = 0.
Proof.
  intros H. destruct norm_real as (FN & _). apply is0_spec in H; [|exact FN]. destruct norm_s as (_ & P & _). destruct (Rle_lt_or_eq_dec 0 (real s) P) as [L|L]; [|auto].
  destruct (norm_positive L) as (G & _). pose proof (n_low_facts d). lra.
Qed.
Lemma norm_is0 : is0 N = true -> Forall (fun v => Rabs (real v) <= 3 * n_low d) x.
Proof.
  intros H. pose proof (norm_0 H) as E. destruct norm_s as (_ & _ & _ & G). eapply Forall_impl; [|exact G]. intros v L. cbn beta in L. rewrite E in L. pose proof (n_low_facts d) as (P & _ & T & _). pose proof (u_small d).
  apply Rabs_le. assert (real v ^ 2 <= 9 * (n_low d * n_low d)). { assert (0 <= real v ^ 2) by (apply pow2_ge_0). assert (real v ^ 2 * (1 - / 2 ^ 24) <= real v ^ 2 * (1 - u d)) by (apply Rmult_le_compat_l; lra). lra. } nra.
Qed.
Lemma norm_not0 : is0 N = false -> 0 < real s.
Proof.
  intros H. destruct norm_real as (FN & EN & _). destruct norm_s as (_ & P & _). destruct (Rle_lt_or_eq_dec 0 (real s) P) as [L|L]; [exact L|].
  exfalso. assert (is0 N = true); [|congruence]. apply is0_spec; [exact FN|]. rewrite EN, <- L, sqrt_0. apply nearest_0.
Qed.
Lemma norm_each : is0 N = false -> Forall (fun v => Rabs (real v) <= 1.3 * real N) x.
Proof.
  intros H. pose proof (norm_not0 H) as P. destruct norm_s as (F & _ & _ & G). destruct (norm_positive P) as (_ & E & L0). pose proof (smallest d s F P) as L. eapply Forall_impl; [|exact G]. intros v Lv. cbn beta in Lv.
  pose proof (u_small d) as HU. pose proof (u_small F64) as HU4. unfold rel in E. pose proof (sqrt_pos (real s)) as Pr. rewrite (Rabs_right (sqrt _)) in E by lra. apply rabs_le in E. pose proof (sqrt_sqrt (real s) (Rlt_le _ _ P)) as Q.
  set (r := sqrt (real s)) in *. clearbody r. set (n := real N) in *. clearbody n. set (y := real v) in *. clearbody y.
  assert (Y : y ^ 2 <= 1.51 * (r * r)). { rewrite Q. assert (0 <= y ^ 2) by (apply pow2_ge_0). assert (y ^ 2 * (1 - / 2 ^ 24) <= y ^ 2 * (1 - u d)) by (apply Rmult_le_compat_l; lra). lra. }
  assert (Rr : 0.999 * r <= n) by nra. assert (Z : y ^ 2 <= (1.25 * r) * (1.25 * r)) by nra.
  apply Rle_trans with (1.25 * r); [|lra]. apply Rabs_le. nra.
Qed.
Lemma norm_size : real N <= n_high d.
Proof.
  destruct norm_s as (F & P & E & _). destruct norm_real as (FN & EN & _). destruct (few_small d _ Few) as (R1 & R2).
  assert (Y : INR (length x) <= match d with F32 => 2 ^ 16 | F64 => 2 ^ 45 end).
  { unfold few, u in Few. apply (Rmult_le_reg_r (/ 2 ^ match d with F32 => 24 | F64 => 53 end)); [apply Rinv_0_lt_compat, pow_lt; lra|]. eapply Rle_trans; [exact Few|]. right. destruct d; field. }
  pose proof (squares_le d _ x Sx) as SL. pose proof (squares_pos (reals x)) as SP. pose proof (tiny_small d) as T. pose proof (pos_INR (length x)) as PI.
  assert (X : real s <= n_high d * n_high d).
  { apply rabs_le in E. assert (1.01 * rho d (length x) * squares (reals x) <= / 100 * squares (reals x)) by (apply Rmult_le_compat_r; lra).
    assert (2 * (INR (length x) * half_tiny d) <= 1). { unfold half_tiny in *. destruct d; nra. }
    assert (B : real s <= 1.01 * squares (reals x) + 1) by lra. eapply Rle_trans; [exact B|]. unfold n_high, lamb_max in *. destruct d.
    - assert (INR (length x) * (2 * 2 ^ 30 * (2 * 2 ^ 30)) <= 2 ^ 16 * (2 * 2 ^ 30 * (2 * 2 ^ 30))) by (apply Rmult_le_compat_r; lra). lra.
    - rewrite <- pow_add. change (424 + 424)%nat with (45 + 803)%nat. rewrite pow_add.
      assert (Q : 2 * 2 ^ 400 * (2 * 2 ^ 400) = 2 ^ 802) by (change (2 * 2 ^ 400) with (2 ^ 401); rewrite <- pow_add; reflexivity). rewrite Q in SL.
      change (2 ^ 803) with (2 * 2 ^ 802). assert (1 <= 2 ^ 802) by (apply pow_R1_Rle; lra). set (z := 2 ^ 802) in *. clearbody z. assert (INR (length x) * z <= 2 ^ 45 * z) by (apply Rmult_le_compat_r; lra). lra. }
  rewrite EN. assert (RN : rep F64 (n_high d)) by (unfold n_high; destruct d; apply rep_pow2; cbn; lia). rewrite <- (proj1 RN). apply nearest_le.
  assert (0 <= n_high d) by (unfold n_high; destruct d; left; apply pow_lt; lra). rewrite <- (sqrt_square (n_high d)) by assumption. now apply sqrt_le_1_alt.
Qed.
(** if an element is visible the norm is accurate *)
Lemma norm_close : Exists (fun v => visible d <= Rabs (real v)) x -> is0 N = false /\ 0 < length_of (reals x) /\ rel (0.9 * rho d (length x)) (real N) (length_of (reals x)) /\ visible d <= length_of (reals x).
Proof.
  intros V. destruct norm_s as (F & P & E & G). destruct (few_small d _ Few) as (R1 & R2). pose proof (visible_facts d) as (V1 & V2 & _).
  assert (Q : visible d * visible d <= squares (reals x)).
  { clear - V V2. induction V as [v l H|v l H IH]; cbn [reals map squares fold_right].
    - fold (reals l). change (B2R v) with (real v). pose proof (squares_pos (reals l)) as SP. unfold squares in SP.
      assert (visible d * visible d <= real v ^ 2); [|lra]. rewrite <- (pow2_abs (real v)). cbn [pow]. rewrite Rmult_1_r. apply Rmult_le_compat; lra.
    - unfold squares in IH. pose proof (pow2_ge_0 (B2R v)). unfold reals in IH. lra. }
  set (S2 := squares (reals x)) in *. pose proof (u_small d) as HU. pose proof (pos_INR (length x)) as PI.
  assert (T : 2 * (INR (length x) * half_tiny d) <= 0.01 * rho d (length x) * S2).
  { apply Rle_trans with (0.01 * INR (length x) * (u d * (visible d * visible d))); [nra|].
    apply Rle_trans with (0.01 * (INR (length x) * u d) * S2); [|assert (0 <= S2) by apply squares_pos; apply Rmult_le_compat_r; lra].
    replace (0.01 * INR (length x) * (u d * (visible d * visible d))) with (0.01 * (INR (length x) * u d) * (visible d * visible d)) by ring. apply Rmult_le_compat_l; [|exact Q]. assert (0 <= INR (length x) * u d) by (apply Rmult_le_pos; lra). lra. }
  assert (P2 : 0 < S2) by nra.
  assert (E2 : Rabs (real s - S2) <= 1.5 * rho d (length x) * S2 + 0 * 0). { eapply Rle_trans; [exact E|]. assert (0 <= rho d (length x) * S2) by (apply Rmult_le_pos; lra). lra. }
  assert (PS : 0 < real s). { apply rabs_le in E2. assert (rho d (length x) * S2 <= / 200 * S2) by (apply Rmult_le_compat_r; lra). lra. }
  destruct (norm_positive PS) as (L & E3 & _). assert (LP : 0 < sqrt S2) by (apply sqrt_lt_R0; exact P2).
  split. { destruct (is0 N) eqn:Z; [|reflexivity]. pose proof (norm_0 Z). lra. }
  change (length_of (reals x)) with (sqrt S2). split; [exact LP|]. split; [|rewrite <- (sqrt_square (visible d)) by lra; now apply sqrt_le_1_alt].
  pose proof (root_error (rho d (length x)) S2 (real s) 0 ltac:(lra) ltac:(lra) P ltac:(lra) E2) as RE.
  assert (RE2 : rel (0.76 * rho d (length x)) (sqrt (real s)) (sqrt S2)) by (unfold rel; rewrite (Rabs_right (sqrt S2)) by lra; lra).
  assert (P4 : 0 <= 2 * u F64) by (pose proof (u_pos F64); lra). pose proof (rel_trans _ _ _ _ _ P4 E3 RE2) as X. eapply rel_le; [exact X|]. pose proof (u64_le d) as U4. pose proof (u_pos F64).
  assert (2 * u F64 * (0.76 * rho d (length x)) <= / 2 ^ 22 * rho d (length x)). { rewrite <- Rmult_assoc. apply Rmult_le_compat_r; lra. } lra.
Qed.
End Norm.
