(** * Losses in floating point: the gradients of MAE, MSE and NLL *)
From Coq Require Import ZArith Bool Lia List Arith Reals Lra.
From Flocq Require Import Core BinarySingleNaN Relative.
From Verif Require Import DenseModel ArithModel AsmModel AsmCode AsmCalls AsmSpec FloatModel FloatSpec FloatProofs NumModel NumSpec NumLemmas AsmFloatSpec AsmFloat AsmFloat2 SoftFloat OptFloatNum NormFloatModel NormFloatSpec NormFloatNum NormFloatProofs NormFloatBack LossFloatModel LossFloatModel2 LossFloatSpec LossFloatSpec2 LossFloatProofs LossFloatProofs4 LossFloatProofs7 LossFloatProofs9 LossFloatProofs11.
Import ListNotations.
Local Open Scope list_scope.
Local Open Scope R_scope.

Section Back.
Variable d : dtype.
Notation t := (half_tiny d).
Lemma rep_abs (x : val d) : finite x -> rep d (Rabs (real x)).
Proof. intros F. unfold Rabs. destruct (Rcase_abs _); [apply rep_opp|]; now apply rep_real. Qed.
Lemma two_roundings q a b : Rabs (a - q) <= u d * Rabs q + t -> Rabs (b - a) <= u d * Rabs a + t -> Rabs (b - q) <= 3 * u d * Rabs q + 3 * t.
Proof.
  intros A B. pose proof (u_small d) as (U1 & U2). pose proof (inv_small 24 ltac:(lia)) as U3. pose proof (half_tiny_pos d) as T. pose proof (Rabs_pos q) as P.
  pose proof (Rabs_triang (a - q) q) as T1. replace (a - q + q) with a in T1 by ring. pose proof (Rabs_triang (b - a) (a - q)) as T2. replace (b - a + (a - q)) with (b - q) in T2 by ring.
  assert (Rabs a <= (1 + u d) * Rabs q + t) by lra. assert (u d * Rabs a <= u d * ((1 + u d) * Rabs q + t)) by (apply Rmult_le_compat_l; lra).
  assert (u d * (u d * Rabs q) <= / 1000 * (u d * Rabs q)) by (apply Rmult_le_compat_r; [apply Rmult_le_pos; lra|lra]). assert (0 <= u d * Rabs q) by (apply Rmult_le_pos; lra). assert (u d * t <= / 1000 * t) by (apply Rmult_le_compat_r; lra). lra.
Qed.
Lemma reduce_back_ok mean n (gy : val d) : finite gy -> (0 < n)%nat -> (mean = true -> few d n) ->
  finite (reduce_back d mean n gy) /\ Rabs (real (reduce_back d mean n gy)) <= Rabs (real gy) /\
  Rabs (real (reduce_back d mean n gy) - share mean n * real gy) <= 3 * u d * (share mean n * Rabs (real gy)) + 3 * t /\
  (mean = false -> real (reduce_back d mean n gy) = real gy).
Proof.
  intros Fg Hn Hm. pose proof (u_pos d) as U. pose proof (half_tiny_pos d) as T. destruct (conv_up d gy Fg) as (Fu & Vu). unfold reduce_back, share. destruct mean.
  - destruct (of_size_eq d n (Hm eq_refl)) as (Fn & Vn). assert (N1 : 1 <= INR n) by (change 1 with (INR 1); apply le_INR; lia). assert (I1 : 0 < / INR n <= 1) by (split; [apply Rinv_0_lt_compat; lra|rewrite <- Rinv_1; apply Rinv_le_contravar; lra]).
    unfold reduce_mean_back. assert (Q : real (conv d F64 gy) / real (of_size n) = / INR n * real gy) by (rewrite Vu, Vn; unfold Rdiv; ring). assert (AQ : Rabs (/ INR n * real gy) = / INR n * Rabs (real gy)) by (rewrite Rabs_mult, (Rabs_right (/ INR n)) by lra; reflexivity).
    assert (L : / INR n * Rabs (real gy) <= Rabs (real gy)). { rewrite <- (Rmult_1_l (Rabs (real gy))) at 2. apply Rmult_le_compat_r; [apply Rabs_pos|lra]. }
    assert (R64 : rep F64 (Rabs (real gy))) by (rewrite <- Vu; unfold Rabs; destruct (Rcase_abs _); [apply rep_opp|]; now apply rep_real).
    destruct (@div_op F64 (conv d F64 gy) (of_size n) (Rabs (real gy)) Fu ltac:(rewrite Vn; lra) R64 ltac:(rewrite Q, AQ; exact L)) as (F1 & V1 & E1). rewrite Q in E1. apply (near_64 d) in E1.
    destruct (@conv_op d _ (Rabs (real gy)) F1 (rep_abs gy Fg) V1) as (F2 & V2 & E2). split; [exact F2|]. split; [exact V2|]. split; [|discriminate]. rewrite <- AQ. exact (two_roundings _ _ _ E1 E2).
  - unfold reduce_sum_back. rewrite FloatProofs.conv_back by (destruct d; exact I). split; [exact Fg|]. split; [lra|]. split; [|reflexivity]. replace (real gy - 1 * real gy) with 0 by ring. rewrite Rabs_R0. assert (0 <= u d * (1 * Rabs (real gy))) by (apply Rmult_le_pos; [lra|]; pose proof (Rabs_pos (real gy)); lra). lra.
Qed.
(** the sign of a difference, computed even where the difference overflows *)
Lemma sub_sign (x y : val d) : finite x -> finite y -> abs_deriv (conv d F64 (fsub x y)) = if Rlt_dec 0 (real x - real y) then fone else if Rlt_dec (real x - real y) 0 then fneg fone else fzero.
Proof.
  intros Fx Fy. unfold abs_deriv. destruct (is_finite (fsub x y)) eqn:Fs.
  - pose proof (sub_rounds d x y Fs) as E. destruct (conv_up d _ Fs) as (Fu & Vu). set (v := conv d F64 (fsub x y)) in *. pose proof (u_small d) as (U1 & U2). pose proof (inv_small 24 ltac:(lia)) as U3. set (e := real x - real y) in *. rewrite <- Vu in E. apply Rabs_le_inv in E.
    assert (Z : real (fzero : val F64) = 0) by reflexivity.
    destruct (Rlt_dec 0 e) as [P|P].
    + rewrite (Rabs_right e) in E by lra. assert (u d * e <= / 1000 * e) by (apply Rmult_le_compat_r; lra). assert (0 < real v) by lra.
      assert (L1 : flt v fzero = false). { destruct (flt v fzero) eqn:L; [|reflexivity]. apply (lt_eq F64) in L; [|exact Fu|reflexivity]. rewrite Z in L. lra. } rewrite L1.
      assert (L2 : flt (fzero : val F64) v = true) by (apply (lt_eq F64); [reflexivity|exact Fu|rewrite Z; lra]). now rewrite L2.
    + destruct (Rlt_dec e 0) as [M|M].
      * rewrite (Rabs_left e) in E by lra. assert (u d * - e <= / 1000 * - e) by (apply Rmult_le_compat_r; lra). assert (L1 : flt v fzero = true) by (apply (lt_eq F64); [exact Fu|reflexivity|rewrite Z; lra]). now rewrite L1.
      * assert (e = 0) as E0 by lra. rewrite E0, Rabs_R0 in E. assert (real v = 0) by lra.
        assert (L1 : flt v fzero = false). { destruct (flt v fzero) eqn:L; [|reflexivity]. apply (lt_eq F64) in L; [|exact Fu|reflexivity]. rewrite Z in L. lra. }
        assert (L2 : flt (fzero : val F64) v = false). { destruct (flt (fzero : val F64) v) eqn:L; [|reflexivity]. apply (lt_eq F64) in L; [|reflexivity|exact Fu]. rewrite Z in L. lra. } now rewrite L1, L2.
  - pose proof (@Bminus_correct (prec d) (emax d) (prec_pos d) (prec_emax d) mode_NE x y Fx Fy) as C. rewrite <- nearest_eq, <- limit_eq in C. fold (fsub x y) in C. destruct (Rlt_bool_spec (Rabs (nearest d (B2R x - B2R y))) (limit d)) as [Q|Q]; [exfalso; destruct C as (_ & C & _); congruence|]. destruct C as (C & Sg). apply over_nan in C. rewrite C.
    assert (Bx : (if Bsign x then real x <= 0 else 0 <= real x) /\ (if Bsign y then real y <= 0 else 0 <= real y)).
    { assert (K : forall z : val d, finite z -> if Bsign z then real z <= 0 else 0 <= real z). { intros [s|s| |s m e H] F; try discriminate; cbn; [destruct s; lra|]. destruct s; cbn; [apply F2R_le_0|apply F2R_ge_0]; cbn; lia. } split; apply K; assumption. }
    destruct Bx as (Bx & By). rewrite Sg in Bx.
    assert (NZ : real x - real y <> 0). { intros E. unfold real in E. rewrite E, nearest_0, Rabs_R0 in Q. assert (0 < limit d) by (rewrite limit_eq; apply bpow_gt_0). lra. }
    destruct (Bsign y); cbn [negb] in Bx.
    + rewrite Sg. cbn [negb]. destruct (Rlt_dec 0 (real x - real y)) as [_|N]; [destruct d; reflexivity|exfalso; lra].
    + rewrite Sg. cbn [negb]. destruct (Rlt_dec 0 (real x - real y)) as [N|_]; [exfalso; lra|]. destruct (Rlt_dec (real x - real y) 0) as [_|N]; [destruct d; reflexivity|exfalso; lra].
Qed.
Lemma sign_times (x y gs : val d) : finite x -> finite y -> finite gs -> let g := fmul (conv F64 d (abs_deriv (conv d F64 (fsub x y)))) gs in finite g /\ real g = sgn (real x - real y) * real gs.
Proof.
  intros Fx Fy Fg. cbv zeta. rewrite (sub_sign x y Fx Fy). unfold sgn.
  assert (K : forall c : val F64, finite (conv F64 d c : val d) -> forall k, real (conv F64 d c : val d) = k -> k = 1 \/ k = -1 \/ k = 0 -> finite (fmul (conv F64 d c) gs) /\ real (fmul (conv F64 d c) gs) = k * real gs).
  { intros c Fc k <- H. set (z := conv F64 d c : val d) in *. assert (R : rep d (real z * real gs)) by (destruct H as [->|[->| ->]]; [rewrite Rmult_1_l; now apply rep_real|replace (-1 * real gs) with (- real gs) by ring; now apply rep_opp, rep_real|rewrite Rmult_0_l; apply rep_0]).
    destruct (mul_in d z gs _ _ Fc Fg R R ltac:(lra)) as (A & B & _). split; [exact A|lra]. }
  destruct (Rlt_dec 0 _); [|destruct (Rlt_dec _ 0)]; apply K; try (destruct d; reflexivity); auto; destruct d; unfold real; vm_compute; lra.
Qed.
Lemma nth_zip (f : val d -> val d -> val d) (x y : list (val d)) i : (i < length x)%nat -> length x = length y -> nth i (zip f x y) fzero = f (nth i x fzero) (nth i y fzero).
Proof. revert y i. induction x as [|a x IH]; intros [|b y] i H L; cbn in *; try lia. destruct i; [reflexivity|]. apply IH; lia. Qed.
Lemma zip_length (f : val d -> val d -> val d) (x y : list (val d)) : length x = length y -> length (zip f x y) = length x.
Proof. revert y. induction x as [|a x IH]; intros [|b y] L; cbn in *; try lia. rewrite IH; lia. Qed.
Lemma nth_map_d (f : val d -> val d) (l : list (val d)) i : (i < length l)%nat -> nth i (map f l) fzero = f (nth i l fzero).
Proof. intros H. rewrite (nth_indep _ fzero (f fzero)) by (now rewrite map_length). apply map_nth. Qed.
Lemma nth_finite (l : list (val d)) i : Forall finite l -> (i < length l)%nat -> finite (nth i l fzero).
Proof. intros F H. rewrite Forall_forall in F. apply F, nth_In, H. Qed.
Lemma mae_gradient mean (x y : list (val d)) (gy : val d) i : length x = length y -> Forall finite x -> Forall finite y -> finite gy -> (mean = true -> few d (length x)) -> (i < length x)%nat ->
  let s := sgn (real (nth i x fzero) - real (nth i y fzero)) in let r := reduce_back d mean (length x) gy in
  let gx := nth i (fst (mae_back d mean x y gy)) fzero in let gt := nth i (snd (mae_back d mean x y gy)) fzero in
  finite gx /\ finite gt /\ real gx = s * real r /\ real gt = - real gx.
Proof.
  intros L Fx Fy Fg Hm Hi. cbv zeta. destruct (reduce_back_ok mean (length x) gy Fg ltac:(lia) Hm) as (Fr & _). unfold mae_back, sub_grads. cbn [fst snd]. unfold differences.
  rewrite !nth_map_d by (rewrite ?map_length, zip_length by exact L; exact Hi). rewrite nth_zip by assumption.
  destruct (sign_times (nth i x fzero) (nth i y fzero) _ (nth_finite x i Fx Hi) (nth_finite y i Fy ltac:(lia)) Fr) as (A & B). destruct (minus_eq d _ A) as (C & D). split; [exact A|]. split; [exact C|]. split; [exact B|exact D].
Qed.
End Back.
