(** * Property C72: losses in floating point *)
From Coq Require Import List ZArith Reals Lia Lra Bool.
From Flocq Require Import Core BinarySingleNaN.
From Verif Require Import ArithModel FloatModel FloatSpec FloatProofs NumModel NumSpec NumLemmas NumProofs AsmFloatSpec AsmFloat AsmModel AsmCalls AsmSpec AsmProofs6 SoftSpec SoftFloat SoftFloat2 OptFloatNum NormFloatSpec NormFloatBack5.
From Verif Require Import LossFloatModel LossFloatSpec LossFloatProofs LossFloatProofs2 LossFloatProofs3 LossFloatProofs4 LossFloatProofs5 LossFloatProofs6 LossFloatProofs7 LossFloatProofs8 LossFloatProofs9 LossFloatProofs10 LossFloatProofs11.
Import ListNotations.
Open Scope R_scope.

(** In all theorems: a processor c with or without AVX2, every sum in whatever order, and at most 2^21 (2^50) scores. *)
Definition not_many (d : dtype) (n : nat) : Prop := INR n * u d <= / 8.

(** ** CrossEntropy.  For all finite scores it is never NaN and never negative. *)
Theorem C72_cross_entropy_sign : forall g d c sum (x : list (val d)) k, go_math g -> adds_all sum -> Forall finite x -> not_many d (length x) -> (k < length x)%nat ->
  let v := cross_entropy g d sum (vector_exp g d c) x k in v = infinity \/ finite v /\ 0 <= real v.
Proof. intros g d c sum x k G A F N K. exact (ce_sign g G d c sum _ A (vector_exp_ok g d c) x F k K N). Qed.
Print Assumptions C72_cross_entropy_sign.
(** Scores of at most B, where B is at most 2^120 (2^1000): finite, and the exact loss up to the error of the softmax and 8 units
    of rounding of B. *)
Theorem C72_cross_entropy : forall g d c sum (x : list (val d)) k B, go_math g -> adds_all sum -> Forall finite x -> not_many d (length x) -> (k < length x)%nat ->
  (forall v, In v x -> Rabs (real v) <= B) -> B <= safe d ->
  let v := cross_entropy g d sum (vector_exp g d c) x k in finite v /\ Rabs (real v - cross_entropy_of x k) <= soft_rel d (length x) + 8 * (u d * B).
Proof. intros g d c sum x k B G A F N K HB HS. exact (ce_value g G d c sum _ A (vector_exp_ok g d c) x F k K N B HB HS). Qed.
Print Assumptions C72_cross_entropy.
(** The gradient: for all finite scores, however large, and every gradient gy of at most 2^120 (2^1000), in whatever order the
    gradients of x arrive.  No panic; each gradient is gy times the probability (minus one for the class). *)
Theorem C72_gradient : forall g d c sum (x : list (val d)) k first gy, go_math g -> adds_all sum -> Forall finite x -> not_many d (length x) -> (k < length x)%nat ->
  finite gy -> Rabs (real gy) <= safe d ->
  exists gx, cross_entropy_back d sum (vector_exp g d c) first x k gy = Some gx /\ length gx = length x /\
  forall i, (i < length x)%nat -> finite (nth i gx fzero) /\
    Rabs (real (nth i gx fzero) - real gy * cross_entropy_slope x k i) <= 3 * soft_rel d (length x) * Rabs (real gy) + soft_abs d.
Proof. intros g d c sum x k first gy G A F N K Fg Bg. exact (back_value g G d c sum _ A (vector_exp_ok g d c) x F k K N gy Fg Bg first). Qed.
Print Assumptions C72_gradient.
(** That slope is the slope of the loss as a function of the score i. *)
Theorem C72_slope : forall d (x : list (val d)) k i, (k < length x)%nat -> (i < length x)%nat ->
  score_loss (map real x) k = cross_entropy_of x k /\ derivable_pt_lim (fun t => score_loss (put i t (map real x)) k) (real (nth i x fzero)) (cross_entropy_slope x k i).
Proof. intros d x k i K Hi. split; [symmetry; apply cross_entropy_scores|now apply slope_scores]. Qed.
Print Assumptions C72_slope.

(** ** WeightedCrossEntropy, with a weight between 0 and 1, and its gradient *)
Theorem C72_weighted : forall g d c sum (w x : list (val d)) k, go_math g -> adds_all sum -> Forall finite x -> not_many d (length x) -> (k < length x)%nat ->
  finite (nth k w fzero) -> 0 <= real (nth k w fzero) <= 1 -> (forall v, In v x -> Rabs (real v) <= safe d) ->
  let v := weighted g d sum (vector_exp g d c) w x k in let ce := cross_entropy g d sum (vector_exp g d c) x k in
  finite v /\ 0 <= real v <= real ce /\ Rabs (real v - real (nth k w fzero) * real ce) <= u d * real ce + half_tiny d.
Proof.
  intros g d c sum w x k G A F N K Fw Bw HB v ce. destruct (ce_value g G d c sum _ A (vector_exp_ok g d c) x F k K N (safe d) HB (Rle_refl _)) as (Fc & _). fold ce in Fc.
  destruct (weighted_sign g G d c sum _ A (vector_exp_ok g d c) x F k K N w Fc Fw Bw) as (Fv & Bv). split; [exact Fv|]. split; [exact Bv|]. fold ce in Bv.
  assert (Ev : v = fmul ce (nth k w fzero)) by (unfold v, weighted; rewrite (FloatProofs.conv_back d F64) by (destruct d; exact I); reflexivity).
  assert (P : Rabs (real ce * real (nth k w fzero)) <= real ce). { rewrite Rabs_right by (apply Rle_ge, Rmult_le_pos; lra). rewrite <- (Rmult_1_r (real ce)) at 2. apply Rmult_le_compat_l; lra. }
  destruct (@mul_op d ce (nth k w fzero) (real ce) Fc Fw (rep_real d ce Fc) P) as (_ & _ & E). unfold near_to in E. rewrite Ev, (Rmult_comm (real (nth k w fzero))). eapply Rle_trans; [exact E|]. apply Rplus_le_compat_r, Rmult_le_compat_l; [|exact P]. left. apply u_pos.
Qed.
Print Assumptions C72_weighted.
Theorem C72_weighted_gradient : forall g d c sum (w x : list (val d)) k first gy, go_math g -> adds_all sum -> Forall finite x -> not_many d (length x) -> (k < length x)%nat ->
  finite (nth k w fzero) -> 0 <= real (nth k w fzero) <= 1 -> finite gy -> Rabs (real gy) <= safe d ->
  let gw := real (nth k w fzero) * real gy in
  exists gx, weighted_back d sum (vector_exp g d c) first w x k gy = Some gx /\ length gx = length x /\
  forall i, (i < length x)%nat -> finite (nth i gx fzero) /\
    Rabs (real (nth i gx fzero) - gw * cross_entropy_slope x k i) <= 4 * soft_rel d (length x) * Rabs gw + 2 * soft_abs d.
Proof.
  intros g d c sum w x k first gy G A F N K Fw Bw Fg Bg gw. set (h := fmul gy (nth k w fzero)). assert (RS : rep d (safe d)) by (unfold safe; destruct d; apply NormFloatBack.rep_big; cbn; lia).
  assert (P : Rabs (real gy * real (nth k w fzero)) <= safe d). { rewrite Rabs_mult, (Rabs_right (real (nth k w fzero))) by lra. rewrite <- (Rmult_1_r (safe d)). apply Rmult_le_compat; try lra. apply Rabs_pos. }
  destruct (@mul_op d gy (nth k w fzero) (safe d) Fg Fw RS P) as (Fh & Bh & Eh). unfold near_to in Eh. fold h in Fh, Bh, Eh. replace (real gy * real (nth k w fzero)) with gw in Eh by (unfold gw; ring).
  destruct (back_value g G d c sum _ A (vector_exp_ok g d c) x F k K N h Fh Bh first) as (gx & E & L & H). exists gx. split; [unfold weighted_back; rewrite (FloatProofs.conv_back d F64) by (destruct d; exact I); exact E|]. split; [exact L|]. intros i Hi. destruct (H i Hi) as (Fi & Ei). split; [exact Fi|].
  pose proof (u_small d) as (U1 & U2). pose proof (u_eta d) as Ue. destruct (eta_tau d) as (He & Ht & _). pose proof (pos_INR (length x)) as Pn. assert (NU : 0 <= INR (length x) * u d) by (apply Rmult_le_pos; lra). unfold not_many in N.
  assert (Sl : Rabs (cross_entropy_slope x k i) <= 1).
  { assert (Ix : In (nth i x fzero) x) by (now apply nth_In). unfold cross_entropy_slope. rewrite (softmax_pos d x F k K _ Ix). pose proof (exact_in d (top d x) (nth i x fzero) x Ix) as X. pose proof (exact_ge d x F (not_empty d x k K)) as X1. pose proof (exp_pos (real (nth i x fzero) - real (top d x))) as Xp.
    assert (Q : 0 <= exp (real (nth i x fzero) - real (top d x)) / exact (top d x) x <= 1). { unfold Rdiv. split; [apply Rmult_le_pos; [lra|left; apply Rinv_0_lt_compat; lra]|]. apply Rmult_le_reg_r with (exact (top d x) x); [lra|]. rewrite Rmult_assoc, Rinv_l by lra. lra. }
    apply Rabs_le. destruct (i =? k)%nat; lra. }
  rewrite soft_rel_eq, soft_abs_eq in *. set (R := 4 * eta d + 2 * (INR (length x) * u d)) in *. assert (RR : 0 < R <= 0.26) by (unfold R; lra). assert (UR : u d <= R / 100) by (unfold R; lra). pose proof (half_tiny_pos d) as Hp. pose proof (tiny_tau d) as Tt.
  pose proof (Rabs_pos gw) as Pg. assert (Hh : Rabs (real h) <= Rabs gw + (u d * Rabs gw + half_tiny d)). { pose proof (Rabs_triang (real h - gw) gw) as T. replace (real h - gw + gw) with (real h) in T by ring. lra. }
  assert (UG : u d * Rabs gw <= R / 100 * Rabs gw) by (apply Rmult_le_compat_r; lra). assert (X1 : Rabs ((real h - gw) * cross_entropy_slope x k i) <= u d * Rabs gw + half_tiny d). { rewrite Rabs_mult. rewrite <- (Rmult_1_r (u d * Rabs gw + half_tiny d)). apply Rmult_le_compat; auto; apply Rabs_pos. }
  assert (X2 : 3 * R * Rabs (real h) <= 3 * R * (Rabs gw + (u d * Rabs gw + half_tiny d))) by (apply Rmult_le_compat_l; lra). assert (X3 : R * (u d * Rabs gw) <= 0.26 * (u d * Rabs gw)) by (apply Rmult_le_compat_r; [apply Rmult_le_pos; lra|lra]). assert (X4 : R * half_tiny d <= 0.26 * half_tiny d) by (apply Rmult_le_compat_r; lra).
  pose proof (Rabs_triang (real (nth i gx fzero) - real h * cross_entropy_slope x k i) ((real h - gw) * cross_entropy_slope x k i)) as T. replace (real (nth i gx fzero) - real h * cross_entropy_slope x k i + (real h - gw) * cross_entropy_slope x k i) with (real (nth i gx fzero) - gw * cross_entropy_slope x k i) in T by ring.
  replace (3 * R * (Rabs gw + (u d * Rabs gw + half_tiny d))) with (3 * (R * Rabs gw) + 3 * (R * (u d * Rabs gw)) + 3 * (R * half_tiny d)) in X2 by ring. replace (4 * R * Rabs gw) with (4 * (R * Rabs gw)) by ring. replace (R / 100 * Rabs gw) with (/ 100 * (R * Rabs gw)) in UG by field.
  assert (0 <= R * Rabs gw) by (apply Rmult_le_pos; lra). lra.
Qed.
Print Assumptions C72_weighted_gradient.

(** ** Perplexity: at least 1, never NaN, and the exponential of the loss *)
Theorem C72_perplexity : forall g d c sum (x : list (val d)) k, go_math g -> adds_all sum -> Forall finite x -> not_many d (length x) -> (k < length x)%nat ->
  let v := perplexity g d sum (vector_exp g d c) x k in let ce := cross_entropy g d sum (vector_exp g d c) x k in
  v = infinity \/ finite v /\ 1 <= real v /\ (finite ce -> Rabs (real v - exp (real ce)) <= 10 * u d * exp (real ce)).
Proof.
  intros g d c sum x k G A F N K v ce. destruct (perplexity_sign g G d c sum _ A (vector_exp_ok g d c) x F k K N) as [E|(Fv & Bv)]; [now left|right]. split; [exact Fv|]. split; [exact Bv|]. intros Fc. exact (perplexity_value g G d c sum _ A (vector_exp_ok g d c) x F k K N Fc Fv).
Qed.
Print Assumptions C72_perplexity.
Theorem C72_perplexity_gradient : forall g d c sum (x : list (val d)) k first gy, go_math g -> adds_all sum -> Forall finite x -> not_many d (length x) -> (k < length x)%nat ->
  let v := perplexity g d sum (vector_exp g d c) x k in let ce := cross_entropy g d sum (vector_exp g d c) x k in
  finite ce -> finite v -> finite gy -> Rabs (real v * real gy) <= safe d ->
  exists gx, perplexity_back g d sum (vector_exp g d c) first x k gy = Some gx /\ length gx = length x /\
  forall i, (i < length x)%nat -> finite (nth i gx fzero) /\
    Rabs (real (nth i gx fzero) - real gy * exp (real ce) * cross_entropy_slope x k i) <= 4 * soft_rel d (length x) * Rabs (real gy * exp (real ce)) + 2 * soft_abs d.
Proof. intros g d c sum x k first gy G A F N K v ce Fc Fv Fg B. exact (perplexity_back_value g G d c sum _ A (vector_exp_ok g d c) x F k K N Fc gy first Fv Fg B). Qed.
Print Assumptions C72_perplexity_gradient.

(** ** FocalLoss with a parameter of at least 0: between 0 and the cross entropy *)
Theorem C72_focal : forall g d c sum (x : list (val d)) k gamma, go_math g -> go_power g -> adds_all sum -> Forall finite x -> not_many d (length x) -> (k < length x)%nat ->
  (forall v, In v x -> Rabs (real v) <= safe d) -> finite gamma -> 0 <= real gamma ->
  let v := focal g d sum (vector_exp g d c) x k gamma in finite v /\ 0 <= real v <= real (cross_entropy g d sum (vector_exp g d c) x k).
Proof.
  intros g d c sum x k gamma G W A F N K HB Fg Pg v. destruct (ce_value g G d c sum _ A (vector_exp_ok g d c) x F k K N (safe d) HB (Rle_refl _)) as (Fc & _). exact (focal_sign g G d c sum _ A (vector_exp_ok g d c) x F k K N gamma W Fc Fg Pg).
Qed.
Print Assumptions C72_focal.
(** With a parameter of at least 1: how accurate it is *)
Theorem C72_focal_value : forall g d c sum (x : list (val d)) k gamma, go_math g -> go_power g -> power_accurate g -> adds_all sum -> Forall finite x -> not_many d (length x) -> (k < length x)%nat ->
  finite gamma -> 1 <= real gamma <= 2 ^ 20 -> let ce := cross_entropy g d sum (vector_exp g d c) x k in finite ce ->
  Rabs (real (focal g d sum (vector_exp g d c) x k gamma) - focal_of (real gamma) (real ce)) <= 22 * real gamma * u d * real ce + half_tiny d.
Proof. intros g d c sum x k gamma G W P A F N K Fg Bg ce Fc. exact (focal_value g G W P d c sum _ A (vector_exp_ok g d c) x F k K N Fc gamma Fg Bg). Qed.
Print Assumptions C72_focal_value.
Theorem C72_focal_slope : forall y l, 0 < l -> derivable_pt_lim (focal_of y) l (focal_slope y l).
Proof. exact focal_derive. Qed.
Print Assumptions C72_focal_slope.
Lemma loss_bound g d c sum (x : list (val d)) k : go_math g -> adds_all sum -> Forall finite x -> not_many d (length x) -> (k < length x)%nat -> (forall v, In v x -> Rabs (real v) <= 2 ^ 20) ->
  let ce := cross_entropy g d sum (vector_exp g d c) x k in finite ce /\ real ce <= 2 ^ 30.
Proof.
  intros G A F N K HB ce. assert (S20 : 2 ^ 20 <= safe d) by (unfold safe; destruct d; apply Rle_pow; lra || lia).
  destruct (ce_value g G d c sum _ A (vector_exp_ok g d c) x F k K N (2 ^ 20) HB S20) as (Fc & Ec). fold ce in Fc, Ec.
  split; [exact Fc|].
  rewrite (ce_exact d x F k K) in Ec. pose proof (u_small d) as (U1 & U2). destruct (eta_tau d) as (He & _). unfold not_many in N. rewrite soft_rel_eq in Ec. assert (Us : / 2 ^ 24 <= / 1000) by (apply inv_small; lia).
    destruct (arg_ok d x F (not_empty d x k K)) as (_ & _ & Im & M). pose proof (HB _ Im) as B1. pose proof (HB (nth k x fzero) ltac:(now apply nth_In)) as B2. apply Rabs_le_inv in B1, B2, Ec.
    assert (X : ln (exact (top d x) x) <= 2 ^ 20).
    { destruct (sum_near_exact g G d c sum _ A (vector_exp_ok g d c) x F (not_empty d x k K) N 0) as (En & Es). destruct (sums g G d c sum _ A (vector_exp_ok g d c) x F (not_empty d x k K) N 0) as (_ & Bs & _). pose proof (exact_ge d x F (not_empty d x k K)) as X1.
      set (s := real (sum 0%nat (powers d (vector_exp g d c) x))) in *. set (X := exact (top d x) x) in *. apply Rabs_le_inv in En. assert (X * 0.15 <= s * 0.2). { assert (sum_rel d x * X <= 0.15 * X) by (apply Rmult_le_compat_r; lra). lra. } assert (Xs : X <= 2 * s) by (assert (sum_rel d x * X <= 0.15 * X) by (apply Rmult_le_compat_r; lra); lra).
      assert (Lx : ln X <= ln (2 * s)) by (destruct Xs as [Q|Q]; [left; apply ln_increasing; lra|rewrite Q; lra]). rewrite ln_mult in Lx by lra. pose proof (ln_cap d s ltac:(lra)) as Lc. pose proof (ln_le_minus 2 ltac:(lra)). assert (64 <= 2 ^ 20) by lra. lra. }
    assert (u d * 2 ^ 20 <= / 1000 * 2 ^ 20) by (apply Rmult_le_compat_r; lra). assert (2 ^ 30 = 1024 * 2 ^ 20) by lra. assert (1 <= 2 ^ 20) by lra. lra. 
Qed.
(** Its gradient, with a parameter between 2 and 2^20 *)
Theorem C72_focal_gradient : forall g d c sum (x : list (val d)) k gamma first gy, go_math g -> go_power g -> power_accurate g -> adds_all sum -> Forall finite x -> not_many d (length x) -> (k < length x)%nat ->
  (forall v, In v x -> Rabs (real v) <= 2 ^ 20) -> finite gamma -> 2 <= real gamma <= 2 ^ 20 -> finite gy -> Rabs (real gy) <= 2 ^ 20 ->
  let ce := real (cross_entropy g d sum (vector_exp g d c) x k) in let r := real gy * focal_slope (real gamma) ce in
  exists gx, focal_back g d sum (vector_exp g d c) first x k gamma gy = Some gx /\ length gx = length x /\
  forall i, (i < length x)%nat -> finite (nth i gx fzero) /\
    Rabs (real (nth i gx fzero) - r * cross_entropy_slope x k i) <=
    3 * soft_rel d (length x) * Rabs r + soft_abs d + 2 * (50 * real gamma * real gamma * u d * (1 + ce) * Rabs (real gy) + 12 * real gamma * half_tiny d).
Proof.
  intros g d c sum x k gamma first gy G W P A F N K HB Fg Bg Fy By ce r. destruct (loss_bound g d c sum x k G A F N K HB) as (Fc & Bc).
  destruct (focal_ce_finite g G W d c sum _ A (vector_exp_ok g d c) x F k K N gamma gy Fc Bc Fg ltac:(lra) Fy By) as (Fh & Bh). pose proof (focal_ce_near g G d c sum _ A (vector_exp_ok g d c) x F k K N Fc gamma gy W P Bc Fg Bg Fy By) as E.
  exact (back_chain g G d c sum _ A (vector_exp_ok g d c) x F k K N _ r _ first Fh Bh E).
Qed.
Print Assumptions C72_focal_gradient.
(** and with a parameter between 1 and 2^20: all numbers.  Missing: how accurate the factor is for parameters between 1 and 2. *)
Theorem C72_focal_gradient_partial : forall g d c sum (x : list (val d)) k gamma first gy, go_math g -> go_power g -> adds_all sum -> Forall finite x -> not_many d (length x) -> (k < length x)%nat ->
  (forall v, In v x -> Rabs (real v) <= 2 ^ 20) -> finite gamma -> 1 <= real gamma <= 2 ^ 20 -> finite gy -> Rabs (real gy) <= 2 ^ 20 ->
  exists gx factor, focal_back g d sum (vector_exp g d c) first x k gamma gy = Some gx /\ length gx = length x /\
  forall i, (i < length x)%nat -> finite (nth i gx fzero) /\
    Rabs (real (nth i gx fzero) - factor * cross_entropy_slope x k i) <= 3 * soft_rel d (length x) * Rabs factor + soft_abs d.
Proof.
  intros g d c sum x k gamma first gy G W A F N K HB Fg Bg Fy By. assert (S20 : 2 ^ 20 <= safe d) by (unfold safe; destruct d; apply Rle_pow; lra || lia).
  destruct (loss_bound g d c sum x k G A F N K HB) as (Fc & Bc).
  destruct (focal_ce_finite g G W d c sum _ A (vector_exp_ok g d c) x F k K N gamma gy Fc Bc Fg Bg Fy By) as (Fh & Bh). destruct (back_value g G d c sum _ A (vector_exp_ok g d c) x F k K N _ Fh Bh first) as (gx & E & L & H).
  exists gx, (real (focal_ce_grad g d sum (vector_exp g d c) x k gamma gy)). split; [exact E|]. split; [exact L|exact H].
Qed.
Print Assumptions C72_focal_gradient_partial.
(** Refuted for a parameter below 1, for every processor, library and order: as soon as the loss is 0, every gradient is NaN. *)
Theorem C72_focal_gradient_nan : forall g d c sum (x : list (val d)) k gamma first gy, go_math g -> go_power g -> adds_all sum -> Forall finite x -> not_many d (length x) -> (k < length x)%nat ->
  finite gamma -> 0 <= real gamma < 1 -> finite (cross_entropy g d sum (vector_exp g d c) x k) -> real (cross_entropy g d sum (vector_exp g d c) x k) = 0 ->
  exists gx, focal_back g d sum (vector_exp g d c) first x k gamma gy = Some gx /\ length gx = length x /\ forall i, (i < length x)%nat -> nth i gx fzero = B754_nan.
Proof.
  intros g d c sum x k gamma first gy G W A F N K Fg Bg Fc Zc. unfold focal_back. rewrite (focal_ce_nan g G d c sum _ A (vector_exp_ok g d c) x F k K N gamma gy W Fc Zc Fg Bg). exact (back_nan g G d c sum _ A (vector_exp_ok g d c) x F k K N first).
Qed.
Print Assumptions C72_focal_gradient_nan.
Theorem C72_focal_gradient_refuted : forall g d c sum, go_math g -> go_power g -> adds_all sum -> exists (x : list (val d)) gamma, Forall finite x /\ length x = 2%nat /\ finite gamma /\ 0 < real gamma /\
  forall first gy, focal_back g d sum (vector_exp g d c) first x 0 gamma gy = Some [B754_nan; B754_nan].
Proof.
  intros g d c sum G W A. destruct (huge_eq d) as (Fh & Vh). destruct (zero_eq d) as (Fz & Vz). exists [huge d; fzero], (lit 1 (-1)). assert (F : Forall finite [huge d; fzero]) by (repeat constructor; assumption).
  destruct (lit_eq F64 1 (-1) 0.5 ltac:(cbn; lra) ltac:(cbn; lia) ltac:(cbn; lia) ltac:(cbn; lia)) as (Fg & Vg). split; [exact F|]. split; [reflexivity|]. split; [exact Fg|]. split; [lra|]. intros first gy.
  assert (C1 : 0 <= cap d) by (unfold cap; apply bpow_ge_0). assert (T : top d [huge d; fzero] = huge d) by (apply top_first; auto; lra).
  destruct (lost g G d c sum _ A (vector_exp_ok g d c) [huge d; fzero] F 0 ltac:(cbn; lia) (two_ok d) eq_refl ltac:(now rewrite T) Vh) as (Fc & Zc).
  destruct (C72_focal_gradient_nan g d c sum [huge d; fzero] 0 (lit 1 (-1)) first gy G W A F (two_ok d) ltac:(cbn; lia) Fg ltac:(lra) Fc Zc) as (gx & E & L & H). rewrite E. f_equal.
  destruct gx as [|a [|b [|]]]; try discriminate L. pose proof (H 0%nat ltac:(cbn; lia)) as H0. pose proof (H 1%nat ltac:(cbn; lia)) as H1. cbn [nth] in H0, H1. subst a b. reflexivity.
Qed.
Print Assumptions C72_focal_gradient_refuted.

(** ** Refuted: the loss is accurate relative to its size.  Two equal scores of 2^24 (2^53): the loss is 0 instead of ln 2. *)
Theorem C72_lost_refuted : forall g d c sum, go_math g -> adds_all sum -> exists (x : list (val d)), Forall finite x /\ length x = 2%nat /\ cross_entropy_of x 0 = ln 2 /\
  finite (cross_entropy g d sum (vector_exp g d c) x 0) /\ real (cross_entropy g d sum (vector_exp g d c) x 0) = 0.
Proof.
  intros g d c sum G A. destruct (huge_eq d) as (Fh & Vh). exists [huge d; huge d]. assert (F : Forall finite [huge d; huge d]) by (repeat constructor; assumption). split; [exact F|]. split; [reflexivity|]. split; [apply equal_loss|].
  assert (T : top d [huge d; huge d] = huge d) by (apply top_first; auto; lra). exact (lost g G d c sum _ A (vector_exp_ok g d c) [huge d; huge d] F 0 ltac:(cbn; lia) (two_ok d) eq_refl ltac:(now rewrite T) Vh).
Qed.
Print Assumptions C72_lost_refuted.

(** ** NLL: NaN as soon as a probability is 0 where the target is 0 too *)
Theorem C72_nll_nan : forall d sum vlog (x y : list (val d)) i v, adds_all sum -> length (vlog x) = length y -> nth_error (vlog x) i = Some minus_infinity -> nth_error y i = Some v -> finite v -> real v = 0 ->
  nll d sum vlog x y = B754_nan.
Proof. intros d sum vlog x y i v A L E Ey Fv Zv. apply (nll_nan d sum A vlog x y i L E). now exists v. Qed.
Print Assumptions C72_nll_nan.
(** Refuted: NLL of the softmax of finite scores is a number.  The scores 0 and -1000, the first class: NaN instead of 0. *)
Theorem C72_nll_refuted : forall g d c sum, go_math g -> adds_all sum -> exists (x y : list (val d)), Forall finite x /\ length x = 2%nat /\ map real y = [1; 0] /\
  nll d sum (map (log_elem g d)) (softmax_list d sum (vector_exp g d c) x) y = B754_nan /\ finite (cross_entropy g d sum (vector_exp g d c) x 0).
Proof.
  intros g d c sum G A. destruct (far_eq d) as (Ff & Vf). destruct (zero_eq d) as (Fz & Vz). destruct (one_eq d) as (Fo & Vo). set (x := [fzero; far d]). assert (F : Forall finite x) by (repeat constructor; assumption). exists x, [fone; fzero].
  split; [exact F|]. split; [reflexivity|]. split; [cbn [map]; rewrite Vo, Vz; reflexivity|]. split.
  - destruct (exp_far g d c G) as (E & L). fold x in E, L. destruct (sums g G d c sum _ A (vector_exp_ok g d c) x F ltac:(discriminate) (two_ok d) 3) as (Fs & Bs & _). unfold softmax_list. set (ps := powers d (vector_exp g d c) x) in *. set (s := sum 3%nat ps) in *.
    destruct (@div_op d fone s 1 Fo ltac:(lra) (rep_1 d)) as (Fi & _ & _). { rewrite Vo. unfold Rdiv. rewrite Rmult_1_l, Rabs_right by (left; apply Rinv_0_lt_compat; lra). rewrite <- Rinv_1. apply Rinv_le_contravar; lra. }
    rewrite (FloatProofs.conv_back d F64) by (destruct d; exact I). set (r := fdiv fone s) in *. apply (nll_nan d sum A _ _ _ 1%nat); [rewrite !map_length, L; reflexivity| |exists fzero; split; [reflexivity|split; [exact Fz|exact Vz]]].
    rewrite !nth_error_map, E. cbn [option_map]. f_equal. assert (Z : exists t, fmul (B754_zero false) r = B754_zero t) by (revert Fi; generalize r; intros [t|t| |t m e H] Fi; try discriminate; eexists; reflexivity). destruct Z as (t & ->). unfold log_elem. change (conv d F64 (B754_zero t)) with (B754_zero t : val F64). rewrite (log_zero g G). reflexivity.
  - destruct (ce_value g G d c sum _ A (vector_exp_ok g d c) x F 0 ltac:(cbn; lia) (two_ok d) (2 ^ 10)) as (Fc & _); [|unfold safe; destruct d; apply Rle_pow; lra || lia|exact Fc].
    intros v [<-|[<-|[]]]; [rewrite Vz, Rabs_R0|rewrite Vf, Rabs_left]; lra.
Qed.
Print Assumptions C72_nll_refuted.

(** ** MAE and MSE of vectors of the same length, whenever the result is finite *)
Theorem C72_mae : forall d sum (x y : list (val d)), adds_all sum -> length x = length y -> finite (mae d sum x y) ->
  Rabs (real (mae d sum x y) - absolute_errors x y) <= gamma d (length x) * absolute_errors x y.
Proof. intros d sum x y A. exact (mae_value d sum A x y). Qed.
Print Assumptions C72_mae.
Theorem C72_mse : forall d sum (x y : list (val d)), adds_all sum -> length x = length y -> finite (mse d sum x y) ->
  Rabs (real (mse d sum x y) - squared_errors x y) <= (gamma d (length x - 1) * (1 + 5 * u d) + 5 * u d) * squared_errors x y + (1 + gamma d (length x - 1)) * (INR (length x) * (2 * half_tiny d)).
Proof. intros d sum x y A. exact (mse_value d sum A x y). Qed.
Print Assumptions C72_mse.
(** ** MAE is 0 for equal vectors only; MSE is not *)
Theorem C72_mae_zero : forall d sum (x y : list (val d)), adds_all sum -> length x = length y -> Forall finite x -> Forall finite y ->
  (finite (mae d sum x y) /\ real (mae d sum x y) = 0 <-> map real x = map real y).
Proof. intros d sum x y A. exact (mae_zero d sum A x y). Qed.
Print Assumptions C72_mae_zero.
Theorem C72_mse_zero_refuted : forall d sum, adds_all sum -> exists (x y : list (val d)), length x = length y /\ Forall finite x /\ Forall finite y /\ map real x <> map real y /\ finite (mse d sum x y) /\ real (mse d sum x y) = 0.
Proof.
  intros d sum A. destruct (small_eq d) as (Fs & Ns). exists [small d], [fzero]. split; [reflexivity|]. split; [repeat constructor; exact Fs|]. split; [repeat constructor|]. split; [cbn [map]; intros E; apply Ns; injection E as ->; reflexivity|].
  unfold mse. rewrite small_square. apply (sum_zero d _ [B754_zero false] (A 5%nat _)); [repeat constructor|]. unfold total_abs. cbn. rewrite Rabs_R0. lra.
Qed.
Print Assumptions C72_mse_zero_refuted.

(** ** The hypotheses are met *)
Definition in_turn {d} (_ : nat) (l : list (val d)) : val d := plain_sum (zero (floats d)) (bin (floats d) Add) l.
Definition scores (d : dtype) : list (val d) := [lit 3 0; lit 1 0; lit 2 0].
Example C72_library : go_math accurate /\ go_power accurate /\ power_accurate accurate.
Proof. split; [exact accurate_go_math|split; [exact accurate_go_power|exact accurate_accurate]]. Qed.
Example C72_sums d : adds_all (@in_turn d).
Proof. intros k l. exact (plain_sum_of (floats d) l). Qed.
Example C72_scores d : Forall finite (scores d) /\ not_many d (length (scores d)) /\ (1 < length (scores d))%nat /\ (forall v, In v (scores d) -> Rabs (real v) <= 2 ^ 20) /\ 2 ^ 20 <= safe d.
Proof.
  assert (Q : forall k, (0 <= k < 16)%Z -> finite (lit k 0 : val d) /\ Rabs (real (lit k 0 : val d)) <= 2 ^ 20).
  { intros k H. destruct (lit_eq d k 0 (IZR k) ltac:(cbn; lra) ltac:(destruct d; cbn; lia) ltac:(destruct d; cbn; lia) ltac:(destruct d; cbn; lia)) as (F & E). split; [exact F|]. rewrite E, Rabs_right by (apply Rle_ge, IZR_le; lia). apply Rle_trans with 16; [apply IZR_le; lia|lra]. }
  split; [repeat constructor; apply Q; lia|]. split; [unfold not_many; pose proof (u_small d) as (U1 & U2); assert (/ 2 ^ 24 <= / 1000) by (apply inv_small; lia); cbn [length scores INR]; lra|]. split; [cbn; lia|]. split; [intros v [<-|[<-|[<-|[]]]]; apply Q; lia|unfold safe; destruct d; apply Rle_pow; lra || lia].
Qed.
(** the gradient of three scores, with the gradient 1 of the loss: the class gets a negative one *)
Example C72_gradient_case g d c : go_math g -> exists gx, cross_entropy_back d in_turn (vector_exp g d c) true (scores d) 1 fone = Some gx /\ length gx = 3%nat /\ real (nth 1 gx fzero) < 0.
Proof.
  intros G. destruct (C72_scores d) as (F & N & K & B & _). destruct (one_eq d) as (Fo & Vo). assert (S1 : Rabs (real (fone : val d)) <= safe d) by (rewrite Vo, Rabs_R1; apply Rle_trans with (2 ^ 20); [lra|unfold safe; destruct d; apply Rle_pow; lra || lia]).
  destruct (C72_gradient g d c in_turn (scores d) 1 true fone G (C72_sums d) F N K Fo S1) as (gx & E & L & H). exists gx. split; [exact E|]. split; [exact L|]. destruct (H 1%nat K) as (_ & H1). rewrite Vo, Rmult_1_l, Rabs_R1, Rmult_1_r in H1.
  assert (P : cross_entropy_slope (scores d) 1 1 <= - (0.5)).
  { unfold cross_entropy_slope, softmax_of, exp_total. cbn [Nat.eqb scores map fold_right nth]. assert (Q : forall k, (0 <= k < 16)%Z -> real (lit k 0 : val d) = IZR k) by (intros k Hk; apply (lit_eq d k 0 (IZR k) ltac:(cbn; lra) ltac:(destruct d; cbn; lia) ltac:(destruct d; cbn; lia) ltac:(destruct d; cbn; lia))). rewrite !Q by lia.
    assert (E31 : exp 1 < exp 3) by (apply exp_increasing; lra). assert (E21 : exp 1 < exp 2) by (apply exp_increasing; lra). pose proof (exp_pos 1) as P1. set (T := exp 3 + (exp 1 + (exp 2 + 0))). assert (HT : 2 * exp 1 <= T) by (unfold T; lra).
    assert (exp 1 / T <= / 2). { unfold Rdiv. apply Rmult_le_reg_r with T; [lra|]. rewrite Rmult_assoc, Rinv_l by lra. lra. } lra. }
  assert (Sm : 3 * soft_rel d (length (scores d)) + soft_abs d <= 0.1). { rewrite soft_rel_eq, soft_abs_eq. destruct (eta_tau d) as (He & Ht & Ht'). pose proof (u_small d) as (U1 & U2). assert (/ 2 ^ 24 <= / 1000) by (apply inv_small; lia). cbn [length scores INR]. lra. }
  apply Rabs_le_inv in H1. lra.
Qed.
Example C72_parameter : finite (lit 2 0 : val F64) /\ 2 <= real (lit 2 0 : val F64) <= 2 ^ 20.
Proof. destruct (lit_eq F64 2 0 2 ltac:(cbn; lra) ltac:(cbn; lia) ltac:(cbn; lia) ltac:(cbn; lia)) as (F & ->). split; [exact F|lra]. Qed.
Example C72_parameter_below_one : finite (lit 1 (-1) : val F64) /\ 0 <= real (lit 1 (-1) : val F64) < 1.
Proof. destruct (lit_eq F64 1 (-1) 0.5 ltac:(cbn; lra) ltac:(cbn; lia) ltac:(cbn; lia) ltac:(cbn; lia)) as (F & ->). split; [exact F|lra]. Qed.
Example C72_errors d : let x := [lit 3 0; lit 1 0] in let y := [lit 1 0; lit 2 0] in finite (mae d in_turn x y) /\ absolute_errors x y = 3 /\ finite (mse d in_turn x y) /\ squared_errors x y = 2.5.
Proof.
  assert (Q : forall k, (0 <= k < 16)%Z -> real (lit k 0 : val d) = IZR k) by (intros k Hk; apply (lit_eq d k 0 (IZR k) ltac:(cbn; lra) ltac:(destruct d; cbn; lia) ltac:(destruct d; cbn; lia) ltac:(destruct d; cbn; lia))).
  cbv zeta. unfold absolute_errors, squared_errors, sum_pairs. rewrite !Q by lia. split; [destruct d; vm_compute; reflexivity|]. split; [rewrite Rabs_right, Rabs_left; lra|]. split; [destruct d; vm_compute; reflexivity|lra].
Qed.
