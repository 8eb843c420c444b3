(** * C72, continued: the gradients of MAE, MSE and NLL in floating point *)
From Coq Require Import ZArith Bool Reals.
From Coq Require Import Lia List Arith Lra.
From Flocq Require Import Core BinarySingleNaN.
From Verif Require Import FloatModel FloatSpec FloatProofs NumModel NumSpec NumLemmas AsmFloatSpec AsmFloat SoftFloat OptFloatNum NormFloatModel NormFloatSpec RnnFloatProofs PropsRnnFloat
  LossFloatModel LossFloatModel2 LossFloatSpec LossFloatSpec2 LossFloatProofs LossFloatProofs4 LossFloatProofs12 LossFloatProofs13 LossFloatProofs14.
Import ListNotations.
Local Open Scope list_scope.
Local Open Scope R_scope.

(** MAE, with the gradient gy of the loss: every element of x gets exactly r, -r or 0, as x is above, below or equal to y, and y gets the
    opposite; r is gy itself for the sum and gy / n up to three units of rounding for the mean.  It holds for all finite x and y, even where
    their difference overflows, and no difference is rounded to 0. *)
Theorem C72_mae_gradient : forall d mean (x y : list (val d)) (gy : val d), length x = length y -> Forall finite x -> Forall finite y -> finite gy -> (mean = true -> NormFloatSpec.few d (length x)) ->
  exists r, (mean = false -> r = real gy) /\ (x <> [] -> Rabs (r - share mean (length x) * real gy) <= 3 * u d * (share mean (length x) * Rabs (real gy)) + 3 * half_tiny d) /\
  forall i, (i < length x)%nat -> let gx := nth i (fst (mae_back d mean x y gy)) fzero in let gt := nth i (snd (mae_back d mean x y gy)) fzero in
    finite gx /\ finite gt /\ real gx = sgn (real (nth i x fzero) - real (nth i y fzero)) * r /\ real gt = - real gx.
Proof.
  intros d mean x y gy L Fx Fy Fg Hm. exists (real (reduce_back d mean (length x) gy)). split; [|split].
  - intros ->. unfold reduce_back, reduce_sum_back. now rewrite FloatProofs.conv_back by (destruct d; exact I).
  - intros Nx. apply (reduce_back_ok d mean (length x) gy Fg); [destruct x; [easy|cbn; lia]|exact Hm].
  - intros i Hi. exact (mae_gradient d mean x y gy i L Fx Fy Fg Hm Hi).
Qed.
Print Assumptions C72_mae_gradient.
(** MSE: every element of x gets gy (x - y) for the sum and gy (x - y) / n for the mean, up to nine units of rounding and underflow, y gets
    the opposite, and nothing where x and y are equal. *)
Theorem C72_mse_gradient : forall d mean (x y : list (val d)) (gy : val d) i, length x = length y -> Forall finite x -> Forall finite y -> finite gy -> (mean = true -> NormFloatSpec.few d (length x)) -> (i < length x)%nat ->
  let e := real (nth i x fzero) - real (nth i y fzero) in let k := share mean (length x) in
  Rabs e <= safe d -> Rabs (real gy) <= safe d -> Rabs e * Rabs (real gy) <= safe d ->
  let gx := nth i (fst (mse_back d mean x y gy)) fzero in let gt := nth i (snd (mse_back d mean x y gy)) fzero in
  finite gx /\ finite gt /\ Rabs (real gx - k * real gy * e) <= 9 * u d * (k * Rabs (real gy) * Rabs e) + 8 * half_tiny d * (Rabs e + 1) /\ real gt = - real gx /\ (e = 0 -> real gx = 0).
Proof. intros d mean x y gy i. exact (mse_gradient d mean x y gy i). Qed.
Print Assumptions C72_mse_gradient.
(** NLL: without negative elements in x every element gets - gy y / x, up to six units of rounding and underflow, if x is a normal number
    and nothing overflows; where x is 0 it gets the value for x = 1e-8.  With a negative element it panics. *)
Theorem C72_nll_gradient_partial : forall d (x y : list (val d)) (gy : val d), length x = length y -> Forall finite x -> Forall finite y -> finite gy ->
  (Exists (fun v => real v < 0) x -> nll_back d x y gy = None) /\
  (Forall (fun v => 0 <= real v) x -> exists g, nll_back d x y gy = Some g /\ length g = length x /\ forall i, (i < length x)%nat ->
    let p := log_point (real (nth i x fzero)) in let q := real (nth i y fzero) * real gy in
    normal d <= p -> Rabs q <= safe d -> / p * Rabs q <= safe d ->
    finite (nth i g fzero) /\ Rabs (real (nth i g fzero) - - (q / p)) <= 6 * u d * (Rabs q / p) + 4 * half_tiny d * (Rabs q + / p + 1)).
Proof. intros d x y gy. exact (nll_gradient d x y gy). Qed.
Print Assumptions C72_nll_gradient_partial.
(** For smaller x it is false: a probability that is positive but subnormal makes the gradient NaN although the target there is 0, so that
    the exact gradient is 0. *)
Theorem C72_nll_gradient_refuted : forall d (gy : val d), finite gy -> exists x y g : list (val d), length x = length y /\ Forall finite x /\ Forall (fun v => 0 < real v) x /\ map real y = [0; 1] /\
  nll_back d x y gy = Some g /\ nth 0 g fzero = B754_nan.
Proof.
  intros d gy Fg. destruct (small_elem_ok d) as (F & P & E1 & E2). destruct (exact_lit d 1 ltac:(lia)) as (F1 & V1). destruct (conv_up d _ F1) as (Fu & Vu).
  assert (E3 : go_log_deriv (conv d F64 (lit 1 0)) = Some (fdiv fone (conv d F64 (lit 1 0)))) by (apply log_deriv_cases; [exact Fu|rewrite Vu, V1; lra]).
  exists [small_elem d; lit 1 0], [fzero; lit 1 0]. eexists. split; [reflexivity|]. split; [repeat constructor; assumption|]. split; [repeat constructor; [exact P|rewrite V1; lra]|]. split; [cbn [map]; rewrite V1; reflexivity|].
  split; [unfold nll_back; cbn [map log_back]; rewrite E1, E3; reflexivity|]. cbn [nth]. rewrite E2. apply zero_times. unfold reduce_sum_back. rewrite FloatProofs.conv_back by (destruct d; exact I). apply neg_back_eq, Fg.
Qed.
Print Assumptions C72_nll_gradient_refuted.

(** The hypotheses are met: x = (3, 1), y = (1, 2), gy = 1 *)
Example C72_gradient_case d : let x := [lit 3 0; lit 1 0 : val d] in let y := [lit 1 0; lit 2 0 : val d] in Forall finite x /\ Forall finite y /\ NormFloatSpec.few d (length x) /\
  sgn (real (nth 0 x fzero) - real (nth 0 y fzero)) = 1 /\ sgn (real (nth 1 x fzero) - real (nth 1 y fzero)) = -1 /\
  Rabs (real (nth 0 x fzero) - real (nth 0 y fzero)) * 1 <= safe d /\ normal d <= log_point (real (nth 0 x fzero)) /\ normal d <= log_point 0.
Proof.
  intros x y. destruct (exact_lit d 3 ltac:(lia)) as (F3 & V3), (exact_lit d 1 ltac:(lia)) as (F1 & V1), (exact_lit d 2 ltac:(lia)) as (F2 & V2). pose proof (u_small d) as (U1 & U2). pose proof (inv_small 24 ltac:(lia)) as U3. pose proof (safe_big d) as S. assert (P20 : 2 ^ 20 = 1048576) by (cbn; lra).
  split; [repeat constructor; assumption|]. split; [repeat constructor; assumption|]. split; [unfold NormFloatSpec.few; cbn [x length INR]; assert (/ 2 ^ 24 <= / 2 ^ 16) by (apply inv_le; lia); assert (/ 2 ^ 16 * 2 <= / 2 ^ 8) by (cbn; lra); lra|]. cbn [x y nth]. rewrite V3, V1, V2. unfold sgn, log_point.
  split; [destruct (Rlt_dec 0 (3 - 1)); lra|]. split; [destruct (Rlt_dec 0 (1 - 2)); [lra|]; destruct (Rlt_dec (1 - 2) 0); lra|]. split; [rewrite Rabs_right; lra|].
  assert (N : normal d <= / 2 ^ 30) by (unfold normal; destruct d; apply inv_le; lia). destruct (lit_eq F64 6044629098073146 (-79) (6044629098073146 * bpow radix2 (-79)) eq_refl ltac:(cbn; lia) ltac:(cbn; lia) ltac:(cbn; lia)) as (_ & V8).
  assert (I30 : / 2 ^ 30 <= / 1000) by (apply inv_small; lia).
  split; [destruct (Req_EM_T 3 0); lra|]. destruct (Req_EM_T 0 0) as [_|H]; [|easy]. rewrite V8. apply Rle_trans with (1 := N). change (bpow radix2 (-79)) with (/ IZR (2 ^ 79)). rewrite pow_IZR. apply Rmult_le_reg_r with (IZR (2 ^ 79)); [apply IZR_lt; reflexivity|]. rewrite Rmult_assoc, Rinv_l, Rmult_1_r by (apply IZR_neq; discriminate). change (2 ^ Z.of_nat 30)%Z with 1073741824%Z. change (2 ^ 79)%Z with 604462909807314587353088%Z. lra.
Qed.
