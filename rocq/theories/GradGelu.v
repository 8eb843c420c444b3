(** * GELU: Backward uses rounded constants *)
From Coq Require Import Reals List Arith Bool ZArith Lia Lra Machin.
From Coquelicot Require Import Coquelicot.
From Verif Require Import GradModel GradLemmas GradProofs3 GradProofs4.
Open Scope R_scope.

Lemma PI_bounds : 3.1415926 < PI < 3.1415927.
Proof.
  destruct (PI_2_3_7_ineq 4) as [H1 H2]. cbv [sum_f_R0 tg_alt PI_2_3_7_tg Ratan_seq Nat.mul Nat.add pow INR] in H1, H2. split.
  - apply Rlt_le_trans with (4 * (PI / 4)); [|lra]. eapply Rlt_le_trans; [|apply Rmult_le_compat_l; [lra|exact H1]]. lra.
  - apply Rle_lt_trans with (4 * (PI / 4)); [lra|]. eapply Rle_lt_trans; [apply Rmult_le_compat_l; [lra|exact H2]|]. lra.
Qed.
Lemma k_bounds : 0.79788455 < sqrt (2 / PI) < 0.79788458.
Proof.
  destruct PI_bounds as [H1 H2]. assert (0 < PI) by lra.
  assert (Hq : 0.79788455 * 0.79788455 < 2 / PI < 0.79788458 * 0.79788458).
  { split; [apply (Rlt_div_r (0.79788455 * 0.79788455) 2 PI); lra|apply (Rlt_div_l 2 (0.79788458 * 0.79788458) PI); lra]. }
  split.
  - rewrite <- (sqrt_square 0.79788455) by lra. apply sqrt_lt_1_alt. lra.
  - rewrite <- (sqrt_square 0.79788458) by lra. apply sqrt_lt_1_alt. split; [|lra]. apply (Rle_div_r 0 2 PI); lra.
Qed.

Lemma gelu_deriv_d0 : is_derive gelu_deriv 0 0.7978845.
Proof.
  unfold gelu_deriv. cbv zeta.
  set (w := fun x : R => 0.0356774 * x ^ 3 + 0.797885 * x).
  assert (Dw : is_derive w 0 0.797885) by (unfold w; auto_derive; auto; ring).
  assert (W0 : w 0 = 0) by (unfold w; ring).
  pose proof (d_comp tanh w 0 _ _ (tanh_d (w 0)) Dw) as Dt. rewrite W0 in Dt.
  assert (Dc : is_derive (fun x => 1 / cosh (w x)) 0 0).
  { assert (D : is_derive cosh (w 0) (sinh (w 0))) by (apply is_derive_Reals, derivable_pt_lim_cosh).
    pose proof (d_comp cosh w 0 _ _ D Dw) as D'. pose proof (cosh_pos (w 0)).
    eapply d_ext; [| |apply (is_derive_inv (fun x => cosh (w x)) 0 _ D')]; [intros t; unfold Rdiv; ring| |cbv beta; lra].
    rewrite W0, sinh_0. unfold Rdiv. ring. }
  pose proof (d_mult _ _ 0 _ _ Dc Dc) as Dc2.
  assert (Dp : is_derive (fun x => 0.0535161 * x ^ 3 + 0.398942 * x) 0 0.398942) by (auto_derive; auto; ring).
  pose proof (d_mult _ _ 0 _ _ Dp Dc2) as D3.
  pose proof (d_scal _ 0 _ 0.5 Dt) as D1.
  pose proof (d_plus _ _ 0 _ _ D1 D3) as D4. pose proof (d_plus _ _ 0 _ _ D4 (d_const 0.5 0)) as D5.
  eapply d_ext; [| |exact D5].
  - intros t. unfold w. cbv beta. ring.
  - cbv beta. rewrite W0. unfold tanh_deriv. replace (tanh 0) with 0 by (unfold tanh; rewrite sinh_0; unfold Rdiv; ring). rewrite cosh_0. lra.
Qed.
Definition gelu_true (v : R) : R := let u := sqrt (2 / PI) * (v + 0.044715 * v ^ 3) in
  0.5 * (1 + tanh u) + 0.5 * v * ((1 - (tanh u) ^ 2) * (sqrt (2 / PI) * (1 + 3 * 0.044715 * v ^ 2))).
Lemma gelu_true_d0 : is_derive gelu_true 0 (sqrt (2 / PI)).
Proof.
  unfold gelu_true. cbv zeta. set (k := sqrt (2 / PI)). set (u := fun v => k * (v + 0.044715 * v ^ 3)).
  assert (Du : is_derive u 0 k) by (unfold u; auto_derive; auto; ring). assert (U0 : u 0 = 0) by (unfold u; ring).
  pose proof (d_comp tanh u 0 _ _ (tanh_d (u 0)) Du) as Dt. rewrite U0 in Dt.
  assert (T0 : tanh 0 = 0) by (unfold tanh; rewrite sinh_0; unfold Rdiv; ring).
  assert (Dt2 : is_derive (fun v => 1 - (tanh (u v)) ^ 2) 0 0).
  { pose proof (d_minus _ _ 0 _ _ (d_const 1 0) (d_mult _ _ 0 _ _ Dt Dt)) as D. eapply d_ext; [| |exact D]; [intros; cbv beta; ring|]. cbv beta. rewrite U0, T0. ring. }
  assert (Dq : is_derive (fun v => k * (1 + 3 * 0.044715 * v ^ 2)) 0 0) by (auto_derive; auto; ring).
  pose proof (d_mult _ _ 0 _ _ Dt2 Dq) as D1.
  assert (Dh : is_derive (fun v => 0.5 * v) 0 0.5) by (auto_derive; auto; ring).
  pose proof (d_mult _ _ 0 _ _ Dh D1) as D2.
  pose proof (d_scal _ 0 _ 0.5 (d_plus _ _ 0 _ _ (d_const 1 0) Dt)) as D3.
  eapply d_ext; [| |exact (d_plus _ _ 0 _ _ D3 D2)].
  - intros t. unfold u. cbv beta. ring.
  - cbv beta. rewrite U0. unfold tanh_deriv. rewrite T0. lra.
Qed.
Lemma gelu_Derive v : Derive gelu v = gelu_true v.
Proof. apply is_derive_unique. apply gelu_d. Qed.

(** the derivative Backward uses is not exactly the derivative of Forward *)
Lemma gelu_not_exact : exists v, gelu_deriv v <> Derive gelu v.
Proof.
  apply Classical_Pred_Type.not_all_not_ex. intros H.
  assert (E : forall v, gelu_deriv v = gelu_true v). { intros v. rewrite <- gelu_Derive. destruct (Req_dec (gelu_deriv v) (Derive gelu v)); auto. exfalso. apply (H v). auto. }
  pose proof (d_ext _ _ 0 _ _ E eq_refl gelu_deriv_d0) as D. pose proof (d_unique _ _ _ _ D gelu_true_d0) as Hk. pose proof k_bounds. lra.
Qed.

(** ... but close to it *)
Lemma tanh_1 v : -1 < tanh v < 1.
Proof.
  pose proof (cosh_pos v). unfold tanh. split.
  - apply (Rlt_div_r (-1) (sinh v) (cosh v)); auto. unfold sinh, cosh. pose proof (exp_pos v). lra.
  - apply (Rlt_div_l (sinh v) 1 (cosh v)); auto. unfold sinh, cosh. pose proof (exp_pos (- v)). lra.
Qed.
Lemma tanh_lipschitz a b : Rabs (tanh a - tanh b) <= Rabs (a - b).
Proof.
  assert (H : forall a b, a < b -> Rabs (tanh a - tanh b) <= Rabs (a - b)).
  { clear. intros a b Hab. destruct (MVT_gen tanh a b tanh_deriv) as (c & _ & Hc).
    - intros x _. apply tanh_d.
    - intros x _. apply continuity_pt_filterlim. apply (d_continuous _ _ _ (tanh_d x)).
    - rewrite <- (Rabs_Ropp (tanh a - tanh b)), <- (Rabs_Ropp (a - b)), !Ropp_minus_distr, Hc, Rabs_mult.
      rewrite <- (Rmult_1_l (Rabs (b - a))) at 2. apply Rmult_le_compat_r; [apply Rabs_pos|]. unfold tanh_deriv. pose proof (tanh_1 c). apply Rabs_le. nra. }
  destruct (Rtotal_order a b) as [Hl|[->|Hg]]; auto.
  - rewrite !Rminus_eq_0. lra.
  - rewrite <- (Rabs_Ropp (tanh a - tanh b)), <- (Rabs_Ropp (a - b)), !Ropp_minus_distr. auto.
Qed.
Lemma sech2 v : (1 / cosh v) ^ 2 = 1 - tanh v ^ 2.
Proof.
  pose proof (cosh_pos v). unfold tanh. transitivity ((cosh v * cosh v - sinh v * sinh v) / (cosh v * cosh v)); [rewrite cosh2|]; field; lra.
Qed.
Lemma gelu_close v : Rabs (gelu_deriv v - Derive gelu v) <= 1e-6 * (Rabs v + Rabs v ^ 3) * (1 + Rabs v + Rabs v ^ 3).
Proof.
  rewrite gelu_Derive. unfold gelu_deriv, gelu_true. cbv zeta. rewrite sech2. pose proof k_bounds as Hk. set (k := sqrt (2 / PI)) in *.
  set (w := 0.0356774 * v ^ 3 + 0.797885 * v). set (u := k * (v + 0.044715 * v ^ 3)).
  set (p := 0.0535161 * v ^ 3 + 0.398942 * v). set (q := 0.5 * v * (k * (1 + 3 * 0.044715 * v ^ 2))).
  set (X := Rabs v). assert (HX : 0 <= X) by apply Rabs_pos.
  assert (HX3 : Rabs (v ^ 3) = X ^ 3) by (unfold X; now rewrite RPow_abs). assert (HX30 : 0 <= X ^ 3) by (apply pow_le; auto).
  assert (Hlin : forall a b ea eb, Rabs a <= ea -> Rabs b <= eb -> Rabs (a * v + b * v ^ 3) <= ea * X + eb * X ^ 3).
  { intros a b ea eb Ha Hb. eapply Rle_trans; [apply Rabs_triang|]. rewrite !Rabs_mult, HX3. fold X. apply Rplus_le_compat; apply Rmult_le_compat_r; auto. }
  assert (Hwu : Rabs (w - u) <= 5e-7 * X + 5e-8 * X ^ 3).
  { replace (w - u) with ((0.797885 - k) * v + (0.0356774 - k * 0.044715) * v ^ 3) by (unfold w, u; ring). apply Hlin; apply Rabs_le; lra. }
  assert (Hpq : Rabs (p - q) <= 5e-7 * X + 5e-8 * X ^ 3).
  { replace (p - q) with ((0.398942 - 0.5 * k) * v + (0.0535161 - 0.5 * k * 3 * 0.044715) * v ^ 3) by (unfold p, q; ring). apply Hlin; apply Rabs_le; lra. }
  assert (Hp : Rabs p <= 0.4 * X + 0.06 * X ^ 3).
  { replace p with (0.398942 * v + 0.0535161 * v ^ 3) by (unfold p; ring). apply Hlin; apply Rabs_le; lra. }
  pose proof (tanh_lipschitz w u) as Hl. pose proof (tanh_1 w) as Hw1. pose proof (tanh_1 u) as Hu1.
  replace (0.5 * tanh w + p * (1 - tanh w ^ 2) + 0.5 - (0.5 * (1 + tanh u) + 0.5 * v * ((1 - tanh u ^ 2) * (k * (1 + 3 * 0.044715 * v ^ 2)))))
    with (0.5 * (tanh w - tanh u) + (p * (- (tanh w + tanh u)) * (tanh w - tanh u) + (p - q) * (1 - tanh u ^ 2))) by (unfold q; field).
  set (D := 5e-7 * X + 5e-8 * X ^ 3) in *. assert (HD : Rabs (tanh w - tanh u) <= D) by lra. assert (0 <= D) by (unfold D; lra).
  assert (A1 : Rabs (0.5 * (tanh w - tanh u)) <= 0.5 * D). { rewrite Rabs_mult, (Rabs_pos_eq 0.5) by lra. lra. }
  assert (A2 : Rabs (p * (- (tanh w + tanh u)) * (tanh w - tanh u)) <= (0.4 * X + 0.06 * X ^ 3) * 2 * D).
  { rewrite !Rabs_mult. apply Rmult_le_compat; auto using Rabs_pos; [apply Rmult_le_pos; apply Rabs_pos|]. apply Rmult_le_compat; auto using Rabs_pos. apply Rabs_le. lra. }
  assert (A3 : Rabs ((p - q) * (1 - tanh u ^ 2)) <= D * 1).
  { rewrite Rabs_mult. apply Rmult_le_compat; auto using Rabs_pos. apply Rabs_le. nra. }
  eapply Rle_trans; [apply Rabs_triang|]. eapply Rle_trans; [apply Rplus_le_compat_l, Rabs_triang|].
  eapply Rle_trans; [apply Rplus_le_compat; [exact A1|apply Rplus_le_compat; [exact A2|exact A3]]|].
  assert (HDb : D <= 5e-7 * (X + X ^ 3)) by (unfold D; lra).
  replace (0.5 * D + ((0.4 * X + 0.06 * X ^ 3) * 2 * D + D * 1)) with (D * (1.5 + 0.8 * X + 0.12 * X ^ 3)) by lra.
  eapply Rle_trans; [apply Rmult_le_compat_r; [lra|exact HDb]|].
  replace (1e-6 * (X + X ^ 3) * (1 + X + X ^ 3)) with (5e-7 * (X + X ^ 3) * (2 * (1 + X + X ^ 3))) by lra.
  apply Rmult_le_compat_l; lra.
Qed.
