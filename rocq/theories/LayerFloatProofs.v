(** * LayerNorm in floating point: the mean, the deviations, and what their errors do to the quotients *)
From Coq Require Import ZArith Bool Lia List Arith Reals Lra Psatz.
From Flocq Require Import Core BinarySingleNaN.
From Verif Require Import FloatModel FloatSpec FloatProofs NumModel NumSpec NumLemmas AsmFloatSpec AsmFloat AsmFloat2 AsmModel AsmCalls AsmSpec OptFloatModel OptFloatNum NormFloatModel NormFloatSpec NormFloatNum NormFloatProofs NormFloatProofs2 NormFloatBack NormFloatLayers ClipFloatProofs LossFloatProofs12 LayerFloatSpec.
Import ListNotations.
Local Open Scope list_scope.
Local Open Scope R_scope.

(** ** In real numbers *)
Definition sum_abs (z : list R) : R := fold_right (fun v s => Rabs v + s) 0 z.
Lemma sum_abs_pos z : 0 <= sum_abs z.
Proof. unfold sum_abs. induction z as [|a z IH]; cbn; [lra|]. pose proof (Rabs_pos a). lra. Qed.
Lemma sum_abs_sq z : sum_abs z * sum_abs z <= INR (length z) * squares z.
Proof.
  induction z as [|a z IH]; [cbn; lra|]. change (length (a :: z)) with (S (length z)). rewrite S_INR. cbn [sum_abs squares fold_right]. fold (sum_abs z) (squares z). pose proof (sum_abs_pos z) as P. pose proof (pos_INR (length z)) as N. assert (Q : 0 <= squares z) by (apply squares_pos).
  assert (A : Rabs a * Rabs a = a ^ 2) by (rewrite <- Rabs_mult, Rabs_right by nra; ring). set (T := sum_abs z) in *. set (n := INR (length z)) in *. set (q := squares z) in *. set (b := Rabs a) in *. assert (B : 0 <= b) by apply Rabs_pos. rewrite <- A.
  enough (2 * b * T <= n * (b * b) + q) by lra. destruct (Rle_lt_or_eq_dec 0 n N) as [Pn|Zn]; [|rewrite <- Zn in *; assert (T2 : T * T <= 0) by lra; assert (T = 0) by nra; subst T; rewrite H; lra].
  assert (K : T * T / n <= q) by (apply (Rmult_le_reg_r n); [exact Pn|]; replace (T * T / n * n) with (T * T) by (field; lra); lra).
  assert (0 <= (n * b - T) * (n * b - T) / n) by (apply Rmult_le_pos; [apply (Rle_0_sqr (n * b - T))|left; now apply Rinv_0_lt_compat]). replace ((n * b - T) * (n * b - T) / n) with (n * (b * b) - 2 * b * T + T * T / n) in H by (field; lra). lra.
Qed.
Lemma squares_near δ y z : 0 <= δ -> Forall2 (fun a b => Rabs (a - b) <= δ) y z -> squares y <= squares z + 2 * δ * sum_abs z + INR (length z) * (δ * δ).
Proof.
  intros D H. induction H as [|a b y z E H IH]; [cbn; lra|]. change (length (b :: z)) with (S (length z)). rewrite S_INR. cbn [squares sum_abs fold_right]. fold (squares y) (squares z) (sum_abs z).
  assert (A : a ^ 2 <= b ^ 2 + 2 * δ * Rabs b + δ * δ). { pose proof (Rabs_triang (a - b) b) as T. replace (a - b + b) with a in T by ring. replace (a ^ 2) with (Rabs a * Rabs a) by (rewrite <- Rabs_mult, Rabs_right by nra; ring). replace (b ^ 2) with (Rabs b * Rabs b) by (rewrite <- Rabs_mult, Rabs_right by nra; ring). pose proof (Rabs_pos a). pose proof (Rabs_pos b). nra. }
  lra.
Qed.
Lemma spread_near e δ y z : 0 <= e -> 0 <= δ -> (0 < length z)%nat -> Forall2 (fun a b => Rabs (a - b) <= δ) y z -> spread e y <= spread e z + δ.
Proof.
  intros He D Hn H. unfold spread. assert (L : length y = length z) by (clear - H; induction H; cbn; congruence). rewrite L. assert (N : 1 <= INR (length z)) by (change 1 with (INR 1); apply le_INR; lia). set (n := INR (length z)) in *. assert (In : 0 < / n) by (apply Rinv_0_lt_compat; lra).
  pose proof (squares_pos z) as Qz. set (f := sqrt (squares z / n + e)). assert (E0 : 0 <= squares z / n) by (apply Rmult_le_pos; lra). assert (F2 : f * f = squares z / n + e) by (apply sqrt_sqrt; lra). assert (F0 : 0 <= f) by apply sqrt_pos.
  rewrite <- (sqrt_square (f + δ)) by lra. apply sqrt_le_1_alt. replace ((f + δ) * (f + δ)) with (f * f + 2 * δ * f + δ * δ) by ring. rewrite F2.
  assert (M : sum_abs z / n <= f). { rewrite <- (sqrt_square (sum_abs z / n)) by (apply Rmult_le_pos; [apply sum_abs_pos|lra]). apply sqrt_le_1_alt. pose proof (sum_abs_sq z) as C. fold n in C. replace (sum_abs z / n * (sum_abs z / n)) with (sum_abs z * sum_abs z * / n * / n) by (unfold Rdiv; ring).
    assert (sum_abs z * sum_abs z * / n * / n <= n * squares z * / n * / n) by (do 2 (apply Rmult_le_compat_r; [lra|]); exact C). replace (n * squares z * / n * / n) with (squares z / n) in H0 by (field; lra). lra. }
  pose proof (squares_near δ y z D H) as S. fold n in S. assert (S2 : squares y / n <= squares z / n + 2 * δ * (sum_abs z / n) + δ * δ).
  { apply (Rmult_le_reg_r n); [lra|]. replace (squares y / n * n) with (squares y) by (field; lra). replace ((squares z / n + 2 * δ * (sum_abs z / n) + δ * δ) * n) with (squares z + 2 * δ * sum_abs z + n * (δ * δ)) by (field; lra). exact S. }
  assert (2 * δ * (sum_abs z / n) <= 2 * δ * f) by (apply Rmult_le_compat_l; lra). lra.
Qed.
Lemma spread_close e δ y z : 0 <= e -> 0 <= δ -> (0 < length z)%nat -> Forall2 (fun a b => Rabs (a - b) <= δ) y z -> Rabs (spread e y - spread e z) <= δ.
Proof.
  intros He D Hn H. assert (L : length y = length z) by (clear - H; induction H; cbn; congruence). assert (H' : Forall2 (fun a b => Rabs (a - b) <= δ) z y) by (clear - H; induction H; constructor; auto; rewrite Rabs_minus_sym; assumption).
  pose proof (spread_near e δ y z He D Hn H). pose proof (spread_near e δ z y He D ltac:(lia) H'). apply Rabs_le. lra.
Qed.
(** no element exceeds sqrt n times the spread *)
Lemma squares_in y i : (i < length y)%nat -> nth i y 0 ^ 2 <= squares y.
Proof.
  revert i. induction y as [|a y IH]; intros i H; cbn in H; [lia|]. cbn [squares fold_right]. fold (squares y). destruct i; cbn [nth].
  - pose proof (squares_pos y). lra.
  - pose proof (IH i ltac:(lia)). pose proof (pow2_ge_0 a). lra.
Qed.
Lemma element_le e y i : 0 <= e -> (i < length y)%nat -> Rabs (nth i y 0) <= sqrt (INR (length y)) * spread e y.
Proof.
  intros He H. unfold spread. assert (N : 1 <= INR (length y)) by (change 1 with (INR 1); apply le_INR; lia). set (n := INR (length y)) in *. rewrite <- sqrt_mult_alt by lra. rewrite <- (sqrt_square (Rabs (nth i y 0))) by apply Rabs_pos. apply sqrt_le_1_alt.
  rewrite <- Rabs_mult, Rabs_right by nra. pose proof (squares_in y i H). replace (n * (squares y / n + e)) with (squares y + n * e) by (field; lra). assert (0 <= n * e) by (apply Rmult_le_pos; lra). nra.
Qed.
Lemma quotient_near y z δ D D' K : 0 < D -> 0 < D' -> 0 <= δ -> Rabs (y - z) <= δ -> Rabs (D' - D) <= δ -> Rabs y <= K * D' -> Rabs (y / D' - z / D) <= (1 + K) * (δ / D).
Proof.
  intros P P' Pd E1 E2 B. replace (y / D' - z / D) with ((y - z) / D + y / D' * ((D - D') / D)) by (field; lra). eapply Rle_trans; [apply Rabs_triang|]. unfold Rdiv. rewrite !Rabs_mult, (Rabs_right (/ D)), (Rabs_right (/ D')) by (left; now apply Rinv_0_lt_compat).
  assert (I : 0 < / D) by now apply Rinv_0_lt_compat. assert (I' : 0 < / D') by now apply Rinv_0_lt_compat. rewrite Rabs_minus_sym in E2.
  assert (A : Rabs (y - z) * / D <= δ * / D) by (apply Rmult_le_compat_r; lra). assert (C : Rabs y * / D' <= K). { apply (Rmult_le_reg_r D'); [lra|]. rewrite Rmult_assoc, Rinv_l, Rmult_1_r by lra. exact B. }
  assert (F : Rabs y * / D' * (Rabs (D - D') * / D) <= K * (δ * / D)). { apply Rmult_le_compat; [apply Rmult_le_pos; [apply Rabs_pos|lra]|apply Rmult_le_pos; [apply Rabs_pos|lra]|exact C|apply Rmult_le_compat_r; lra]. } lra.
Qed.

(** ** The mean and the deviations *)
Section Mean.
Variable d : dtype.
Notation t := (half_tiny d).
Lemma total_reals (x : list (val d)) : total x = fold_right Rplus 0 (reals x).
Proof. unfold total, reals. induction x as [|a x IH]; cbn; [reflexivity|]. now rewrite IH. Qed.
Lemma total_abs_le B (x : list (val d)) : sized B x -> total_abs x <= INR (length x) * B.
Proof. unfold total_abs. induction 1 as [|a x (_ & Ha) _ IH]; [cbn; lra|]. change (length (a :: x)) with (S (length x)). rewrite S_INR. cbn [fold_right]. change (Rabs (real a) <= B) in Ha. unfold val in *. lra. Qed.
Lemma mean_ok sum (x : list (val d)) B : adds_all sum -> sized B x -> 0 <= B <= in_max d / 4 -> few d (length x) -> (0 < length x)%nat ->
  let v := reduce_mean d sum 0 x in finite v /\ Rabs (real v - mean_of (reals x)) <= (1.01 * rho d (length x) - 8 * u d) * B + t /\ Rabs (mean_of (reals x)) <= B.
Proof.
  intros A Hx HB Hn Hp v. unfold reduce_mean in v. destruct (inverse_size d _ Hn Hp) as (Fi & Ri & Ei). set (i := conv F64 d (fdiv fone (of_size (length x)))) in *. pose proof (few_small d _ Hn) as (R1 & R2). pose proof (few_gamma d _ Hn) as G. pose proof (u_small d) as (U0 & U1). pose proof (half_tiny_pos d) as T0. pose proof (in_max_pos d) as I1.
  assert (Fx : Forall finite x) by (eapply Forall_impl; [|exact Hx]; intros a H; apply H). pose proof (total_abs_le B x Hx) as TA. pose proof (few_max d _ Hn) as M. pose proof (s_max_rep d) as (_ & ML). pose proof (s_max_pos d) as SP.
  assert (N1 : 1 <= INR (length x)) by (change 1 with (INR 1); apply le_INR; lia). assert (BI : B <= in_max d * in_max d / 4) by nra. assert (NB : INR (length x) * B <= s_max d / 16) by (assert (INR (length x) * B <= INR (length x) * (in_max d * in_max d / 4)) by (apply Rmult_le_compat_l; lra); lra).
  pose proof (A 0%nat x) as S. set (s := sum 0%nat x) in *. pose proof (total_abs_pos d x) as TP. pose proof (gamma_pos d (length x)) as G0.
  assert (Fs : finite s). { apply (sum_finite d s x S Fx). change (lane (floats d)) with (val d). assert ((1 + gamma d (length x)) * total_abs x <= 2 * total_abs x) by (apply Rmult_le_compat_r; lra). lra. }
  destruct (sum_error d s x S Fs) as (_ & ES). change (lane (floats d)) with (val d) in ES. assert (G1 : gamma d (length x - 1) <= gamma d (length x)) by (apply gamma_le; lia).
  assert (ES' : Rabs (real s - total x) <= gamma d (length x) * (INR (length x) * B)). { eapply Rle_trans; [exact ES|]. apply Rmult_le_compat; try lra. apply gamma_pos. }
  assert (AT : Rabs (total x) <= INR (length x) * B). { eapply Rle_trans; [|exact TA]. unfold total, total_abs. clear. induction x as [|a x IH]; cbn; [rewrite Rabs_R0; lra|]. eapply Rle_trans; [apply Rabs_triang|]. lra. }
  unfold mean_of. replace (length (reals x)) with (length x) by (symmetry; apply map_length). rewrite <- total_reals. set (n := INR (length x)) in *. set (g := gamma d (length x)) in *. set (r := rho d (length x)) in *. assert (In : 0 < / n <= 1) by (split; [apply Rinv_0_lt_compat; lra|rewrite <- Rinv_1; apply Rinv_le_contravar; lra]).
  unfold rel in Ei. rewrite (Rabs_right (/ n)) in Ei by lra.
  assert (AM : Rabs (total x / n) <= B). { unfold Rdiv. rewrite Rabs_mult, (Rabs_right (/ n)) by lra. apply (Rmult_le_reg_r n); [lra|]. rewrite Rmult_assoc, Rinv_l, Rmult_1_r by lra. lra. }
  assert (AS : Rabs (real s) <= (1 + g) * (n * B)). { pose proof (Rabs_triang (real s - total x) (total x)) as Tr. replace (real s - total x + total x) with (real s) in Tr by ring. lra. }
  assert (E1 : Rabs (real s * real i - total x / n) <= g * B + 5.1 * (u d * B)).
  { replace (real s * real i - total x / n) with ((real s - total x) * / n + real s * (real i - / n)) by (unfold Rdiv; ring). eapply Rle_trans; [apply Rabs_triang|]. rewrite !Rabs_mult, (Rabs_right (/ n)) by lra.
    assert (X1 : Rabs (real s - total x) * / n <= g * (n * B) * / n) by (apply Rmult_le_compat_r; lra). replace (g * (n * B) * / n) with (g * B) in X1 by (field; lra).
    assert (X2 : Rabs (real s) * Rabs (real i - / n) <= (1 + g) * (n * B) * (5 * u d * / n)) by (apply Rmult_le_compat; try apply Rabs_pos; assumption). replace ((1 + g) * (n * B) * (5 * u d * / n)) with ((1 + g) * (5 * (u d * B))) in X2 by (field; lra).
    assert (UB : 0 <= u d * B) by (apply Rmult_le_pos; lra). assert (g * (5 * (u d * B)) <= 0.01 * (5 * (u d * B))) by (apply Rmult_le_compat_r; lra). lra. }
  assert (UB : 0 <= u d * B <= 0.001 * B) by (split; [apply Rmult_le_pos; lra|apply Rmult_le_compat_r; lra]). assert (GB : g * B <= 1.01 * (r - 16 * u d) * B) by (apply Rmult_le_compat_r; lra). assert (GB2 : g * B <= 0.01 * B) by (apply Rmult_le_compat_r; lra).
  assert (AP : Rabs (real s * real i) <= 1.1 * B). { pose proof (Rabs_triang (real s * real i - total x / n) (total x / n)) as Tr. replace (real s * real i - total x / n + total x / n) with (real s * real i) in Tr by ring. lra. }
  assert (NBB : B <= n * B) by (rewrite <- (Rmult_1_l B) at 1; apply Rmult_le_compat_r; lra).
  destruct (mul_op s i (largest d) Fs Fi (rep_largest d) ltac:(lra)) as (Fv & _ & Ev). fold v in Fv, Ev. unfold near_to in Ev. split; [exact Fv|]. split; [|exact AM].
  assert (u d * Rabs (real s * real i) <= u d * (1.1 * B)) by (apply Rmult_le_compat_l; lra). pose proof (Rabs_triang (real v - real s * real i) (real s * real i - total x / n)) as Tr. replace (real v - real s * real i + (real s * real i - total x / n)) with (real v - total x / n) in Tr by ring. lra.
Qed.
Lemma deviations_ok sum (x : list (val d)) B : adds_all sum -> sized B x -> 0 <= B <= in_max d / 4 -> few d (length x) -> (0 < length x)%nat ->
  let y := deviations d sum x in length y = length x /\ sized (in_max d) y /\ Forall2 (fun a b => Rabs (a - b) <= center_error d (length x) B) (reals y) (centered (reals x)).
Proof.
  intros A Hx HB Hn Hp. cbv zeta. destruct (mean_ok sum x B A Hx HB Hn Hp) as (Fv & Ev & Bm). unfold deviations, sub_scalar. set (v := reduce_mean d sum 0 x) in *. split; [apply map_length|].
  pose proof (few_small d _ Hn) as (R1 & R2). pose proof (u_small d) as (U0 & U1). pose proof (half_tiny_pos d) as T0. pose proof (in_max_pos d) as I1. pose proof (tiny_small d) as (_ & T1). set (r := rho d (length x)) in *. set (mu := mean_of (reals x)) in *.
  assert (C : conv F64 d (fneg (conv d F64 v)) = fneg v) by (rewrite conv_opp, FloatProofs.conv_back by (destruct d; exact I); reflexivity). rewrite C.
  assert (RB : 0 <= r * B <= 0.005 * B) by (split; [apply Rmult_le_pos; lra|apply Rmult_le_compat_r; lra]). assert (UB : 0 <= u d * B) by (apply Rmult_le_pos; lra). assert (UB2 : u d * B <= 0.001 * B) by (apply Rmult_le_compat_r; lra).
  assert (K : forall a : val d, finite a /\ Rabs (real a) <= B -> finite (fadd a (fneg v)) /\ Rabs (real (fadd a (fneg v))) <= in_max d /\ Rabs (real (fadd a (fneg v)) - (real a - mu)) <= center_error d (length x) B).
  { intros a (Fa & Ba). assert (BV : Rabs (real v) <= 1.01 * B + t). { pose proof (Rabs_triang (real v - mu) mu) as Tr. replace (real v - mu + mu) with (real v) in Tr by ring. lra. }
    assert (BS : Rabs (real a + real (fneg v)) <= 2.01 * B + t). { rewrite neg_eq. eapply Rle_trans; [apply Rabs_triang|]. rewrite Rabs_Ropp. lra. }
    assert (RI : rep d (in_max d)) by (unfold in_max; destruct d; apply rep_pow2; cbn; lia).
    destruct (add_op a (fneg v) (in_max d) Fa ltac:(now apply neg_finite) RI ltac:(lra)) as (F & B2 & E). split; [exact F|]. split; [exact B2|]. rewrite neg_eq in E, BS. unfold center_error. fold r.
    assert (u d * Rabs (real a + - real v) <= u d * (2.01 * B + t)) by (apply Rmult_le_compat_l; lra). assert (UT : u d * t <= 0.001 * t) by (apply Rmult_le_compat_r; lra).
    pose proof (Rabs_triang (real (fadd a (fneg v)) - (real a + - real v)) (mu - real v)) as Tr. replace (real (fadd a (fneg v)) - (real a + - real v) + (mu - real v)) with (real (fadd a (fneg v)) - (real a - mu)) in Tr by ring. rewrite (Rabs_minus_sym mu) in Tr.
    lra. }
  set (e := center_error d (length x) B) in *. unfold centered. fold mu. clearbody mu e v. unfold sized, reals in *. clear - Hx K. split.
  - induction Hx as [|a1 x1 Ha Hx IH]; cbn [map]; constructor; auto. destruct (K a1 Ha) as (K1 & K2 & _). split; assumption.
  - induction Hx as [|a1 x1 Ha Hx IH]; cbn [map]; constructor; auto. apply (K a1 Ha).
Qed.
End Mean.

(** ** The divisor of LayerNorm *)
Lemma rho_small d n : few d n -> 1.1 * rho d n <= / 200.
Proof. unfold few, rho. intros H. pose proof (u_small d) as (P & L). lra. Qed.
Lemma layer_divisor_ok d c (y : list (val d)) (s eps : val d) : sq_ok d c y s -> few d (length y) -> 0 < c <= 1 -> finite eps -> / 2 ^ 60 <= real eps <= 1 ->
  let M := sqrt (c * squares (reals y) + real eps) in let D := elem_sqrt d (fadd s eps) in
  finite D /\ rel (1.2 * rho d (length y)) (real D) M /\ / 2 ^ 30 <= M /\ / 2 ^ 35 <= real D <= 2 * d_max d.
Proof.
  intros Ok Hn C0 Fe He. cbv zeta. pose proof (sq_finite _ _ _ _ Ok) as Fs. pose proof (sq_range _ _ _ _ Ok) as Rs. pose proof (sq_error _ _ _ _ Ok) as Es. destruct (few_w d _ Hn) as (w & Hw & W2). pose proof (rho_small d _ Hn) as R0. pose proof (few_small d _ Hn) as (R1 & _). pose proof (u_small d) as (U0 & U1). pose proof guard_low as GL. pose proof (half_tiny_pos d) as T0. pose proof (tiny_u d) as TU.
  destruct (d_max_facts d) as (_ & _ & _ & D4 & D5 & D6). assert (D7 : rep F64 (2 * d_max d)) by (unfold d_max; destruct d; [replace (2 * 2 ^ 60) with (2 ^ 61) by (cbn [pow]; ring)|replace (2 * 2 ^ 465) with (2 ^ 466) by (cbn [pow]; ring)]; apply rep_pow2; cbn; lia).
  assert (D8 : rep d (2 * d_max d * (2 * d_max d))) by (unfold d_max; clear; destruct d; [replace (2 * 2 ^ 60) with (2 ^ 61) by (cbn [pow]; ring)|replace (2 * 2 ^ 465) with (2 ^ 466) by (cbn [pow]; ring)]; rewrite <- pow_add; apply rep_big; cbn; lia).
  assert (Q0 : 0 <= c * squares (reals y)) by (apply Rmult_le_pos; [lra|apply squares_pos]). set (Q := c * squares (reals y)) in *. set (E := real eps) in *. set (r := rho d (length y)) in *. assert (M2 : 1 <= d_max d * d_max d) by (assert (1 * 1 <= d_max d * d_max d) by (apply Rmult_le_compat; lra); lra).
  destruct (add_op s eps (2 * d_max d * (2 * d_max d)) Fs Fe D8) as (FS & BS & ES). { fold E. rewrite Rabs_right by lra. lra. } fold E in ES. rewrite (Rabs_right (real s + E)) in ES by lra. set (S' := real (fadd s eps)) in *.
  assert (WW : w * w <= 0.01 * (u d * E)). { assert (G2 : guard10 * guard10 <= / 2 ^ 33 * / 2 ^ 33) by (apply Rmult_le_compat; lra). assert (X : w * w <= u d * guard10 / 64 * (u d * guard10 / 64)) by (apply Rmult_le_compat; lra). assert (UU : u d * u d <= u d * 1) by (apply Rmult_le_compat_l; lra).
    assert (Y : u d * u d * (guard10 * guard10) <= u d * 1 * (/ 2 ^ 33 * / 2 ^ 33)) by (apply Rmult_le_compat; try lra; [apply Rmult_le_pos; lra|apply Rmult_le_pos; lra]). assert (Z : u d * / 2 ^ 60 <= u d * E) by (apply Rmult_le_compat_l; lra). lra. }
  assert (RQ : r * Q <= / 200 * Q) by (apply Rmult_le_compat_r; lra). assert (UE : 0 <= u d * E) by (apply Rmult_le_pos; lra). assert (UE1 : u d * E <= / 2 ^ 24 * E) by (apply Rmult_le_compat_r; lra). apply rabs_le in Es, ES.
  assert (UQ : u d * (real s + E) <= u d * (1.1 * (Q + E))) by (apply Rmult_le_compat_l; lra). assert (UR : 16 * (u d * (Q + E)) <= r * (Q + E)) by (rewrite <- Rmult_assoc; apply Rmult_le_compat_r; lra). assert (RE : 0 <= r * E) by (apply Rmult_le_pos; lra). assert (UQ0 : 0 <= u d * Q) by (apply Rmult_le_pos; lra).
  assert (ET : Rabs (S' - (Q + E)) <= 1.5 * (1.1 * r) * (Q + E) + 0 * 0) by (apply le_rabs; lra).
  assert (SP : 0 <= S') by (assert (u d * (real s + E) <= 0.1 * (real s + E)) by (apply Rmult_le_compat_r; lra); lra).
  pose proof (root_error (1.1 * r) (Q + E) S' 0 ltac:(lra) ltac:(lra) SP ltac:(lra) ET) as RT. set (M := sqrt (Q + E)) in *.
  assert (ML : / 2 ^ 30 <= M). { unfold M. replace (/ 2 ^ 30) with (sqrt (/ 2 ^ 30 * / 2 ^ 30)) by (apply sqrt_square; lra). apply sqrt_le_1_alt. lra. }
  apply rabs_le in BS. destruct (sqrt_near d (fadd s eps) (2 * d_max d) FS ltac:(fold S'; lra) ltac:(lra) D5 D7) as (FD & RD & ED). fold S' in ED. split; [exact FD|]. apply rabs_le in RT, ED.
  assert (RM : r * M <= / 200 * M) by (apply Rmult_le_compat_r; lra). assert (UM : 16 * (u d * M) <= r * M) by (rewrite <- Rmult_assoc; apply Rmult_le_compat_r; lra). assert (UM0 : 0 <= u d * M) by (apply Rmult_le_pos; lra). assert (US : u d * sqrt S' <= u d * (1.1 * M)) by (apply Rmult_le_compat_l; lra). assert (TM : half_tiny d <= 0.01 * (u d * M)) by (assert (u d * / 2 ^ 30 <= u d * M) by (apply Rmult_le_compat_l; lra); lra).
  assert (RB : Rabs (real (elem_sqrt d (fadd s eps)) - M) <= 1.2 * r * M) by (apply le_rabs; lra). split; [unfold rel; rewrite (Rabs_right M) by lra; exact RB|]. split; [exact ML|]. apply rabs_le in RB. lra.
Qed.

(** ** The results *)
Section Results.
Variables (d : dtype) (sum : nat -> list (val d) -> val d) (x : list (val d)) (B : R).
Hypothesis A : adds_all sum.
Hypothesis Hx : sized B x.
Hypothesis HB : 0 <= B <= in_max d / 4.
Hypothesis Hn : few d (length x).
Notation t := (half_tiny d).
Notation n := (length x).
Notation z := (centered (reals x)).
Lemma shift_adds : adds_all (fun k => sum (S k)). Proof using A. intros k l. apply A. Qed.
Lemma len_z : length z = n. Proof. unfold centered, reals. now rewrite !map_length. Qed.
Lemma rms_spread (v : list R) : rms_of v = spread 0 v. Proof. unfold rms_of, spread. now rewrite Rplus_0_r. Qed.
Lemma delta_pos : 0 <= center_error d n B.
Proof using All. unfold center_error. pose proof (half_tiny_pos d). pose proof (few_small d _ Hn) as (R1 & _). pose proof (u_small d). assert (0 <= rho d n * B) by (apply Rmult_le_pos; lra). lra. Qed.
Lemma nth_reals (l : list (val d)) i : nth i (reals l) 0 = elem i l.
Proof. unfold reals. exact (map_nth B2R l (fzero : val d) i). Qed.
Lemma nth_near i : (i < n)%nat -> Rabs (elem i (deviations d sum x) - nth i z 0) <= center_error d n B.
Proof using All.
  intros Hi. destruct (deviations_ok d sum x B A Hx HB Hn ltac:(lia)) as (L & _ & N). assert (LR : length (reals (deviations d sum x)) = n) by (unfold reals; rewrite map_length; exact L). pose proof (forall2_nth _ _ _ 0 i N ltac:(lia)) as K. rewrite nth_reals in K. exact K.
Qed.
Lemma quotient_ok e g i : 0 <= e -> 0 <= g -> 0 < spread e z + g -> 0 < spread e (reals (deviations d sum x)) + g -> (i < n)%nat ->
  Rabs (elem i (deviations d sum x) / (spread e (reals (deviations d sum x)) + g) - nth i z 0 / (spread e z + g)) <= (1 + sqrt (INR n)) * (center_error d n B / (spread e z + g)).
Proof using All.
  intros He Hg P P' Hi. destruct (deviations_ok d sum x B A Hx HB Hn ltac:(lia)) as (L & _ & N). pose proof delta_pos as D0. pose proof (spread_close e _ _ _ He D0 ltac:(rewrite len_z; lia) N) as S.
  apply quotient_near; auto; [now apply nth_near|match goal with |- Rabs ?a <= _ => replace a with (spread e (reals (deviations d sum x)) - spread e z) by ring end; exact S|].
  assert (LR : length (reals (deviations d sum x)) = n) by (unfold reals; rewrite map_length; exact L). pose proof (element_le e (reals (deviations d sum x)) i He ltac:(lia)) as K. rewrite LR, nth_reals in K. eapply Rle_trans; [exact K|]. apply Rmult_le_compat_l; [apply sqrt_pos|lra].
Qed.
Theorem simple_ok i : (i < n)%nat -> finite (nth i (simple_norm d sum x) fzero) /\ Rabs (elem i (simple_norm d sum x) - nth i z 0 / (rms_of z + guard10)) <= layer_error d n B (rms_of z + guard10) (nth i z 0 / (rms_of z + guard10)).
Proof using All.
  intros Hi. destruct (deviations_ok d sum x B A Hx HB Hn ltac:(lia)) as (L & SZ & N). pose proof (rms_good d (fun k => sum (S k)) (deviations d sum x) i shift_adds ltac:(rewrite L; exact Hn) SZ ltac:(lia)) as G. rewrite L in G. change (rms_unit d (fun k => sum (S k)) (deviations d sum x)) with (simple_norm d sum x) in G. destruct G as (F & _ & E). split; [exact F|]. pose proof guard_low as GL.
  rewrite !rms_spread in *. assert (S0 : forall v, 0 <= spread 0 v) by (intros v; apply sqrt_pos). pose proof (S0 z) as Sz. pose proof (S0 (reals (deviations d sum x))) as Sy. pose proof (quotient_ok 0 guard10 i ltac:(lra) ltac:(lra) ltac:(lra) ltac:(lra) Hi) as K.
  unfold layer_error. set (q := nth i z 0 / (spread 0 z + guard10)) in *. set (p := elem i (deviations d sum x) / (spread 0 (reals (deviations d sum x)) + guard10)) in *. set (k := (1 + sqrt (INR n)) * (center_error d n B / (spread 0 z + guard10))) in *. set (o := real (nth i (simple_norm d sum x) fzero)) in *.
  pose proof (few_small d _ Hn) as (R1 & _). pose proof (u_small d) as (U0 & _). set (r := rho d n) in *. pose proof (Rabs_triang (p - q) q) as T1. replace (p - q + q) with p in T1 by ring. pose proof (Rabs_triang (o - p) (p - q)) as T2. replace (o - p + (p - q)) with (o - q) in T2 by ring.
  assert (K0 : 0 <= k) by (eapply Rle_trans; [apply Rabs_pos|exact K]). assert (r * Rabs p <= r * (Rabs q + k)) by (apply Rmult_le_compat_l; lra). assert (r * k <= / 200 * k) by (apply Rmult_le_compat_r; lra). lra.
Qed.
Section Eps.
Variable eps : val d.
Hypothesis Fe : finite eps.
Hypothesis He : / 2 ^ 60 <= real eps <= 1.
Lemma layer_unit_good i : (i < n)%nat -> let y := deviations d sum x in good d (rho d n) (nth i (layer_unit d sum eps x) fzero) (elem i y / spread (real eps) (reals y)).
Proof using All.
  intros Hi. cbv zeta. destruct (deviations_ok d sum x B A Hx HB Hn ltac:(lia)) as (L & SZ & N). set (y := deviations d sum x) in *. assert (LR : length (reals y) = n) by (unfold reals; rewrite map_length; exact L). assert (N1 : 1 <= INR n) by (change 1 with (INR 1); apply le_INR; lia).
  assert (C0 : 0 < / INR n <= 1) by (split; [apply Rinv_0_lt_compat; lra|rewrite <- Rinv_1; apply Rinv_le_contravar; lra]). pose proof (rms_square_ok d (fun k => sum (S k)) y shift_adds SZ ltac:(rewrite L; exact Hn) ltac:(lia)) as Ok. change (rms_square d (fun k => sum (S k)) y) with (variance d sum x) in Ok. rewrite L in Ok.
  destruct (layer_divisor_ok d _ y _ eps Ok ltac:(rewrite L; exact Hn) C0 Fe He) as (FD & ED & ML & BD). assert (EM : sqrt (/ INR n * squares (reals y) + real eps) = spread (real eps) (reals y)) by (unfold spread; rewrite LR; f_equal; unfold Rdiv; ring). rewrite EM in ED, ML. rewrite L in ED. set (M := spread (real eps) (reals y)) in *. change (elem_sqrt d (fadd (variance d sum x) eps)) with (layer_divisor d sum eps x) in *.
  pose proof (few_small d _ Hn) as (R1 & _). destruct (sized_nth _ y i SZ ltac:(lia)) as (Fy & By). destruct (in_max_35 d) as (RB & _). assert (PM : 0 < M) by lra. destruct (divided d (in_max d) (rho d n) M _ (nth i y fzero) ltac:(lra) FD ED PM BD Fy By RB) as (F & E).
  assert (EQ : nth i (layer_unit d sum eps x) fzero = fmul (nth i y fzero) (recip d (layer_divisor d sum eps x))). { unfold layer_unit, div_scalar. fold y. rewrite (nth_indep _ fzero (fmul fzero (recip d (layer_divisor d sum eps x)))) by (rewrite map_length; lia). now rewrite (map_nth (fun v => fmul v (recip d (layer_divisor d sum eps x)))). }
  rewrite EQ. split; [exact F|]. split; [|exact E]. set (o := real (fmul _ _)) in *.
  assert (K : Rabs (elem i y / M) <= in_max d * 2 ^ 34). { unfold Rdiv. rewrite Rabs_mult, (Rabs_right (/ M)) by (left; now apply Rinv_0_lt_compat). apply Rmult_le_compat; try apply Rabs_pos; [left; now apply Rinv_0_lt_compat|exact By|]. rewrite <- (Rinv_inv (2 ^ 34)). apply Rinv_le_contravar; lra. }
  replace o with ((o - elem i y / M) + elem i y / M) by ring. eapply Rle_trans; [apply Rabs_triang|]. pose proof (Rabs_pos (elem i y / M)). assert (1.6 * rho d n * Rabs (elem i y / M) <= 0.1 * Rabs (elem i y / M)) by (apply Rmult_le_compat_r; lra).
  pose proof (tiny_small d). pose proof (in_max_pos d). assert (1 * 1 <= in_max d * 2 ^ 34) by (apply Rmult_le_compat; lra). replace (in_max d * 2 ^ 35) with (2 * (in_max d * 2 ^ 34)) by (cbn [pow]; ring). lra.
Qed.
Theorem layer_ok w b i : length w = n -> length b = n -> sized (back_max d) w -> sized (back_max d) b -> (i < n)%nat ->
  let D := spread (real eps) z in let q := nth i z 0 / D in
  finite (nth i (layer_norm d sum eps w b x) fzero) /\ Rabs (elem i (layer_norm d sum eps w b x) - (elem i w * q + elem i b)) <= layer_norm_error d n B D q (elem i w) (elem i b).
Proof using All.
  intros Lw Lb Hw Hb Hi. cbv zeta. pose proof (layer_unit_good i Hi) as G. cbv zeta in G. destruct (sized_nth _ w i Hw ltac:(lia)) as (Fw & Bw). destruct (sized_nth _ b i Hb ltac:(lia)) as (Fb & Bb). pose proof (few_small d _ Hn) as (R1 & _).
  destruct (deviations_ok d sum x B A Hx HB Hn ltac:(lia)) as (L & SZ & N).
  assert (EQ : nth i (layer_norm d sum eps w b x) fzero = fadd (fmul (nth i (layer_unit d sum eps x) fzero) (nth i w fzero)) (nth i b fzero)).
  { unfold layer_norm. assert (LU : length (layer_unit d sum eps x) = n) by (unfold layer_unit; rewrite div_length; exact L). rewrite !nth_zip by (rewrite ?zip_length; lia). reflexivity. }
  rewrite EQ. destruct (shifted_good d (rho d n) _ _ (nth i b fzero) _ R1 G Fw Bw Fb Bb) as (F & E). split; [exact F|].
  assert (SE : forall v, 0 < spread (real eps) v). { intros v. apply sqrt_lt_R0. pose proof (squares_pos v). assert (0 <= squares v / INR (length v)); [|lra]. destruct (length v) eqn:Lv; [destruct v; [cbn; lra|discriminate]|]. apply Rmult_le_pos; [lra|]. left. apply Rinv_0_lt_compat. change 0 with (INR 0). apply lt_INR. lia. }
  pose proof (SE z) as Sz. pose proof (SE (reals (deviations d sum x))) as Sy. pose proof (quotient_ok (real eps) 0 i ltac:(lra) ltac:(lra) ltac:(lra) ltac:(lra) Hi) as K. rewrite !Rplus_0_r in K.
  unfold layer_norm_error. set (q := nth i z 0 / spread (real eps) z) in *. set (p := elem i (deviations d sum x) / spread (real eps) (reals (deviations d sum x))) in *. set (k := (1 + sqrt (INR n)) * (center_error d n B / spread (real eps) z)) in *.
  set (o := real (fadd _ _)) in *. set (W := elem i w) in *. set (b' := elem i b) in *. set (r := rho d n) in *. pose proof (u_small d) as (U0 & _).
  assert (K0 : 0 <= k) by (eapply Rle_trans; [apply Rabs_pos|exact K]). assert (W0 : 0 <= Rabs W) by apply Rabs_pos. assert (WK : Rabs (W * p - W * q) <= Rabs W * k) by (rewrite <- Rmult_minus_distr_l, Rabs_mult; apply Rmult_le_compat_l; assumption). assert (WK0 : 0 <= Rabs W * k) by (apply Rmult_le_pos; assumption).
  pose proof (Rabs_triang (W * p - W * q) (W * q)) as T1. replace (W * p - W * q + W * q) with (W * p) in T1 by ring. pose proof (Rabs_triang (o - (W * p + b')) (W * p - W * q)) as T2. replace (o - (W * p + b') + (W * p - W * q)) with (o - (W * q + b')) in T2 by ring.
  assert (r * Rabs (W * p) <= r * (Rabs (W * q) + Rabs W * k)) by (apply Rmult_le_compat_l; lra). assert (r * (Rabs W * k) <= / 200 * (Rabs W * k)) by (apply Rmult_le_compat_r; lra). lra.
Qed.
End Eps.
End Results.
