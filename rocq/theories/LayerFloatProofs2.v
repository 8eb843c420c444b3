(** * AdaNorm in floating point *)
From Coq Require Import ZArith Bool Lia List Arith Reals Lra Psatz.
From Flocq Require Import Core BinarySingleNaN.
From Verif Require Import FloatModel FloatSpec FloatProofs NumModel NumSpec NumLemmas AsmFloatSpec AsmFloat AsmFloat2 AsmModel AsmCalls AsmSpec OptFloatModel OptFloatNum NormFloatModel NormFloatSpec NormFloatNum NormFloatProofs NormFloatProofs2 NormFloatBack NormFloatLayers ClipFloatProofs LossFloatProofs12 LayerFloatSpec LayerFloatProofs.
Import ListNotations.
Local Open Scope list_scope.
Local Open Scope R_scope.

Definition tenth (d : dtype) : val d := conv F64 d (conv d F64 (conv F64 d (lit 3602879701896397 (-55)))).
Definition minus_one (d : dtype) : val d := conv F64 d (lit (-1) 0).
Definition one_as (d : dtype) : val d := conv F64 d (conv d F64 (conv F64 d fone)).
Lemma tenth_eq d : finite (tenth d) /\ Rabs (real (tenth d) - / 10) <= 0.3 * u d.
Proof.
  unfold tenth. rewrite FloatProofs.conv_back by (destruct d; exact I). assert (L : finite (lit 3602879701896397 (-55) : val F64) /\ real (lit 3602879701896397 (-55) : val F64) = IZR 3602879701896397 * bpow radix2 (-55)) by (apply lit_eq; [reflexivity|cbn; lia..]). destruct L as (F & E). change (bpow radix2 (-55)) with (/ 36028797018963968) in E.
  destruct (conv_op (d := d) _ 1 F (rep_1 d) ltac:(rewrite E; apply le_rabs; lra)) as (F1 & _ & N). split; [exact F1|]. unfold near_to in N. rewrite E in N. pose proof (tiny_u d) as T. pose proof (u_pos d) as U.
  assert (X : Rabs (3602879701896397 * / 36028797018963968) <= 0.11) by (apply le_rabs; lra). assert (u d * Rabs (3602879701896397 * / 36028797018963968) <= u d * 0.11) by (apply Rmult_le_compat_l; lra). assert (UL : / 2 ^ 53 <= u d) by (pose proof (u64_le d) as V; unfold u at 1 in V; exact V).
  apply rabs_le in N. apply le_rabs. lra.
Qed.
Lemma minus_one_eq d : finite (minus_one d) /\ real (minus_one d) = -1.
Proof.
  unfold minus_one. assert (L : finite (lit (-1) 0 : val F64) /\ real (lit (-1) 0 : val F64) = -1) by (apply lit_eq; [cbn; lra|cbn; lia..]). destruct L as (F & E). assert (R1 : rep d (-1)) by (replace (-1) with (- (1)) by ring; apply rep_opp, rep_1).
  destruct (conv_in F64 d _ (-1) (-1) F R1 R1 ltac:(rewrite E; lra)) as (F1 & B & _). split; [exact F1|lra].
Qed.
Lemma one_as_eq d : finite (one_as d) /\ real (one_as d) = 1.
Proof.
  unfold one_as. rewrite FloatProofs.conv_back by (destruct d; exact I). destruct (one_eq F64) as (F & E). destruct (conv_in F64 d _ 1 1 F (rep_1 d) (rep_1 d) ltac:(rewrite E; lra)) as (F1 & B & _). split; [exact F1|lra].
Qed.
Lemma ada_rep d : rep d (2 ^ 30) /\ rep d (back_max d * 2 ^ 30) /\ rep d (back_max d * 2 ^ 60) /\ 1 <= back_max d.
Proof. destruct (scale_max d) as (_ & _ & S3). unfold back_max in *. destruct d; rewrite <- !pow_add; repeat split; try (apply rep_big; cbn; lia); exact S3. Qed.
(** the factor and the result, for one element y of LayerNormSimple *)
Lemma ada_step d (y s : val d) m : finite y -> finite s -> Rabs (real s) <= back_max d -> 1 <= m <= 2 ^ 24 -> Rabs (real y) <= 1.02 * m ->
  let f := fmul (fadd (fmul (fmul y (tenth d)) (minus_one d)) (one_as d)) s in
  finite (fmul y f) /\ Rabs (real (fmul y f) - ada_of (real s) (real y)) <= 5 * u d * (Rabs (real s) * (m * m)) + 1.9 * (1 + m) * half_tiny d.
Proof.
  intros Fy Fs Bs Hm By. cbv zeta. destruct (tenth_eq d) as (Fk & Ek). destruct (minus_one_eq d) as (F1 & E1). destruct (one_as_eq d) as (F2 & E2). destruct (ada_rep d) as (P1 & P2 & P3 & P4). pose proof (u_small d) as (U0 & U1). pose proof (half_tiny_pos d) as T0. pose proof (tiny_u d) as TU. apply rabs_le in Ek.
  set (Y := real y) in *. assert (UM : 0 <= u d * m <= / 2 ^ 24 * m) by (split; [apply Rmult_le_pos; lra|apply Rmult_le_compat_r; lra]). assert (UM1 : u d <= u d * m) by (rewrite <- (Rmult_1_r (u d)) at 1; apply Rmult_le_compat_l; lra).
  assert (K0 : Rabs (real (tenth d)) <= 0.11) by (apply le_rabs; lra). assert (YK : Rabs (Y * real (tenth d)) <= 0.12 * m). { rewrite Rabs_mult. assert (Rabs Y * Rabs (real (tenth d)) <= 1.02 * m * 0.11) by (apply Rmult_le_compat; try apply Rabs_pos; assumption). lra. }
  destruct (mul_op y (tenth d) (2 ^ 30) Fy Fk P1 ltac:(fold Y; lra)) as (Fa & Ba & Na). unfold near_to in Na. fold Y in Na. set (a := fmul y (tenth d)) in *.
  assert (X1 : u d * Rabs (Y * real (tenth d)) <= u d * (0.12 * m)) by (apply Rmult_le_compat_l; lra). assert (X2 : Rabs (Y * real (tenth d) - Y / 10) <= 0.31 * (u d * m)). { replace (Y * real (tenth d) - Y / 10) with (Y * (real (tenth d) - / 10)) by lra. rewrite Rabs_mult. assert (Rabs Y * Rabs (real (tenth d) - / 10) <= 1.02 * m * (0.3 * u d)) by (apply Rmult_le_compat; try apply Rabs_pos; [assumption|apply le_rabs; lra]). lra. }
  assert (Ea : Rabs (real a - Y / 10) <= 0.45 * (u d * m)). { pose proof (Rabs_triang (real a - Y * real (tenth d)) (Y * real (tenth d) - Y / 10)) as T. replace (real a - Y * real (tenth d) + (Y * real (tenth d) - Y / 10)) with (real a - Y / 10) in T by ring. lra. }
  assert (Y10 : Rabs (Y / 10) <= 0.102 * m) by (unfold Rdiv; rewrite Rabs_mult, (Rabs_right (/ 10)) by lra; lra).
  assert (Aa : Rabs (real a) <= 0.11 * m). { pose proof (Rabs_triang (real a - Y / 10) (Y / 10)) as T. replace (real a - Y / 10 + Y / 10) with (real a) in T by ring. lra. }
  destruct (mul_op a (minus_one d) (2 ^ 30) Fa F1 P1 ltac:(rewrite E1, Rabs_mult, (Rabs_left (-1)) by lra; lra)) as (Fb & Bb & Nb). unfold near_to in Nb. rewrite E1 in Nb. set (b := fmul a (minus_one d)) in *. rewrite Rabs_mult, (Rabs_left (-1)) in Nb by lra.
  assert (X3 : u d * (Rabs (real a) * - -1) <= u d * (0.11 * m)) by (apply Rmult_le_compat_l; lra).
  assert (Eb : Rabs (real b + Y / 10) <= 0.6 * (u d * m)). { pose proof (Rabs_triang (real b - real a * -1) (- (real a - Y / 10))) as T. rewrite Rabs_Ropp in T. replace (real b - real a * -1 + - (real a - Y / 10)) with (real b + Y / 10) in T by ring. lra. }
  assert (Ab : Rabs (real b) <= 0.11 * m). { pose proof (Rabs_triang (real b + Y / 10) (- (Y / 10))) as T. rewrite Rabs_Ropp in T. replace (real b + Y / 10 + - (Y / 10)) with (real b) in T by ring. lra. }
  assert (Ab1 : Rabs (real b + real (one_as d)) <= 1.11 * m). { rewrite E2. eapply Rle_trans; [apply Rabs_triang|]. rewrite Rabs_R1. lra. }
  destruct (add_op b (one_as d) (2 ^ 30) Fb F2 P1 ltac:(lra)) as (Fc & Bc & Nc). set (c := fadd b (one_as d)) in *. assert (X4 : u d * Rabs (real b + real (one_as d)) <= u d * (1.11 * m)) by (apply Rmult_le_compat_l; lra). rewrite E2 in *.
  assert (Ec : Rabs (real c - (1 - Y / 10)) <= 1.75 * (u d * m)). { pose proof (Rabs_triang (real c - (real b + 1)) (real b + Y / 10)) as T. replace (real c - (real b + 1) + (real b + Y / 10)) with (real c - (1 - Y / 10)) in T by ring. lra. }
  assert (Ac : Rabs (real c) <= 1.12 * m). { pose proof (Rabs_triang (real c - (real b + 1)) (real b + 1)) as T. replace (real c - (real b + 1) + (real b + 1)) with (real c) in T by ring. lra. }
  set (s' := real s) in *. set (S := Rabs s') in *. assert (S0 : 0 <= S) by apply Rabs_pos. assert (CS : Rabs (real c * s') <= 1.12 * (m * S)). { rewrite Rabs_mult. fold S. assert (Rabs (real c) * S <= 1.12 * m * S) by (apply Rmult_le_compat_r; lra). lra. } assert (MS0 : 0 <= m * S) by (apply Rmult_le_pos; lra). assert (MSB : m * S <= 2 ^ 24 * back_max d) by (apply Rmult_le_compat; lra).
  destruct (mul_op c s (back_max d * 2 ^ 30) Fc Fs P2 ltac:(fold s'; lra)) as (Ff & Bf & Nf). unfold near_to in Nf. fold s' in Nf. set (f := fmul c s) in *. assert (X5 : u d * Rabs (real c * s') <= u d * (1.12 * (m * S))) by (apply Rmult_le_compat_l; lra).
  set (g := s' * (1 - Y / 10)). set (k := u d * (m * S)) in *. assert (K1 : 0 <= k) by (apply Rmult_le_pos; lra). assert (K2 : k <= / 2 ^ 24 * (m * S)) by (apply Rmult_le_compat_r; lra).
  replace (u d * (1.12 * (m * S))) with (1.12 * k) in X5 by (unfold k; ring). 
  assert (Ef : Rabs (real f - g) <= 2.9 * k + half_tiny d). { pose proof (Rabs_triang (real f - real c * s') (s' * (real c - (1 - Y / 10)))) as T. rewrite (Rabs_mult s') in T. fold S in T. replace (real f - real c * s' + s' * (real c - (1 - Y / 10))) with (real f - g) in T by (unfold g; ring). assert (S * Rabs (real c - (1 - Y / 10)) <= S * (1.75 * (u d * m))) by (apply Rmult_le_compat_l; lra). replace (S * (1.75 * (u d * m))) with (1.75 * k) in H by (unfold k; ring). lra. }
  assert (Af : Rabs (real f) <= 1.13 * (m * S) + half_tiny d). { pose proof (Rabs_triang (real f - real c * s') (real c * s')) as T. replace (real f - real c * s' + real c * s') with (real f) in T by ring. lra. }
  assert (YF : Rabs (Y * real f) <= 1.02 * m * (1.13 * (m * S) + half_tiny d)) by (rewrite Rabs_mult; apply Rmult_le_compat; try apply Rabs_pos; assumption).
  assert (BB : 1.02 * m * (1.13 * (m * S) + half_tiny d) <= back_max d * 2 ^ 60). { assert (m * (1.13 * (m * S) + half_tiny d) <= 2 ^ 24 * (1.13 * (2 ^ 24 * back_max d) + 1)) by (apply Rmult_le_compat; lra). lra. }
  destruct (mul_op y f (back_max d * 2 ^ 60) Fy Ff P3 ltac:(fold Y; lra)) as (Fo & _ & No). unfold near_to in No. fold Y in No. split; [exact Fo|]. set (o := real (fmul y f)) in *.
  assert (X6 : u d * Rabs (Y * real f) <= u d * (1.02 * m * (1.13 * (m * S) + half_tiny d))) by (apply Rmult_le_compat_l; lra). pose proof (Rabs_triang (o - Y * real f) (Y * (real f - g))) as T. replace (o - Y * real f + Y * (real f - g)) with (o - ada_of s' Y) in T by (unfold ada_of, g; ring). rewrite (Rabs_mult Y) in T.
  assert (X7 : Rabs Y * Rabs (real f - g) <= 1.02 * m * (2.9 * k + half_tiny d)) by (apply Rmult_le_compat; try apply Rabs_pos; assumption).
  assert (MT : 0 <= m * half_tiny d) by (apply Rmult_le_pos; lra). assert (UMT : u d * (m * half_tiny d) <= / 2 ^ 24 * (m * half_tiny d)) by (apply Rmult_le_compat_r; lra). assert (MK : 0 <= m * k) by (apply Rmult_le_pos; lra).
  replace (u d * (1.02 * m * (1.13 * (m * S) + half_tiny d))) with (1.1526 * (m * k) + 1.02 * (u d * (m * half_tiny d))) in X6 by (unfold k; lra). replace (5 * u d * (S * (m * m))) with (5 * (m * k)) by (unfold k; ring). lra.
Qed.
Section Ada.
Variables (d : dtype) (sum : nat -> list (val d) -> val d) (x : list (val d)) (B : R) (scale : val d).
Hypothesis A : adds_all sum.
Hypothesis Hx : sized B x.
Hypothesis HB : 0 <= B <= in_max d / 4.
Hypothesis Hn : few d (length x).
Hypothesis Fs : finite scale.
Hypothesis Bs : Rabs (real scale) <= back_max d.
Notation n := (length x).
Notation z := (centered (reals x)).
Notation D := (rms_of z + guard10).
Lemma root_n : (0 < n)%nat -> 1 <= sqrt (INR n) <= 2 ^ 24.
Proof using Hn.
  intros Hp. assert (N1 : 1 <= INR n) by (change 1 with (INR 1); apply le_INR; lia). split; [rewrite <- sqrt_1; apply sqrt_le_1_alt; exact N1|]. replace (2 ^ 24) with (sqrt (2 ^ 24 * 2 ^ 24)) by (apply sqrt_square; lra). apply sqrt_le_1_alt.
  pose proof (few_int d _ Hn) as K. apply IZR_lt in K. rewrite <- INR_IZR_INZ in K. change (IZR (2 ^ 46)) with 70368744177664 in K. lra.
Qed.
Theorem ada_ok i : (i < n)%nat -> let q := nth i z 0 / D in finite (nth i (ada_norm d sum scale x) fzero) /\
  Rabs (elem i (ada_norm d sum scale x) - ada_of (real scale) q) <= ada_error d n B D q (real scale).
Proof using All.
  intros Hi. cbv zeta. destruct (deviations_ok d sum x B A Hx HB Hn ltac:(lia)) as (L & SZ & N). destruct (simple_ok d sum x B A Hx HB Hn i Hi) as (F & E). pose proof guard_low as GL. pose proof (few_small d _ Hn) as (R1 & _). pose proof (root_n ltac:(lia)) as M. pose proof (half_tiny_pos d) as T0. pose proof (tiny_small d) as (_ & T1).
  pose proof (rms_good d (fun k => sum (S k)) (deviations d sum x) i (shift_adds d sum A) ltac:(rewrite L; exact Hn) SZ ltac:(lia)) as G. rewrite L in G. change (rms_unit d (fun k => sum (S k)) (deviations d sum x)) with (simple_norm d sum x) in G. destruct G as (_ & _ & G).
  assert (QL : forall (v : list R), length v = n -> Rabs (nth i v 0 / (rms_of v + guard10)) <= sqrt (INR n)).
  { intros v Lv. pose proof (element_le 0 v i ltac:(lra) ltac:(lia)) as K. rewrite Lv in K. rewrite rms_spread. assert (S0 : 0 <= spread 0 v) by apply sqrt_pos. unfold Rdiv. rewrite Rabs_mult, (Rabs_right (/ _)) by (left; apply Rinv_0_lt_compat; lra). apply (Rmult_le_reg_r (spread 0 v + guard10)); [lra|]. rewrite Rmult_assoc, Rinv_l, Rmult_1_r by lra. eapply Rle_trans; [exact K|]. apply Rmult_le_compat_l; [apply sqrt_pos|lra]. }
  assert (LR : length (reals (deviations d sum x)) = n) by (unfold reals; rewrite map_length; exact L). pose proof (QL _ LR) as Qy. rewrite nth_reals in Qy. pose proof (QL z (len_z d x)) as Qz.
  set (q := nth i z 0 / D) in *. set (p := elem i (deviations d sum x) / _) in *. set (y := nth i (simple_norm d sum x) fzero) in *. set (mm := sqrt (INR n)) in *.
  assert (Py : Rabs (real y) <= 1.02 * mm). { pose proof (Rabs_triang (real y - p) p) as T. replace (real y - p + p) with (real y) in T by ring. assert (1.6 * rho d n * Rabs p <= 0.01 * Rabs p) by (apply Rmult_le_compat_r; [apply Rabs_pos|lra]). lra. }
  assert (C1 : conv F64 d (conv d F64 scale) = scale) by (apply FloatProofs.conv_back; destruct d; exact I).
  assert (EQ : nth i (ada_norm d sum scale x) fzero = fmul y (fmul (fadd (fmul (fmul y (tenth d)) (minus_one d)) (one_as d)) scale)).
  { unfold ada_norm. assert (LU : length (simple_norm d sum x) = n) by (unfold simple_norm; rewrite div_length; exact L). rewrite nth_zip by (unfold ada_factor; rewrite ?map_length; lia). fold y. f_equal. unfold ada_factor. rewrite C1.
    set (h := fun y0 : val d => _). rewrite (nth_indep _ fzero (h fzero)) by (rewrite map_length; lia). rewrite (map_nth h). reflexivity. }
  rewrite EQ. destruct (ada_step d y scale mm F Fs Bs M Py) as (Fo & Eo). cbv zeta in Fo, Eo. split; [exact Fo|]. set (o := real (fmul y _)) in *. unfold ada_error. fold mm. assert (MM : mm * mm = INR n) by (apply sqrt_sqrt, pos_INR). rewrite MM in Eo. set (s := real scale) in *. set (e := layer_error d n B D q) in *.
  assert (H : Rabs (ada_of s (real y) - ada_of s q) <= Rabs s * ((1 + mm / 4) * e)).
  { unfold ada_of. replace (s * (real y * (1 - real y / 10)) - s * (q * (1 - q / 10))) with (s * ((1 - (real y + q) / 10) * (real y - q))) by field. rewrite !Rabs_mult. apply Rmult_le_compat_l; [apply Rabs_pos|]. apply Rmult_le_compat; try apply Rabs_pos; [|exact E]. apply rabs_le in Py, Qz. apply le_rabs. lra. }
  pose proof (Rabs_triang (o - ada_of s (real y)) (ada_of s (real y) - ada_of s q)) as T. replace (o - ada_of s (real y) + (ada_of s (real y) - ada_of s q)) with (o - ada_of s q) in T by ring. assert (0 <= (1 + mm) * half_tiny d) by (apply Rmult_le_pos; lra). lra.
Qed.
End Ada.
