(** * Gradient clipping in floating point: the factor *)
From Coq Require Import ZArith Bool Lia List Arith Reals Lra Psatz.
From Flocq Require Import Core BinarySingleNaN.
From Verif Require Import FloatModel FloatSpec FloatProofs NumModel NumSpec NumLemmas AsmFloatSpec AsmFloat OptFloatNum SoftFloat LossFloatProofs9 ClipFloatModel ClipFloatSpec ClipFloatProofs.
Import ListNotations.
Local Open Scope R_scope.

(** ** Real numbers *)
Lemma ratio_near M D N E : 0 <= M -> 0 < N -> Rabs (D - N) <= E * N -> 0 <= E <= / 4 -> 0 < D /\ Rabs (M / D - M / N) <= 4 / 3 * E * (M / N).
Proof.
  intros HM HN H HE. pose proof (Rabs_le_inv _ _ H) as H'. assert (EN : E * N <= / 4 * N) by (apply Rmult_le_compat_r; lra). assert (HD : 0 < D) by lra. split; [exact HD|].
  replace (M / D - M / N) with (M / N * ((N - D) / D)) by (field; lra). assert (P : 0 <= M / N) by (apply Rmult_le_pos; [exact HM|left; apply Rinv_0_lt_compat, HN]). rewrite Rabs_mult, (Rabs_right (M / N)) by lra. rewrite (Rmult_comm _ (M / N)). apply Rmult_le_compat_l; [exact P|].
  unfold Rdiv. rewrite Rabs_mult, (Rabs_right (/ D)) by (left; apply Rinv_0_lt_compat, HD). rewrite Rabs_minus_sym. apply Rmult_le_reg_r with D; [exact HD|]. rewrite Rmult_assoc, Rinv_l, Rmult_1_r by lra. eapply Rle_trans; [exact H|].
  assert (N <= 4 / 3 * D) by lra. replace (4 * / 3 * E * D) with (E * (4 / 3 * D)) by field. apply Rmult_le_compat_l; lra.
Qed.
Lemma below_one E h q c : 0 <= q -> Rabs (c - q) <= E * q + h -> 0 <= E <= / 5 -> 0 <= h <= / 1000 -> c < 1 -> Rabs (c - Rmin 1 q) <= 1.25 * E * Rmin 1 q + 1.25 * h.
Proof.
  intros Hq H HE Hh Hc. assert (P : 0 <= E * q) by (apply Rmult_le_pos; lra). unfold Rmin. destruct (Rle_dec 1 q) as [L|L]; [|lra].
  apply Rabs_le_inv in H. rewrite Rabs_left1 by lra. assert (Q : E * q <= / 5 * q) by (apply Rmult_le_compat_r; lra). assert (q <= 1.25 + 1.25 * h) by lra. assert (E * q <= E * (1.25 + 1.25 * h)) by (apply Rmult_le_compat_l; lra). assert (E * h <= / 5 * h) by (apply Rmult_le_compat_r; lra). lra.
Qed.
Lemma above_one E h q c : 0 <= q -> Rabs (c - q) <= E * q + h -> 0 <= E -> 0 <= h -> 1 <= c -> 0 <= 1 - Rmin 1 q <= E * Rmin 1 q + h.
Proof. intros Hq H HE Hh Hc. unfold Rmin. apply Rabs_le_inv in H. destruct (Rle_dec 1 q) as [L|L]; lra. Qed.
Lemma product_near U E h k t c v : 0 <= U <= / 1000 -> 0 <= E <= / 5 -> 0 <= h -> 0 <= k -> 0 <= c -> Rabs (c - k) <= (1.25 * E + 1.25 * U) * k + 2.51 * h -> Rabs (v - t * c) <= U * Rabs (t * c) + h ->
  Rabs (v - k * t) <= (1.25 * E + 3 * U) * (k * Rabs t) + 5 * h * (Rabs t + 1).
Proof.
  intros HU HE Hh Hk Hc H1 H2. pose proof (Rabs_pos t) as Pt. rewrite Rabs_mult, (Rabs_right c) in H2 by lra. assert (C : c <= 1.26 * k + 2.51 * h). { apply Rabs_le_inv in H1. assert ((1.25 * E + 1.25 * U) * k <= 0.26 * k) by (apply Rmult_le_compat_r; lra). lra. }
  pose proof (Rabs_triang (v - t * c) (t * (c - k))) as T. replace (v - t * c + t * (c - k)) with (v - k * t) in T by ring. rewrite (Rabs_mult t (c - k)) in T.
  assert (A1 : Rabs t * Rabs (c - k) <= Rabs t * ((1.25 * E + 1.25 * U) * k + 2.51 * h)) by (apply Rmult_le_compat_l; assumption).
  assert (A2 : U * (Rabs t * c) <= U * (Rabs t * (1.26 * k + 2.51 * h))) by (apply Rmult_le_compat_l; [lra|]; apply Rmult_le_compat_l; assumption).
  assert (A3 : U * (Rabs t * h) <= / 1000 * (Rabs t * h)) by (apply Rmult_le_compat_r; [apply Rmult_le_pos|]; lra). assert (A4 : 0 <= Rabs t * h) by (apply Rmult_le_pos; lra). assert (A5 : 0 <= U * (k * Rabs t)) by (apply Rmult_le_pos; [lra|apply Rmult_le_pos; lra]).
  replace (U * (Rabs t * (1.26 * k + 2.51 * h))) with (1.26 * (U * (k * Rabs t)) + 2.51 * (U * (Rabs t * h))) in A2 by lra. replace (Rabs t * ((1.25 * E + 1.25 * U) * k + 2.51 * h)) with ((1.25 * E + 1.25 * U) * (k * Rabs t) + 2.51 * (Rabs t * h)) in A1 by lra.
  replace ((1.25 * E + 3 * U) * (k * Rabs t)) with ((1.25 * E + 1.25 * U) * (k * Rabs t) + 1.75 * (U * (k * Rabs t))) by lra. set (Q1 := (1.25 * E + 1.25 * U) * (k * Rabs t)) in *. set (Q2 := U * (k * Rabs t)) in *. lra.
Qed.

(** ** The coefficient *)
Lemma u_wide d : u F64 <= u d /\ half_tiny F64 <= half_tiny d.
Proof. unfold u, half_tiny. destruct d; split; try lra; apply inv_le; lia. Qed.
(** a quotient that may overflow, of numbers that are not negative *)
Lemma div_over (x y : val F64) : finite x -> finite y -> 0 < real y -> 2 < real x / real y -> flt (fdiv x y) fone = false.
Proof.
  intros Fx Fy Py B. assert (Ny : B2R y <> 0) by (unfold real in Py; lra). pose proof (@Bdiv_correct (prec F64) (emax F64) (prec_pos F64) (prec_emax F64) mode_NE x y Ny) as C. fold (fdiv x y) in C.
  destruct (one_eq F64) as (F1 & V1). rewrite <- nearest_eq in C. assert (O : 1 <= nearest F64 (B2R x / B2R y)) by (rewrite <- (proj1 (rep_1 F64)); apply nearest_le; unfold real in B; lra).
  assert (Sg : forall z : val F64, finite z -> 0 < real z -> Bsign z = false).
  { intros z Fz Pz. destruct z as [s| | |s mz ez Hz]; try discriminate; [cbn in Pz; lra|]. destruct s; [|reflexivity]. exfalso. unfold real, B2R in Pz. assert (F2R (beta := radix2) {| Fnum := SpecFloat.cond_Zopp true (Zpos mz); Fexp := ez |} < 0) by (apply F2R_lt_0; cbn; lia). lra. }
  destruct (Rlt_bool _ _).
  - destruct C as (V & F & _). assert (Fd : finite (fdiv x y)) by (unfold finite in *; now rewrite F, Fx). destruct (flt (fdiv x y) fone) eqn:E; [|reflexivity]. exfalso. apply lt_eq in E; auto. unfold real in *. lra.
  - assert (Px : 0 < real x). { assert (real x = real x / real y * real y) by (field; lra). rewrite H. apply Rmult_lt_0_compat; lra. } rewrite (Sg x), (Sg y) in C by assumption. apply over_nan in C. rewrite C. vm_compute. reflexivity.
Qed.
Section Factor.
Variable d : dtype.
Variables (M t : val F64) (n E : R).
Hypotheses (FM : finite M) (PM : 0 <= real M) (Ft : finite t) (Bt : 0 <= real t <= 2 ^ 900) (Hn : 0 <= n) (HE : 0 <= E <= / 8).
Hypothesis Near : Rabs (real t - n) <= E * (n + real small).
Notation e := (real small).
Lemma divisor_near : let D := fadd t small in finite D /\ Rabs (real D - (n + e)) <= (E + 2 * u d) * (n + e).
Proof.
  intros D. destruct small_finite as (Fs & Bs). assert (S1 : 0 < e) by (pose proof (inv_pos 24); lra). pose proof (inv_small 23 ltac:(lia)) as S2. assert (R1 : rep F64 (2 ^ 901)) by (apply rep_pow2; cbn; lia).
  assert (P1 : 2 ^ 901 = 2 * 2 ^ 900) by (change 901%nat with (S 900); reflexivity). assert (P2 : 1 <= 2 ^ 900) by (apply pow_R1_Rle; lra).
  destruct (add_op t small (2 ^ 901) Ft Fs R1) as (FD & _ & ED); [rewrite Rabs_right; lra|]. split; [exact FD|]. fold D in ED. rewrite (Rabs_right (real t + e)) in ED by lra. destruct (u_wide d) as (Uw & _). pose proof (u_small d) as (U1 & U2). pose proof (u_pos F64) as U3.
  assert (Q : u F64 * (real t + e) <= u d * (real t + e)) by (apply Rmult_le_compat_r; lra). apply Rabs_le_inv in Near. assert (EN : E * (n + e) <= / 8 * (n + e)) by (apply Rmult_le_compat_r; lra).
  assert (Q2 : u d * (real t + e) <= u d * (2 * (n + e))) by (apply Rmult_le_compat_l; lra). apply Rabs_le_inv in ED. apply Rabs_le. lra.
Qed.
Definition clipped (x : val d) : val d := if flt (coefficient M t) fone then scale_elem d (coefficient M t) x else x.
Lemma clipped_near (x : val d) : finite x -> scaled_by (2 * E + 9 * u d) (factor (real M) n) x (clipped x).
Proof.
  intros Fx. destruct divisor_near as (FD & ED). unfold clipped, coefficient, factor. change (real (lit 7555786372591432 (-76) : val F64)) with e. set (D := fadd t small) in *. destruct small_finite as (Fs & Bs). assert (S1 : 0 < e) by (pose proof (inv_pos 24); lra).
  pose proof (u_small d) as (U1 & U2). pose proof (inv_small 24 ltac:(lia)) as U3. pose proof (tiny_small d) as (T1 & T2). pose proof (inv_small 150 ltac:(lia)) as T3. destruct (u_wide d) as (Uw & Tw). pose proof (u_pos F64) as U4. pose proof (half_tiny_pos F64) as T4.
  destruct (ratio_near (real M) (real D) (n + e) (E + 2 * u d) PM ltac:(lra) ED ltac:(lra)) as (PD & ER). set (q := real M / (n + e)) in *. set (r := real M / real D) in *.
  assert (Pq : 0 <= q) by (apply Rmult_le_pos; [exact PM|left; apply Rinv_0_lt_compat; lra]). assert (Pr : 0 <= r) by (apply Rmult_le_pos; [exact PM|left; apply Rinv_0_lt_compat; lra]).
  assert (Eq : 4 / 3 * (E + 2 * u d) * q <= 4 / 3 * (/ 8 + / 500) * q) by (apply Rmult_le_compat_r; lra).
  assert (Z0 : 0 <= Rmin 1 q) by (unfold Rmin; destruct (Rle_dec 1 q); lra). pose proof (Rabs_pos (real x)) as Px. set (k := Rmin 1 q) in *.
  assert (Kx : 0 <= k * Rabs (real x)) by (apply Rmult_le_pos; assumption).
  destruct (Rle_or_lt r 2) as [Lr|Lr].
  2: { rewrite (div_over M D FM FD PD Lr). split; [exact Fx|]. assert (K1 : k = 1). { unfold k, Rmin. destruct (Rle_dec 1 q) as [_|L]; [reflexivity|]. exfalso. apply Rabs_le_inv in ER. lra. } rewrite K1, !Rmult_1_l, Rminus_eq_0, Rabs_R0.
    apply Rplus_le_le_0_compat; [apply Rmult_le_pos|apply Rmult_le_pos]; lra. }
  assert (R2 : rep F64 2) by (replace 2 with (2 ^ 1) by (cbn; lra); apply rep_pow2; cbn; lia).
  destruct (div_op M D 2 FM ltac:(lra) R2) as (Fc & Bc & Ec); [fold r; rewrite Rabs_right; lra|]. fold r in Ec. unfold near_to in Ec. rewrite (Rabs_right r) in Ec by lra. set (c := fdiv M D) in *.
  destruct (one_eq F64) as (F1 & V1). set (E2 := 4 / 3 * (E + 2 * u d) + 1.4 * u d). assert (BE2 : 0 <= E2 <= / 5) by (unfold E2; lra).
  assert (Pc : 0 <= real c). { destruct (div_in F64 M D 0 2 FM ltac:(lra) (rep_0 F64) R2) as (_ & B & _); [fold r; lra|]. fold c in B. lra. }
  assert (EC : Rabs (real c - q) <= E2 * q + half_tiny d).
  { pose proof (Rabs_triang (real c - r) (r - q)) as T. replace (real c - r + (r - q)) with (real c - q) in T by ring. assert (r <= 1.4 * q) by (apply Rabs_le_inv in ER; lra). assert (u F64 * r <= u d * r) by (apply Rmult_le_compat_r; lra). assert (u d * r <= u d * (1.4 * q)) by (apply Rmult_le_compat_l; lra).
    unfold E2. replace ((4 / 3 * (E + 2 * u d) + 1.4 * u d) * q) with (4 / 3 * (E + 2 * u d) * q + u d * (1.4 * q)) by ring. lra. }
  assert (LE2 : E2 <= 4 / 3 * E + 4.1 * u d) by (unfold E2; lra).
  destruct (flt c fone) eqn:Lc.
  - apply lt_eq in Lc; auto. rewrite V1 in Lc. destruct (conv_in F64 d c 0 1 Fc (rep_0 d) (rep_1 d) ltac:(lra)) as (FT & BT & VT). unfold scale_elem. set (cT := conv F64 d c) in *. pose proof (round_error d (real c)) as RE. rewrite <- VT, (Rabs_right (real c)) in RE by lra.
    pose proof (below_one E2 (half_tiny d) q (real c) Pq EC BE2 ltac:(lra) Lc) as H1. fold k in H1.
    assert (Lx : Rabs (real x * real cT) <= Rabs (real x)). { rewrite Rabs_mult, (Rabs_right (real cT)) by lra. rewrite <- (Rmult_1_r (Rabs (real x))) at 2. apply Rmult_le_compat_l; lra. }
    assert (Rx : rep d (Rabs (real x))) by (rewrite <- abs_eq; apply rep_real; now apply abs_finite).
    destruct (mul_op x cT (Rabs (real x)) Fx FT Rx Lx) as (Fm & _ & Em). unfold near_to in Em. split; [exact Fm|].
    assert (HcT : Rabs (real cT - k) <= (1.25 * E2 + 1.25 * u d) * k + 2.51 * half_tiny d).
    { pose proof (Rabs_triang (real cT - real c) (real c - k)) as T. replace (real cT - real c + (real c - k)) with (real cT - k) in T by ring. assert (1.25 * E2 * k <= 0.25 * k) by (apply Rmult_le_compat_r; lra). assert (Ck : real c <= 1.25 * k + 1.25 * half_tiny d) by (apply Rabs_le_inv in H1; lra).
      assert (u d * real c <= u d * (1.25 * k + 1.25 * half_tiny d)) by (apply Rmult_le_compat_l; lra). assert (u d * half_tiny d <= / 1000 * half_tiny d) by (apply Rmult_le_compat_r; lra). lra. }
    pose proof (product_near (u d) E2 (half_tiny d) k (real x) (real cT) _ ltac:(lra) BE2 ltac:(lra) Z0 ltac:(lra) HcT Em) as F. eapply Rle_trans; [exact F|]. apply Rplus_le_compat_r, Rmult_le_compat_r; lra.
  - apply lt_false in Lc; auto. rewrite V1 in Lc. split; [exact Fx|]. pose proof (above_one E2 (half_tiny d) q (real c) Pq EC ltac:(lra) ltac:(lra) Lc) as H1. fold k in H1. replace (real x - k * real x) with ((1 - k) * real x) by ring. rewrite Rabs_mult, (Rabs_right (1 - k)) by lra.
    assert ((1 - k) * Rabs (real x) <= (E2 * k + half_tiny d) * Rabs (real x)) by (apply Rmult_le_compat_r; lra). assert (E2 * (k * Rabs (real x)) <= (2 * E + 9 * u d) * (k * Rabs (real x))) by (apply Rmult_le_compat_r; lra). assert (0 <= half_tiny d * Rabs (real x)) by (apply Rmult_le_pos; lra). lra.
Qed.
Lemma clipped_all (gs : list (list (val d))) : Forall (Forall finite) gs -> exists gs', (if flt (coefficient M t) fone then Some (map (map (scale_elem d (coefficient M t))) gs) else Some gs) = Some gs' /\ Forall2 (Forall2 (scaled_by (2 * E + 9 * u d) (factor (real M) n))) gs gs'.
Proof.
  intros F. exists (map (map clipped) gs). split.
  - unfold clipped. destruct (flt (coefficient M t) fone); [reflexivity|]. f_equal. induction gs as [|g l IH]; cbn [map]; f_equal; [rewrite map_id; reflexivity|]. apply IH. now inversion F.
  - induction F as [|g l Fg _ IH]; cbn [map]; constructor; [|exact IH]. clear IH. induction Fg as [|x g Fx _ IH]; cbn [map]; constructor; [now apply clipped_near|exact IH].
Qed.
End Factor.
