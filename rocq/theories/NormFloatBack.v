(** * The gradients of FixNorm and RMSNorm *)
From Coq Require Import ZArith Bool Lia List Arith Reals Lra Psatz.
From Flocq Require Import Core BinarySingleNaN.
From Verif Require Import FloatModel FloatSpec NumModel NumSpec NumLemmas AsmFloatSpec AsmFloat AsmFloat2 AsmModel AsmCalls AsmSpec OptFloatModel OptFloatNum NormFloatModel NormFloatSpec NormFloatNum NormFloatProofs NormFloatProofs2.
Import ListNotations.
Local Open Scope R_scope.

Lemma rep_big d n : (Z.of_nat n < emax d)%Z -> rep d (2 ^ n).
Proof.
  intros H. apply (rep_dyadic d (2 ^ (prec d - 1)) (Z.of_nat n - (prec d - 1))).
  - rewrite pow2. replace (IZR (2 ^ (prec d - 1))) with (bpow radix2 (prec d - 1)) by (destruct d; reflexivity). rewrite <- bpow_plus. f_equal. lia.
  - destruct d; reflexivity.
  - destruct d; cbn in *; lia.
  - destruct d; cbn in *; lia.
Qed.

(** ** The error of one gradient, in real numbers *)
Lemma gradient_error U h r c N E s xi P D1 Y1 n gyi gn p gs0 gs gq g1 z1 z2 :
  0 < U <= / 2 ^ 24 -> 0 < h -> 16 * U <= r <= / 200 -> 0 < c <= 1 -> 0 < N -> 0 < E -> 0 < s -> 0 <= n -> Rabs gyi <= Y1 ->
  let M := N + E in let C := - / (M * M) in let e1 := 1.1 * ((Y1 + n) * h) in
  Rabs P <= D1 -> c * Rabs xi * D1 <= Y1 * (N * N) -> c * Rabs xi * D1 <= 3 * (Y1 * s) -> c * (xi * xi) <= 3 * s ->
  Rabs (sqrt s - N) <= 0.76 * r * N + U * E / 64 ->
  Rabs (gn - C * P) <= 4.25 * r * (/ (M * M) * D1) + e1 ->
  rel (0.85 * r) p (/ (2 * sqrt s)) -> Rabs (gs0 - p * gn) <= U * Rabs (p * gn) + h -> Rabs (gs - c * gs0) <= 2.1 * U * Rabs (c * gs0) + 2.1 * h ->
  Rabs (gq - xi * gs) <= U * Rabs (xi * gs) + h -> Rabs (g1 - gyi / M) <= 1.6 * r * Rabs (gyi / M) + h ->
  Rabs (z1 - (g1 + gq)) <= U * Rabs (g1 + gq) -> Rabs (z2 - (z1 + gq)) <= U * Rabs (z1 + gq) ->
  Rabs (z2 - (gyi / M + c * xi * C * P / N)) <= 14 * r * (Y1 / M) + (3 * (Y1 + n) + 12 * (Rabs xi + 1)) * h.
Proof.
  intros HU Hh Hr Hc HN HE Hs Hn Hg M C e1 HP B1 B2 B3 HS Hgn Hp H0 Hgs Hq H1 Hz1 Hz2.
  assert (HM : 0 < M) by (unfold M; lra). assert (NM : N <= M /\ E <= M) by (unfold M; lra). set (q := sqrt s) in *. assert (Pq : 0 < q) by (apply sqrt_lt_R0; lra). assert (Qq : q * q = s) by (apply sqrt_sqrt; lra).
  assert (PY : 0 <= Y1) by (pose proof (Rabs_pos gyi); lra). pose proof (Rabs_pos P) as PP. assert (PD : 0 <= D1) by lra. set (x := Rabs xi) in *. assert (Px : 0 <= x) by apply Rabs_pos.
  assert (XX : x * x = xi * xi) by (unfold x; rewrite <- Rabs_mult; apply Rabs_right; nra). assert (Pe : 0 <= e1) by (unfold e1; assert (0 <= (Y1 + n) * h) by (apply Rmult_le_pos; lra); lra).
  set (im := / M) in *. assert (Pim : 0 < im) by now apply Rinv_0_lt_compat. assert (IMM : / (M * M) = im * im) by (unfold im; apply Rinv_mult). assert (Mim : M * im = 1) by (unfold im; field; lra).
  rewrite IMM in *. set (iq := / q) in *. assert (Piq : 0 < iq) by now apply Rinv_0_lt_compat. assert (Qiq : q * iq = 1) by (unfold iq; field; lra).
  (* c |xi| D1 / sqrt s <= 1.74 Y1 N *)
  set (a := c * x * D1) in *. assert (Pa : 0 <= a) by (unfold a; repeat apply Rmult_le_pos; lra).
  assert (A1 : a * iq <= 1.74 * (Y1 * N)).
  { assert (AA : a * a <= (1.74 * (Y1 * N) * q) * (1.74 * (Y1 * N) * q)). { assert (a * a <= Y1 * (N * N) * (3 * (Y1 * s))) by (apply Rmult_le_compat; lra). rewrite <- Qq in H. assert (0 <= Y1 * Y1 * (N * N) * (q * q)) by (repeat apply Rmult_le_pos; lra). lra. }
    assert (a <= 1.74 * (Y1 * N) * q). { apply Rsqr_incr_0_var; [exact AA|]. assert (0 <= Y1 * N * q) by (repeat apply Rmult_le_pos; lra). lra. }
    apply (Rmult_le_compat_r iq) in H; [|lra]. rewrite Rmult_assoc, Qiq in H. lra. }
  assert (A2 : c * x * iq <= 1.74). { assert (CX : c * x <= 1.74 * q). { apply Rsqr_incr_0_var; [unfold Rsqr|lra]. assert (c * x * (c * x) <= 1 * (c * (x * x))) by (replace (c * x * (c * x)) with (c * (c * (x * x))) by ring; apply Rmult_le_compat_r; [apply Rmult_le_pos; nra|lra]). rewrite XX in H. nra. }
    apply (Rmult_le_compat_r iq) in CX; [|lra]. replace (1.74 * q * iq) with (1.74 * (q * iq)) in CX by ring. rewrite Qiq in CX. lra. }
  set (y := Y1 * im). assert (Py : 0 <= y) by (unfold y; apply Rmult_le_pos; lra). assert (YN : Y1 * N * (im * im) <= y). { unfold y. replace (Y1 * N * (im * im)) with (Y1 * im * (N * im)) by ring. assert (N * im <= M * im) by (apply Rmult_le_compat_r; lra). assert (Y1 * im * (N * im) <= Y1 * im * 1) by (apply Rmult_le_compat_l; [exact Py|lra]). lra. }
  assert (YNp : 0 <= Y1 * N * (im * im)) by (repeat apply Rmult_le_pos; lra).
  set (T := c * xi * iq * gn). set (G := c * xi * C * P / N).
  assert (T1 : Rabs (T - c * xi * iq * (C * P)) <= 7.4 * r * y + 1.74 * e1).
  { unfold T. rewrite <- Rmult_minus_distr_l, Rabs_mult. replace (Rabs (c * xi * iq)) with (c * x * iq) by (unfold x; rewrite !Rabs_mult, (Rabs_right c), (Rabs_right iq) by lra; ring).
    assert (c * x * iq * Rabs (gn - C * P) <= c * x * iq * (4.25 * r * (im * im * D1) + e1)) by (apply Rmult_le_compat_l; [repeat apply Rmult_le_pos; lra|exact Hgn]).
    assert (c * x * iq * e1 <= 1.74 * e1) by (apply Rmult_le_compat_r; lra). assert (K : c * x * iq * (im * im * D1) <= 1.74 * y). { replace (c * x * iq * (im * im * D1)) with (a * iq * (im * im)) by (unfold a; ring). assert (a * iq * (im * im) <= 1.74 * (Y1 * N) * (im * im)) by (apply Rmult_le_compat_r; [apply Rmult_le_pos; lra|exact A1]). lra. }
    assert (r * (c * x * iq * (im * im * D1)) <= r * (1.74 * y)) by (apply Rmult_le_compat_l; lra). assert (0 <= r * y) by (apply Rmult_le_pos; lra). lra. }
  assert (T2 : Rabs (c * xi * iq * (C * P) - G) <= 1.35 * r * y).
  { replace (c * xi * iq * (C * P) - G) with (c * xi * (C * P) * ((N - q) * (iq * / N))) by (unfold G, iq; field; lra). rewrite !Rabs_mult, (Rabs_right c), (Rabs_right iq), (Rabs_right (/ N)), Rabs_minus_sym by (try lra; left; apply Rinv_0_lt_compat; lra). fold x.
    replace (Rabs C) with (im * im) by (unfold C; rewrite IMM, Rabs_Ropp, Rabs_right; [reflexivity|]; apply Rle_ge, Rmult_le_pos; lra).
    assert (S1 : c * x * (im * im * Rabs P) * (Rabs (q - N) * (iq * / N)) <= a * iq * / N * (im * im) * Rabs (q - N)).
    { replace (c * x * (im * im * Rabs P) * (Rabs (q - N) * (iq * / N))) with (c * x * Rabs P * (iq * / N * (im * im) * Rabs (q - N))) by ring. replace (a * iq * / N * (im * im) * Rabs (q - N)) with (a * (iq * / N * (im * im) * Rabs (q - N))) by ring.
      apply Rmult_le_compat_r; [repeat apply Rmult_le_pos; try lra; try (left; apply Rinv_0_lt_compat; lra); apply Rabs_pos|]. unfold a. apply Rmult_le_compat_l; [apply Rmult_le_pos; lra|lra]. }
    assert (S2 : a * iq * / N <= 1.74 * Y1). { apply (Rmult_le_reg_r N); [lra|]. rewrite Rmult_assoc, Rinv_l, Rmult_1_r by lra. lra. }
    assert (S3 : Rabs (q - N) <= 0.7605 * r * M + 0.0155 * r * 0). { assert (U * E / 64 <= 0.0001 * r * M * 0 + U * E / 64) by lra. assert (U * E <= r / 16 * E) by (apply Rmult_le_compat_r; lra). unfold M. assert (0 <= r * N) by (apply Rmult_le_pos; lra). assert (0 <= r * E) by (apply Rmult_le_pos; lra). lra. }
    assert (S4 : a * iq * / N * (im * im) * Rabs (q - N) <= 1.74 * Y1 * (im * im) * (0.7605 * r * M)).
    { apply Rmult_le_compat; [repeat apply Rmult_le_pos; try lra; left; apply Rinv_0_lt_compat; lra|apply Rabs_pos| |lra]. apply Rmult_le_compat_r; [apply Rmult_le_pos; lra|exact S2]. }
    replace (1.74 * Y1 * (im * im) * (0.7605 * r * M)) with (1.74 * 0.7605 * r * (Y1 * im) * (M * im)) in S4 by ring. rewrite Mim in S4. fold y in S4. assert (0 <= r * y) by (apply Rmult_le_pos; lra). lra. }
  assert (TG : Rabs (T - G) <= 8.75 * r * y + 1.74 * e1). { replace (T - G) with ((T - c * xi * iq * (C * P)) + (c * xi * iq * (C * P) - G)) by ring. eapply Rle_trans; [apply Rabs_triang|]. lra. }
  assert (GB : Rabs G <= 1 * y).
  { unfold G, Rdiv. rewrite !Rabs_mult, (Rabs_right c), (Rabs_right (/ N)) by (try lra; left; apply Rinv_0_lt_compat; lra). fold x. replace (Rabs C) with (im * im) by (unfold C; rewrite IMM, Rabs_Ropp, Rabs_right; [reflexivity|]; apply Rle_ge, Rmult_le_pos; lra).
    apply (Rmult_le_reg_r N); [lra|]. rewrite !Rmult_assoc, Rinv_l, Rmult_1_r by lra. assert (c * x * Rabs P <= a) by (unfold a; apply Rmult_le_compat_l; [apply Rmult_le_pos; lra|lra]).
    assert (c * x * Rabs P * (im * im) <= Y1 * (N * N) * (im * im)) by (apply Rmult_le_compat_r; [apply Rmult_le_pos; lra|lra]). replace (Y1 * (N * N) * (im * im)) with (Y1 * N * (im * im) * N) in H2 by ring. assert (Y1 * N * (im * im) * N <= y * N) by (apply Rmult_le_compat_r; lra). lra. }
  assert (RY : r * y <= / 200 * y) by (apply Rmult_le_compat_r; lra). assert (RYp : 0 <= r * y) by (apply Rmult_le_pos; lra).
  assert (TB : Rabs T <= 1.05 * y + 1.74 * e1). { replace T with ((T - G) + G) by ring. eapply Rle_trans; [apply Rabs_triang|]. lra. }
  (* 2 gq *)
  assert (Q1 : rel (0.85 * r) (2 * (c * xi) * (p * gn)) T). { unfold rel in *. unfold T. replace (2 * (c * xi) * (p * gn) - c * xi * iq * gn) with (2 * (c * xi * gn) * (p - / (2 * q))) by (unfold iq; field; lra). replace (c * xi * iq * gn) with (2 * (c * xi * gn) * / (2 * q)) by (unfold iq; field; lra).
    rewrite (Rabs_mult (2 * (c * xi * gn))), (Rabs_mult (2 * (c * xi * gn)) (/ _)). assert (Rabs (2 * (c * xi * gn)) * Rabs (p - / (2 * q)) <= Rabs (2 * (c * xi * gn)) * (0.85 * r * Rabs (/ (2 * q)))) by (apply Rmult_le_compat_l; [apply Rabs_pos|exact Hp]). lra. }
  assert (Pt := rel_abs _ _ _ Q1). unfold rel in Q1. set (t := Rabs T) in *. assert (Pt0 : 0 <= t) by apply Rabs_pos. set (v0 := 2 * (c * xi) * (p * gn)) in *. 
  assert (rt : r * t <= / 200 * t) by (apply Rmult_le_compat_r; lra). assert (Ut : 0 <= U * t) by (apply Rmult_le_pos; lra). assert (Utr : 16 * (U * t) <= r * t) by (rewrite <- Rmult_assoc; apply Rmult_le_compat_r; lra).
  assert (V0 : Rabs v0 <= 1.005 * t) by lra. assert (UV0 : U * Rabs v0 <= U * (1.005 * t)) by (apply Rmult_le_compat_l; lra).
  assert (Uh : U * h <= 0.001 * h) by (apply Rmult_le_compat_r; lra). assert (cx : c * x <= x) by (assert (c * x <= 1 * x) by (apply Rmult_le_compat_r; lra); lra).
  assert (Pxh : 0 <= x * h) by (apply Rmult_le_pos; lra). assert (cxh : c * x * h <= x * h) by (apply Rmult_le_compat_r; lra). assert (Pcxh : 0 <= c * x * h) by (repeat apply Rmult_le_pos; lra).
  set (v1 := 2 * (c * xi) * gs0). assert (W1 : Rabs (v1 - v0) <= U * Rabs v0 + 2 * (x * h)).
  { unfold v1, v0. rewrite <- Rmult_minus_distr_l, !Rabs_mult, (Rabs_right 2), (Rabs_right c) by lra. fold x. assert (2 * (c * x) * Rabs (gs0 - p * gn) <= 2 * (c * x) * (U * Rabs (p * gn) + h)) by (apply Rmult_le_compat_l; [apply Rmult_le_pos; [lra|apply Rmult_le_pos; lra]|exact H0]). rewrite Rabs_mult in H. lra. }
  assert (V1 : Rabs v1 <= 1.01 * t + 2 * (x * h)). { replace v1 with ((v1 - v0) + v0) by ring. eapply Rle_trans; [apply Rabs_triang|]. assert (U * (1.005 * t) <= 0.001 * t) by (assert (U * t <= 0.0005 * t) by (apply Rmult_le_compat_r; lra); lra). lra. }
  assert (Uxh : U * (x * h) <= 0.001 * (x * h)) by (apply Rmult_le_compat_r; lra).
  assert (UV1 : U * Rabs v1 <= U * (1.01 * t + 2 * (x * h))) by (apply Rmult_le_compat_l; lra).
  set (v2 := 2 * xi * gs). assert (W2 : Rabs (v2 - v1) <= 2.1 * (U * Rabs v1) + 4.2 * (x * h)).
  { replace (v2 - v1) with (2 * xi * (gs - c * gs0)) by (unfold v1, v2; ring). rewrite !Rabs_mult, (Rabs_right 2) by lra. fold x. assert (2 * x * Rabs (gs - c * gs0) <= 2 * x * (2.1 * U * Rabs (c * gs0) + 2.1 * h)) by (apply Rmult_le_compat_l; [lra|exact Hgs]).
    replace (Rabs v1) with (2 * x * Rabs (c * gs0)) by (unfold v1, x; rewrite !Rabs_mult, (Rabs_right 2) by lra; ring). lra. }
  assert (V2 : Rabs v2 <= 1.02 * t + 7 * (x * h)). { replace v2 with ((v2 - v1) + v1) by ring. eapply Rle_trans; [apply Rabs_triang|]. assert (U * (1.01 * t) <= 0.001 * t) by (assert (U * t <= 0.0005 * t) by (apply Rmult_le_compat_r; lra); lra). lra. }
  assert (UV2 : U * Rabs v2 <= U * (1.02 * t + 7 * (x * h))) by (apply Rmult_le_compat_l; lra).
  set (v3 := 2 * gq). assert (W3 : Rabs (v3 - v2) <= U * Rabs v2 + 2 * h).
  { replace (v3 - v2) with (2 * (gq - xi * gs)) by (unfold v3, v2; ring). rewrite Rabs_mult, (Rabs_right 2) by lra. replace (Rabs v2) with (2 * Rabs (xi * gs)) by (unfold v2; rewrite !Rabs_mult, (Rabs_right 2) by lra; ring). lra. }
  assert (V3T : Rabs (v3 - T) <= 1.15 * (r * t) + 7 * (x * h) + 2 * h).
  { replace (v3 - T) with ((v3 - v2) + ((v2 - v1) + ((v1 - v0) + (v0 - T)))) by ring. eapply Rle_trans; [apply Rabs_triang|]. eapply Rle_trans; [apply Rplus_le_compat_l, Rabs_triang|]. eapply Rle_trans; [apply Rplus_le_compat_l, Rplus_le_compat_l, Rabs_triang|]. lra. }
  assert (rT : r * t <= r * (1.05 * y + 1.74 * e1)) by (apply Rmult_le_compat_l; lra). assert (re : r * e1 <= / 200 * e1) by (apply Rmult_le_compat_r; lra).
  assert (V3G : Rabs (v3 - G) <= 9.97 * (r * y) + 1.76 * e1 + 7 * (x * h) + 2 * h). { replace (v3 - G) with ((v3 - T) + (T - G)) by ring. eapply Rle_trans; [apply Rabs_triang|]. lra. }
  assert (V3 : Rabs v3 <= 1.05 * y + 1.76 * e1 + 7 * (x * h) + 2 * h). { replace v3 with ((v3 - G) + G) by ring. eapply Rle_trans; [apply Rabs_triang|]. lra. }
  (* the sums *)
  assert (GY : Rabs (gyi / M) <= y). { unfold Rdiv, y, im. rewrite Rabs_mult, (Rabs_right (/ M)) by (left; now apply Rinv_0_lt_compat). apply Rmult_le_compat_r; [left; now apply Rinv_0_lt_compat|exact Hg]. }
  assert (G1e : Rabs (g1 - gyi / M) <= 1.6 * (r * y) + h). { assert (r * Rabs (gyi / M) <= r * y) by (apply Rmult_le_compat_l; lra). lra. }
  assert (G1 : Rabs g1 <= 1.01 * y + h). { replace g1 with ((g1 - gyi / M) + gyi / M) by ring. eapply Rle_trans; [apply Rabs_triang|]. lra. }
  assert (GQ : Rabs gq <= / 2 * Rabs v3) by (unfold v3; rewrite Rabs_mult, (Rabs_right 2) by lra; lra). set (L := 1.05 * y + 1.76 * e1 + 7 * (x * h) + 2 * h) in *.
  assert (Z1 : Rabs (g1 + gq) <= 2 * L) by (eapply Rle_trans; [apply Rabs_triang|]; unfold L in *; lra). assert (PL : 0 <= L) by (pose proof (Rabs_pos v3); lra).
  assert (Z1' : Rabs z1 <= 2.1 * L). { replace z1 with ((z1 - (g1 + gq)) + (g1 + gq)) by ring. eapply Rle_trans; [apply Rabs_triang|]. assert (U * Rabs (g1 + gq) <= 0.01 * (2 * L)) by (apply Rmult_le_compat; try lra; apply Rabs_pos). lra. }
  assert (Z2 : Rabs (z1 + gq) <= 2.7 * L) by (eapply Rle_trans; [apply Rabs_triang|]; lra).
  assert (UZ1 : U * Rabs (g1 + gq) <= U * (2 * L)) by (apply Rmult_le_compat_l; lra). assert (UZ2 : U * Rabs (z1 + gq) <= U * (2.7 * L)) by (apply Rmult_le_compat_l; lra).
  assert (UY : 16 * (U * y) <= r * y) by (rewrite <- Rmult_assoc; apply Rmult_le_compat_r; lra). assert (Ue : U * e1 <= 0.001 * e1) by (apply Rmult_le_compat_r; lra).
  assert (UL : U * L <= 0.07 * (r * y) + 0.002 * e1 + 0.01 * (x * h) + 0.01 * h) by (unfold L; assert (0 <= U * y) by (apply Rmult_le_pos; lra); lra).
  replace (z2 - (gyi / M + G)) with ((z2 - (z1 + gq)) + ((z1 - (g1 + gq)) + ((g1 - gyi / M) + (v3 - G)))) by (unfold v3; ring).
  eapply Rle_trans; [apply Rabs_triang|]. eapply Rle_trans; [apply Rplus_le_compat_l, Rabs_triang|]. eapply Rle_trans; [apply Rplus_le_compat_l, Rplus_le_compat_l, Rabs_triang|].
  replace (Y1 / M) with y by reflexivity. unfold e1 in *. assert (0 <= (Y1 + n) * h) by (apply Rmult_le_pos; lra). lra.
Qed.
