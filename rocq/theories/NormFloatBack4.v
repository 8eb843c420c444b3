(** * The gradients of FixNorm and RMSNorm: every element *)
From Coq Require Import ZArith Bool Lia List Arith Reals Lra Psatz.
From Flocq Require Import Core BinarySingleNaN.
From Verif Require Import FloatModel FloatSpec NumModel NumSpec NumLemmas AsmFloatSpec AsmFloat AsmFloat2 AsmModel AsmCalls AsmSpec OptFloatModel OptFloatNum NormFloatModel NormFloatSpec NormFloatNum NormFloatProofs NormFloatProofs2 NormFloatBack NormFloatBack2 NormFloatBack3.
Import ListNotations.
Local Open Scope R_scope.

Lemma back_facts d n : few d n -> 1.02 * (INR n * 2 ^ 34) <= x_max d /\ 2 ^ 68 * (INR n * INR n * back_max d) <= gs_max d / 4 /\ p_max d * half_tiny d * (INR n * back_max d + INR n) <= 1 /\ 4 <= gs_max d /\ rep d (gs_max d).
Proof.
  intros H. pose proof (few_count d n H) as C. pose proof (pos_INR n) as P. pose proof (p_facts d) as (_ & _ & _ & _ & _ & _ & _ & A). pose proof (half_tiny_pos d) as Ht. assert (Pm : 0 <= p_max d) by (pose proof (p_facts d) as (_ & _ & K & _); lra). unfold x_max, back_max, gs_max, p_max in *. set (k := INR n) in *. clearbody k.
  assert (NN : k * k <= match d with F32 => 2 ^ 16 | F64 => 2 ^ 45 end * match d with F32 => 2 ^ 16 | F64 => 2 ^ 45 end) by (apply Rmult_le_compat; auto).
  split; [|split; [|split; [|split]]].
  - destruct d.
    + replace (2 ^ 52) with (4 * (2 ^ 16 * 2 ^ 34)) by (cbn [pow]; ring). assert (k * 2 ^ 34 <= 2 ^ 16 * 2 ^ 34) by (apply Rmult_le_compat_r; [apply pow_le; lra|exact C]). assert (0 <= 2 ^ 16 * 2 ^ 34) by (apply Rmult_le_pos; apply pow_le; lra). lra.
    + replace (2 ^ 82) with (8 * (2 ^ 45 * 2 ^ 34)) by (cbn [pow]; ring). assert (k * 2 ^ 34 <= 2 ^ 45 * 2 ^ 34) by (apply Rmult_le_compat_r; [apply pow_le; lra|exact C]). assert (0 <= 2 ^ 45 * 2 ^ 34) by (apply Rmult_le_pos; apply pow_le; lra). lra.
  - destruct d; rewrite <- !pow_add in NN.
    + assert (2 ^ 68 * (k * k * 2 ^ 20) <= 2 ^ 68 * (2 ^ (16 + 16) * 2 ^ 20)) by (apply Rmult_le_compat_l; [apply pow_le; lra|]; apply Rmult_le_compat_r; [apply pow_le; lra|exact NN]). rewrite <- !pow_add in H0. eapply Rle_trans; [exact H0|]. replace (2 ^ 122) with (2 ^ 2 * 2 ^ (68 + (16 + 16 + 20))) by (rewrite <- pow_add; f_equal; lia). lra.
    + assert (2 ^ 68 * (k * k * 2 ^ 440) <= 2 ^ 68 * (2 ^ (45 + 45) * 2 ^ 440)) by (apply Rmult_le_compat_l; [apply pow_le; lra|]; apply Rmult_le_compat_r; [apply pow_le; lra|exact NN]). rewrite <- !pow_add in H0. eapply Rle_trans; [exact H0|]. replace (2 ^ 610) with (2 ^ 12 * 2 ^ (68 + (45 + 45 + 440))) by (rewrite <- pow_add; f_equal; lia). assert (0 < 2 ^ (68 + (45 + 45 + 440))) by (apply pow_lt; lra). set (z := 2 ^ (68 + (45 + 45 + 440))) in *. clearbody z. lra.
  - set (t := match d with F32 => 2 ^ 75 | F64 => 2 ^ 537 end * half_tiny d) in *. assert (0 <= t) by (unfold t; apply Rmult_le_pos; lra). destruct d.
    + assert (k * 2 ^ 20 + k <= 2 ^ 40) by lra. assert (t * (k * 2 ^ 20 + k) <= / 2 ^ 75 * 2 ^ 40) by (apply Rmult_le_compat; try lra; assert (0 <= k * 2 ^ 20) by (apply Rmult_le_pos; [lra|apply pow_le; lra]); lra). lra.
    + assert (One : 1 <= 2 ^ 440) by (apply pow_R1_Rle; lra). assert (B : k * 2 ^ 440 + k <= 2 ^ 46 * 2 ^ 440). { assert (k * 2 ^ 440 <= 2 ^ 45 * 2 ^ 440) by (apply Rmult_le_compat_r; lra). assert (k * 1 <= k * 2 ^ 440) by (apply Rmult_le_compat_l; lra). replace (2 ^ 46 * 2 ^ 440) with (2 * (2 ^ 45 * 2 ^ 440)) by (cbn [pow]; ring). lra. }
      rewrite <- pow_add in B. assert (B0 : 0 <= k * 2 ^ 440 + k) by (assert (0 <= k * 2 ^ 440) by (apply Rmult_le_pos; lra); lra). assert (Z : t * (k * 2 ^ 440 + k) <= / 2 ^ 538 * 2 ^ (46 + 440)) by (apply Rmult_le_compat; auto). eapply Rle_trans; [exact Z|].
      replace (2 ^ 538) with (2 ^ 52 * 2 ^ (46 + 440)) by (rewrite <- pow_add; f_equal; lia). rewrite Rinv_mult, Rmult_assoc, Rinv_l, Rmult_1_r by (apply pow_nonzero; lra). lra.
  - destruct d; [replace 4 with (2 ^ 2) by lra; apply Rle_pow; [lra|lia]..].
  - destruct d; apply rep_big; cbn; lia.
Qed.
Lemma sum_facts d : rep d (gn_max d) /\ rep d (2 * gn_max d) /\ rep d (4 * gn_max d) /\ 32 <= gn_max d /\ 2 * (back_max d * 2 ^ 34) + 1 <= gn_max d /\ rep d (back_max d * 2 ^ 35) /\ half_tiny d * d_max d <= 1 /\ half_tiny d * in_max d <= 1.
Proof.
  unfold gn_max, back_max, d_max, in_max, half_tiny. destruct d.
  - replace (2 * 2 ^ 90) with (2 ^ 91) by (cbn [pow]; ring). replace (4 * 2 ^ 90) with (2 ^ 92) by (cbn [pow]; ring). rewrite <- !pow_add. cbn [Nat.add]. split; [apply rep_pow2; cbn; lia|]. split; [apply rep_pow2; cbn; lia|]. split; [apply rep_pow2; cbn; lia|]. split; [lra|]. split; [lra|]. split; [apply rep_pow2; cbn; lia|]. split; lra.
  - replace (2 * 2 ^ 570) with (2 ^ 571) by (cbn [pow]; ring). replace (4 * 2 ^ 570) with (2 ^ 572) by (cbn [pow]; ring). rewrite <- !pow_add.
    assert (T : forall n, (n <= 1075)%nat -> / 2 ^ 1075 * 2 ^ n <= 1). { intros n Hn. apply (Rmult_le_reg_l (2 ^ 1075)); [apply pow_lt; lra|]. rewrite <- Rmult_assoc, Rinv_r, Rmult_1_l, Rmult_1_r by (apply pow_nonzero; lra). apply Rle_pow; [lra|exact Hn]. }
    split; [apply rep_pow2; cbn; lia|]. split; [apply rep_pow2; cbn; lia|]. split; [apply rep_pow2; cbn; lia|]. split; [replace 32 with (2 ^ 5) by lra; apply Rle_pow; [lra|lia]|].
    split. { assert (1 <= 2 ^ (440 + 34)) by (apply pow_R1_Rle; lra). replace (2 ^ 570) with (2 ^ 96 * 2 ^ (440 + 34)) by (rewrite <- pow_add; f_equal; lia). set (z := 2 ^ (440 + 34)) in *. clearbody z. lra. }
    split; [apply rep_pow2; cbn; lia|]. split; apply T; lia.
Qed.

Section Element.
Variables (m : libm) (d : dtype) (sum : nat -> list (val d) -> val d) (c : R) (x gy : list (val d)) (s : val d).
Hypothesis Root : inverse_root m.
Hypothesis Adds : adds_all sum.
Hypothesis Ok : sq_ok d c x s.
Hypothesis Few : few d (length x).
Hypothesis C0 : 0 < c <= 1.
Hypothesis Cn : / c <= INR (length x).
Hypothesis Sized : sized (in_max d) x.
Hypothesis SizedY : sized (back_max d) gy.
Hypothesis Len : length x = length gy.
Hypothesis Spos : 0 < real s.
Hypothesis Npos : 0 < size_c d c x.
Notation den := (fadd (elem_sqrt d s) (eps10 d)).
Notation gn := (div_scalar_back2 d sum 1 x gy den).
Notation gs0 := (sqrt_back m d s gn).
Notation N := (size_c d c x).
Notation M := (N + guard10).
Notation Y1 := (abs_sum (reals gy)).
Notation r := (rho d (length x)).

Lemma n_pos : 1 <= INR (length x).
Proof using C0 Cn. assert (1 <= / c) by (rewrite <- Rinv_1; apply Rinv_le_contravar; lra). lra. Qed.
Lemma scaled_ok : Forall (fun v => finite v /\ Rabs (real v * real (minus_recip_square d den)) <= x_max d) x /\
  finite (minus_recip_square d den) /\ rel (3 * r) (real (minus_recip_square d den)) (- / (M * M)).
Proof using All.
  destruct (divisor_ok d c x s Ok Few C0) as (FD & ED & BD). pose proof (few_small d _ Few) as (R1 & _). pose proof guard_low as G. assert (M0 : 0 < M) by lra.
  destruct (minus_ok d r M den R1 FD ED M0 BD) as (Fc & _ & Rc). split; [|split; assumption]. rewrite Forall_forall. intros v Hv. pose proof Sized as SZ. unfold sized in SZ. rewrite Forall_forall in SZ. destruct (SZ v Hv) as (Fv & _). split; [exact Fv|].
  destruct (squares_each d c x v C0 Hv) as (V & _). pose proof (rel_abs _ _ _ Rc) as A. rewrite Rabs_Ropp, (Rabs_right (/ (M * M))) in A by (left; apply Rinv_0_lt_compat, Rmult_lt_0_compat; lra). rewrite Rabs_mult. destruct (back_facts d _ Few) as (B & _).
  set (w := Rabs (real (minus_recip_square d den))) in *. set (a := Rabs (real v)) in *. assert (Pa : 0 <= a) by apply Rabs_pos. assert (Pw : 0 <= w) by apply Rabs_pos. set (MM := N + guard10) in *. set (im := / MM). assert (Pim : 0 < im) by now apply Rinv_0_lt_compat.
  assert (im34 : im <= 2 ^ 34). { unfold im. rewrite <- (Rinv_inv (2 ^ 34)). apply Rinv_le_contravar; [lra|unfold MM; lra]. }
  assert (E : / (MM * MM) = im * im) by (unfold im; apply Rinv_mult). rewrite E in A. pose proof n_pos as n1. set (n := INR (length x)) in *. set (ic := / c) in *. assert (Pic : 0 < ic) by (apply Rinv_0_lt_compat; lra).
  assert (av : a <= ic * N). { apply (Rmult_le_reg_l c); [lra|]. unfold ic. rewrite <- Rmult_assoc, Rinv_r, Rmult_1_l by lra. exact V. }
  assert (Ni : N * im <= 1). { assert (N * im <= MM * im) by (apply Rmult_le_compat_r; unfold MM; lra). unfold im in *. rewrite Rinv_r in H by lra. exact H. } assert (Ni0 : 0 <= N * im) by (apply Rmult_le_pos; lra).
  assert (w1 : w <= 1.02 * (im * im)). { assert ((1 + 3 * r) * (im * im) <= 1.02 * (im * im)) by (apply Rmult_le_compat_r; [apply Rmult_le_pos; lra|lra]). lra. }
  assert (a * w <= ic * N * (1.02 * (im * im))) by (apply Rmult_le_compat; lra). replace (ic * N * (1.02 * (im * im))) with (1.02 * (ic * (N * im * im))) in H by ring.
  assert (N * im * im <= 1 * 2 ^ 34) by (apply Rmult_le_compat; lra). assert (ic * (N * im * im) <= n * (1 * 2 ^ 34)) by (apply Rmult_le_compat; try lra; apply Rmult_le_pos; lra). lra.
Qed.
Lemma gn_ok : finite gn /\ Rabs (real gn) <= gn_max d / 2 /\ Rabs (real gn - - / (M * M) * dot x gy) <= 4.25 * r * (/ (M * M) * dot_abs x gy) + 1.1 * ((Y1 + INR (length x)) * half_tiny d).
Proof using All.
  destruct scaled_ok as (A & B & C). destruct (norm_gradient d 1 sum r (minus_recip_square d den) _ x gy Adds Few eq_refl B C Len A SizedY) as (F & Q & E). split; [exact F|]. split; [exact Q|].
  rewrite Rabs_Ropp, (Rabs_right (/ (M * M))) in E; [exact E|]. left. apply Rinv_0_lt_compat, Rmult_lt_0_compat; pose proof guard_low; lra.
Qed.
Lemma root_grad_ok : let p := half_root m d s in
  rel (0.85 * r) (real p) (/ (2 * sqrt (real s))) /\ finite gs0 /\ Rabs (real gs0) <= gs_max d /\ Rabs (real gs0 - real p * real gn) <= u d * Rabs (real p * real gn) + half_tiny d.
Proof using All.
  intros p. pose proof (few_small d _ Few) as (R1 & _). destruct (half_root_ok m d s r Root R1 (sq_finite _ _ _ _ Ok)) as (Fp & Rp & Pp); [split; [exact Spos|apply (sq_range _ _ _ _ Ok)]|]. fold p in Fp, Rp.
  destruct gn_ok as (Fg & Bg & Eg). destruct (back_facts d _ Few) as (_ & G2 & G3 & G4 & G5). split; [exact Rp|].
  enough (B : Rabs (real p * real gn) <= gs_max d) by (destruct (mul_op p gn (gs_max d) Fp Fg G5 B) as (K1 & K2 & K3); split; [exact K1|split; [exact K2|exact K3]]).
  assert (D0 := dot_le x gy). assert (DP : 0 <= dot_abs x gy) by (eapply Rle_trans; [apply Rabs_pos|exact D0]).
  assert (CD : c * dot_abs x gy <= 1.74 * sqrt (real s) * Y1). { apply dot_abs_each; [exact Len|lra|]. rewrite Forall_forall. intros v Hv. apply (root_each d c x s v C0 Ok Spos Hv). }
  pose proof (abs_sum_le d _ gy SizedY) as YL. pose proof (abs_sum_pos (reals gy)) as YP. rewrite <- Len in YL. pose proof n_pos as n1. pose proof guard_low as G. pose proof (half_tiny_pos d) as Hh.
  set (q := sqrt (real s)) in *. assert (Pq : 0 < q) by (apply sqrt_lt_R0; exact Spos). set (MM := N + guard10) in *. set (im := / MM). assert (Pim : 0 < im) by (apply Rinv_0_lt_compat; unfold MM; lra). assert (im34 : im <= 2 ^ 34). { unfold im. rewrite <- (Rinv_inv (2 ^ 34)). apply Rinv_le_contravar; [lra|unfold MM; lra]. }
  rewrite (Rinv_mult MM MM) in Eg. fold im in Eg. set (n := INR (length x)) in *. set (ic := / c) in *. assert (Pic : 0 < ic) by (apply Rinv_0_lt_compat; lra). set (Da := dot_abs x gy) in *. set (h := half_tiny d) in *. set (iq := / q) in *. assert (Piq : 0 < iq) by (apply Rinv_0_lt_compat; lra).
  assert (DI : Da * iq <= 1.74 * (n * Y1)). { assert (Da <= ic * (1.74 * q * Y1)) by (apply (Rmult_le_reg_l c); [lra|]; unfold ic; rewrite <- Rmult_assoc, Rinv_r, Rmult_1_l by lra; exact CD). apply (Rmult_le_compat_r iq) in H; [|lra]. replace (ic * (1.74 * q * Y1) * iq) with (1.74 * (ic * Y1) * (q * iq)) in H by ring. replace (q * iq) with 1 in H by (unfold iq; field; lra). assert (ic * Y1 <= n * Y1) by (apply Rmult_le_compat_r; lra). lra. }
  assert (Gn : Rabs (real gn) <= 1.03 * (im * im * Da) + 1.1 * ((Y1 + n) * h)).
  { replace (real gn) with ((real gn - - (im * im) * dot x gy) + - (im * im) * dot x gy) by ring. eapply Rle_trans; [apply Rabs_triang|]. rewrite Rabs_mult, Rabs_Ropp, (Rabs_right (im * im)) by (apply Rle_ge, Rmult_le_pos; lra). assert (im * im * Rabs (dot x gy) <= im * im * Da) by (apply Rmult_le_compat_l; [apply Rmult_le_pos; lra|exact D0]).
    assert (0 <= im * im * Da) by (repeat apply Rmult_le_pos; lra). assert (r * (im * im * Da) <= / 200 * (im * im * Da)) by (apply Rmult_le_compat_r; lra). lra. }
  assert (Pb : Rabs (real p) <= 0.51 * iq). { apply rel_abs in Rp. replace (/ (2 * q)) with (/ 2 * iq) in Rp by (unfold iq; field; lra). rewrite (Rabs_right (/ 2 * iq)) in Rp by lra. assert ((1 + 0.85 * r) * (/ 2 * iq) <= 1.01 * (/ 2 * iq)) by (apply Rmult_le_compat_r; lra). lra. }
  rewrite Rabs_mult. assert (Z : Rabs (real p) * Rabs (real gn) <= 0.51 * iq * (1.03 * (im * im * Da) + 1.1 * ((Y1 + n) * h))) by (apply Rmult_le_compat; try apply Rabs_pos; assumption).
  eapply Rle_trans; [exact Z|]. assert (Z1 : im * im * (Da * iq) <= 2 ^ 34 * 2 ^ 34 * (1.74 * (n * (n * back_max d)))). { apply Rmult_le_compat; [apply Rmult_le_pos; lra|apply Rmult_le_pos; lra|apply Rmult_le_compat; lra|]. eapply Rle_trans; [exact DI|]. assert (n * Y1 <= n * (n * back_max d)) by (apply Rmult_le_compat_l; lra). lra. }
  assert (Z2 : iq * ((Y1 + n) * h) <= 1). { eapply Rle_trans; [|exact G3]. replace (p_max d * h * (n * back_max d + n)) with (p_max d * ((n * back_max d + n) * h)) by ring. apply Rmult_le_compat; try lra; [apply Rmult_le_pos; lra|]. apply Rmult_le_compat_r; lra. }
  replace (2 ^ 34 * 2 ^ 34) with (2 ^ 68) in Z1 by (rewrite <- pow_add; f_equal; lia). replace (2 ^ 68 * (1.74 * (n * (n * back_max d)))) with (1.74 * (2 ^ 68 * (n * n * back_max d))) in Z1 by ring. lra.
Qed.

(** the gradient passed on by ReduceSum or ReduceMean *)
Variable gs : val d.
Hypothesis Fgs : finite gs.
Hypothesis Egs : Rabs (real gs - c * real gs0) <= 2.1 * u d * Rabs (c * real gs0) + 2.1 * half_tiny d.
Lemma element_ok xi gyi : In xi x -> In gyi gy -> let gq := fmul xi gs in let z := fadd (fadd (fmul gyi (recip d den)) gq) gq in
  finite z /\ Rabs (real z - (real gyi / M + c * real xi * (- / (M * M)) * dot x gy / N)) <= 14 * r * (Y1 / M) + (3 * (Y1 + INR (length x)) + 12 * (Rabs (real xi) + 1)) * half_tiny d.
Proof using All.
  intros Hx Hy gq z. pose proof (few_small d _ Few) as (R1 & _). pose proof (u_small d) as Hu. pose proof (half_tiny_pos d) as Hh. destruct gn_ok as (Fg & Bg & Eg). destruct root_grad_ok as (Rp & F0 & B0 & E0). set (p := half_root m d s) in *.
  pose proof (root_each d c x s xi C0 Ok Spos Hx) as (X1 & X2). pose proof (squares_each d c x xi C0 Hx) as (_ & X3). pose proof guard_low as G. pose proof n_pos as n1. pose proof (abs_sum_pos (reals gy)) as YP.
  destruct (sum_facts d) as (S1 & S2 & S3 & S4 & S5 & S6 & S7 & S8). pose proof (d_max_facts d) as (_ & _ & _ & D4 & _ & D6). pose proof (sq_range _ _ _ _ Ok) as SR. pose proof (root_near d c x s Ok Few C0) as RN.
  pose proof Sized as SZ. unfold sized in SZ. rewrite Forall_forall in SZ. destruct (SZ xi Hx) as (Fx & Bx). change (finite xi) in Fx. change (B2R xi) with (real xi) in Bx.
  pose proof SizedY as SY. unfold sized in SY. rewrite Forall_forall in SY. destruct (SY gyi Hy) as (Fy & By). change (finite gyi) in Fy. change (B2R gyi) with (real gyi) in By.
  destruct (divisor_ok d c x s Ok Few C0) as (FD & ED & BD). assert (M0 : 0 < M) by lra.
  destruct (divided d (back_max d) r M den gyi R1 FD ED M0 BD Fy By S6) as (F1 & E1). set (g1 := fmul gyi (recip d den)) in *.
  set (q := sqrt (real s)) in *. assert (Pq : 0 < q) by (apply sqrt_lt_R0; exact Spos). assert (Qd : q <= d_max d). { unfold q. rewrite <- (sqrt_square (d_max d)) by lra. apply sqrt_le_1_alt. lra. }
  set (h := half_tiny d) in *. set (U := u d) in *. set (iq := / q). assert (Piq : 0 < iq) by (apply Rinv_0_lt_compat; lra).
  (* the products *)
  assert (Q0 : Rabs (real xi * real gs) <= gn_max d).
  { assert (P1 : Rabs (real p) <= 0.51 * iq). { apply rel_abs in Rp. replace (/ (2 * q)) with (/ 2 * iq) in Rp by (unfold iq; field; lra). rewrite (Rabs_right (/ 2 * iq)) in Rp by lra. assert ((1 + 0.85 * r) * (/ 2 * iq) <= 1.01 * (/ 2 * iq)) by (apply Rmult_le_compat_r; lra). lra. }
    rewrite (Rabs_mult (real p)) in E0. assert (P2 : Rabs (real p) * Rabs (real gn) <= 0.51 * iq * (gn_max d / 2)) by (apply Rmult_le_compat; try apply Rabs_pos; assumption).
    assert (P3 : Rabs (real gs0) <= 1.01 * (0.51 * iq * (gn_max d / 2)) + h). { replace (real gs0) with ((real gs0 - real p * real gn) + real p * real gn) by ring. eapply Rle_trans; [apply Rabs_triang|]. rewrite (Rabs_mult (real p)). assert (U * (Rabs (real p) * Rabs (real gn)) <= 0.01 * (Rabs (real p) * Rabs (real gn))) by (apply Rmult_le_compat_r; [apply Rmult_le_pos; apply Rabs_pos|lra]). lra. }
    assert (P4 : Rabs (real gs) <= 1.01 * (c * Rabs (real gs0)) + 2.1 * h). { replace (real gs) with ((real gs - c * real gs0) + c * real gs0) by ring. eapply Rle_trans; [apply Rabs_triang|]. rewrite (Rabs_mult c), (Rabs_right c) in * by lra. assert (0 <= c * Rabs (real gs0)) by (apply Rmult_le_pos; [lra|apply Rabs_pos]). assert (2.1 * U * (c * Rabs (real gs0)) <= 0.01 * (c * Rabs (real gs0))) by (apply Rmult_le_compat_r; lra). lra. }
    rewrite Rabs_mult. set (a := Rabs (real xi)) in *. assert (Pa : 0 <= a) by apply Rabs_pos. assert (P5 : a * Rabs (real gs) <= a * (1.01 * (c * Rabs (real gs0)) + 2.1 * h)) by (apply Rmult_le_compat_l; auto).
    assert (P6 : c * a * Rabs (real gs0) <= 1.74 * q * (1.01 * (0.51 * iq * (gn_max d / 2)) + h)) by (apply Rmult_le_compat; try apply Rabs_pos; try lra; apply Rmult_le_pos; lra).
    replace (1.74 * q * (1.01 * (0.51 * iq * (gn_max d / 2)) + h)) with (1.74 * 1.01 * 0.51 * (gn_max d / 2) * (q * iq) + 1.74 * (q * h)) in P6 by ring. replace (q * iq) with 1 in P6 by (unfold iq; field; lra).
    assert (q * h <= 1) by (assert (h * q <= h * d_max d) by (apply Rmult_le_compat_l; lra); lra). assert (a * h <= 1) by (assert (h * a <= h * in_max d) by (apply Rmult_le_compat_l; lra); lra). lra. }
  destruct (mul_op xi gs (gn_max d) Fx Fgs S1 Q0) as (Fq & Bq & Nq). fold gq in Fq, Bq, Nq. 
  assert (G1 : Rabs (real g1) <= gn_max d). { replace (real g1) with ((real g1 - real gyi / M) + real gyi / M) by ring. eapply Rle_trans; [apply Rabs_triang|]. assert (K : Rabs (real gyi / M) <= back_max d * 2 ^ 34). { unfold Rdiv. rewrite Rabs_mult, (Rabs_right (/ M)) by (left; now apply Rinv_0_lt_compat). apply Rmult_le_compat; try apply Rabs_pos; [left; now apply Rinv_0_lt_compat|exact By|]. rewrite <- (Rinv_inv (2 ^ 34)). apply Rinv_le_contravar; lra. }
    pose proof (Rabs_pos (real gyi / M)). assert (1.6 * r * Rabs (real gyi / M) <= 0.1 * Rabs (real gyi / M)) by (apply Rmult_le_compat_r; lra). pose proof (tiny_small d). fold h in H1. lra. }
  destruct (add_op g1 gq (2 * gn_max d) F1 Fq S2) as (Fz1 & Bz1 & Ez1). { eapply Rle_trans; [apply Rabs_triang|]. lra. }
  destruct (add_op (fadd g1 gq) gq (4 * gn_max d) Fz1 Fq S3) as (Fz2 & Bz2 & Ez2). { eapply Rle_trans; [apply Rabs_triang|]. lra. }
  fold z in Fz2, Ez2. split; [exact Fz2|].
  assert (Yi : Rabs (real gyi) <= Y1). { clear - Hy. induction gy as [|b l IH]; [contradiction|]. cbn [reals map abs_sum fold_right]. fold (reals l) (abs_sum (reals l)). pose proof (abs_sum_pos (reals l)). pose proof (Rabs_pos (real b)). change (B2R b) with (real b). destruct Hy as [->|Hy]; [lra|]. specialize (IH Hy). lra. }
  assert (Each : forall v, In v x -> c * Rabs (real xi) * Rabs (real v) <= N * N /\ c * Rabs (real xi) * Rabs (real v) <= 3 * real s).
  { intros v Hv. destruct (squares_each d c x v C0 Hv) as (_ & V1). destruct (root_each d c x s v C0 Ok Spos Hv) as (_ & V2). replace (real v * real v) with (Rabs (real v) * Rabs (real v)) in V1, V2 by (rewrite <- Rabs_mult; apply Rabs_right, Rle_ge, Rle_0_sqr). replace (real xi * real xi) with (Rabs (real xi) * Rabs (real xi)) in X2, X3 by (rewrite <- Rabs_mult; apply Rabs_right, Rle_ge, Rle_0_sqr).
    assert (AB : c * Rabs (real xi) * Rabs (real v) <= (c * (Rabs (real xi) * Rabs (real xi)) + c * (Rabs (real v) * Rabs (real v))) / 2). { pose proof (pow2_ge_0 (Rabs (real xi) - Rabs (real v))) as Sq. apply (Rmult_le_compat_l c) in Sq; [|lra]. lra. } split; lra. }
  assert (K1 : c * Rabs (real xi) * dot_abs x gy <= N * N * Y1). { apply dot_abs_each; [exact Len|apply Rmult_le_pos; [lra|apply Rabs_pos]|]. rewrite Forall_forall. intros v Hv. apply (Each v Hv). }
  assert (K2 : c * Rabs (real xi) * dot_abs x gy <= 3 * real s * Y1). { apply dot_abs_each; [exact Len|apply Rmult_le_pos; [lra|apply Rabs_pos]|]. rewrite Forall_forall. intros v Hv. apply (Each v Hv). }
  apply (gradient_error U h r c N guard10 (real s) (real xi) (dot x gy) (dot_abs x gy) Y1 (INR (length x)) (real gyi) (real gn) (real p) (real gs0) (real gs) (real gq) (real g1) (real (fadd g1 gq)) (real z)); try assumption; try lra; try apply dot_le.
Qed.
End Element.
