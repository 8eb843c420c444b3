(** * Optimizers in floating point: the averages and the quotient *)
From Coq Require Import ZArith Bool Lia List Arith Reals Lra Psatz.
From Flocq Require Import Core BinarySingleNaN Relative.
From Verif Require Import FloatModel FloatSpec FloatProofs NumModel NumSpec NumLemmas AsmFloatSpec AsmFloat OptFloatModel OptFloatNum.
Import ListNotations.
Local Open Scope R_scope.

Lemma rep_bpow d k : (3 - emax d - prec d <= k)%Z -> (k < emax d)%Z -> rep d (bpow radix2 k).
Proof.
  intros L H. split.
  - rewrite nearest_eq. apply round_generic; [apply valid_rnd_round_mode|]. apply generic_format_bpow. unfold SpecFloat.fexp, SpecFloat.emin. destruct d; cbn in *; lia.
  - rewrite Rabs_right by (apply Rle_ge, bpow_ge_0). rewrite limit_eq. apply bpow_lt, H.
Qed.
Lemma rep_two d n : (Z.of_nat n < emax d)%Z -> rep d (2 ^ n).
Proof. intros H. rewrite pow2. apply rep_bpow; [destruct d; cbn; lia|exact H]. Qed.

Section Elem.
Variable d : dtype.
Notation U := (u d).
Notation h := (half_tiny d).
Lemma u_le : 0 < U <= / 2 ^ 24. Proof. apply u_small. Qed.
Lemma h_le : 0 < h <= / 2 ^ 150. Proof. apply tiny_small. Qed.

(** v*b + g*c *)
Lemma average_op (v b g c : val d) B : finite v -> finite b -> finite g -> finite c -> rep d B -> rep d (2 * B) ->
  Rabs (real v * real b) <= B -> Rabs (real g * real c) <= B ->
  let v' := fadd (fmul v b) (fmul g c) in
  finite v' /\ Rabs (real v') <= (1 + U) ^ 2 * (Rabs (real b) * Rabs (real v) + Rabs (real c) * Rabs (real g)) + 3 * h.
Proof.
  intros Fv Fb Fg Fc RB RB2 H1 H2. cbv zeta.
  destruct (mul_op v b B Fv Fb RB H1) as (F1 & L1 & N1). destruct (mul_op g c B Fg Fc RB H2) as (F2 & L2 & N2).
  destruct (add_op (fmul v b) (fmul g c) (2 * B) F1 F2 RB2) as (F3 & _ & N3).
  { eapply Rle_trans; [apply Rabs_triang|]. lra. }
  split; [exact F3|]. apply near_le in N1, N2. rewrite Rabs_mult in N1, N2.
  pose proof (Rabs_triang (real (fmul v b)) (real (fmul g c))) as T.
  pose proof (Rabs_triang (real (fadd (fmul v b) (fmul g c)) - (real (fmul v b) + real (fmul g c))) (real (fmul v b) + real (fmul g c))) as T2.
  replace (real (fadd (fmul v b) (fmul g c)) - (real (fmul v b) + real (fmul g c)) + (real (fmul v b) + real (fmul g c))) with (real (fadd (fmul v b) (fmul g c))) in T2 by ring.
  pose proof u_le as HU. pose proof h_le as Hh.
  set (a := real (fmul v b)) in *. set (e := real (fmul g c)) in *. set (f := real (fadd (fmul v b) (fmul g c))) in *. clearbody a e f.
  set (x := Rabs (real v) * Rabs (real b)) in *. set (y := Rabs (real g) * Rabs (real c)) in *.
  replace (Rabs (real b) * Rabs (real v) + Rabs (real c) * Rabs (real g)) with (x + y) by (unfold x, y; ring).
  assert (Hx : 0 <= x) by (apply Rmult_le_pos; apply Rabs_pos). assert (Hy : 0 <= y) by (apply Rmult_le_pos; apply Rabs_pos). clearbody x y.
  assert (U < / 1000) by lra. set (uu := U) in *. set (hh := h) in *. clearbody uu hh.
  assert (Rabs f <= (1 + uu) * Rabs (a + e)) by lra. assert (Rabs (a + e) <= (1 + uu) * (x + y) + 2 * hh) by lra.
  assert (Rabs f <= (1 + uu) * ((1 + uu) * (x + y) + 2 * hh)) by (eapply Rle_trans; [eassumption|]; apply Rmult_le_compat_l; lra).
  nra.
Qed.
(** the square of the gradient *)
Lemma square_op (g : val d) B : finite g -> rep d B -> real g ^ 2 <= B -> let q := fmul g g in
  finite q /\ 0 <= real q <= B /\ (1 - U) * real g ^ 2 - h <= real q /\ real q <= (1 + U) * real g ^ 2 + h.
Proof.
  intros Fg RB H. cbv zeta. assert (P : 0 <= real g * real g) by (pose proof (pow2_ge_0 (real g)); lra).
  destruct (mul_op g g B Fg Fg RB) as (F & L & N); [rewrite Rabs_right by lra; lra|].
  destruct (mul_in d g g 0 B Fg Fg (rep_0 d) RB) as (_ & Q & _); [lra|].
  split; [exact F|]. split; [exact Q|]. split.
  - pose proof (near_ge _ _ N P). replace (real g ^ 2) with (real g * real g) by ring. lra.
  - pose proof (near_le _ _ N) as N'. rewrite Rabs_right in N' by lra. rewrite Rabs_right in N' by lra. replace (real g ^ 2) with (real g * real g) by ring. lra.
Qed.
(** m*b + q*c for numbers that are not negative *)
Lemma square_average_op (m b q c : val d) B : finite m -> finite b -> finite q -> finite c -> rep d B -> rep d (2 * B) ->
  0 <= real m -> 0 <= real b -> 0 <= real q -> 0 <= real c -> real m * real b <= B -> real q * real c <= B ->
  let m' := fadd (fmul m b) (fmul q c) in
  finite m' /\ 0 <= real m' /\ (1 - U) ^ 2 * (real m * real b + real q * real c) - 2 * h <= real m' <= (1 + U) ^ 2 * (real m * real b + real q * real c) + 3 * h.
Proof.
  intros Fm Fb Fq Fc RB RB2 P1 P2 P3 P4 H1 H2. cbv zeta.
  assert (Q1 : 0 <= real m * real b) by (apply Rmult_le_pos; assumption). assert (Q2 : 0 <= real q * real c) by (apply Rmult_le_pos; assumption).
  destruct (mul_op m b B Fm Fb RB) as (F1 & _ & N1); [rewrite Rabs_right by lra; exact H1|]. destruct (mul_in d m b 0 B Fm Fb (rep_0 d) RB) as (_ & L1 & _); [lra|].
  destruct (mul_op q c B Fq Fc RB) as (F2 & _ & N2); [rewrite Rabs_right by lra; exact H2|]. destruct (mul_in d q c 0 B Fq Fc (rep_0 d) RB) as (_ & L2 & _); [lra|].
  destruct (add_op (fmul m b) (fmul q c) (2 * B) F1 F2 RB2) as (F3 & _ & N3); [rewrite Rabs_right by lra; lra|].
  destruct (add_in d (fmul m b) (fmul q c) 0 (2 * B) F1 F2 (rep_0 d) RB2) as (_ & L3 & _); [lra|].
  split; [exact F3|]. split; [apply L3|].
  pose proof (near_ge _ _ N1 Q1) as G1. pose proof (near_ge _ _ N2 Q2) as G2. pose proof (near_le _ _ N1) as E1. pose proof (near_le _ _ N2) as E2.
  rewrite (Rabs_right (real (fmul m b))), (Rabs_right (real m * real b)) in E1 by lra. rewrite (Rabs_right (real (fmul q c))), (Rabs_right (real q * real c)) in E2 by lra.
  rewrite (Rabs_right (_ + _)) in N3 by lra. apply rabs_le in N3. pose proof u_le as HU. pose proof h_le as Hh.
  set (a := real (fmul m b)) in *. set (e := real (fmul q c)) in *. set (f := real (fadd (fmul m b) (fmul q c))) in *. clearbody a e f.
  set (x := real m * real b) in *. set (y := real q * real c) in *. clearbody x y. set (uu := U) in *. set (hh := h) in *.
  assert (uu < / 1000) by lra. clearbody uu hh. split.
  - assert (A1 : (1 - uu) * (a + e) <= f) by lra. assert (A2 : (1 - uu) * (x + y) - 2 * hh <= a + e) by lra.
    assert ((1 - uu) * ((1 - uu) * (x + y) - 2 * hh) <= (1 - uu) * (a + e)) by (apply Rmult_le_compat_l; lra). nra.
  - assert (A1 : f <= (1 + uu) * (a + e)) by lra. assert (A2 : a + e <= (1 + uu) * (x + y) + 2 * hh) by lra.
    assert ((1 + uu) * (a + e) <= (1 + uu) * ((1 + uu) * (x + y) + 2 * hh)) by (apply Rmult_le_compat_l; lra). nra.
Qed.

(** v / (sqrt m + e) *)
Lemma quotient_op (v m e : val d) B K w : finite v -> finite m -> finite e -> 0 <= real m <= B * B -> 1 <= B -> rep d B -> rep F64 B -> rep d (2 * B) ->
  / 2 ^ 35 <= real e <= 1 -> 1 <= K <= 2 ^ 12 -> 0 <= w <= / 2 ^ 60 -> Rabs (real v) <= K * sqrt (real m) + K * w ->
  let q := fdiv v (fadd (elem_sqrt d m) e) in finite q /\ Rabs (real q) <= K * (1 + / 2 ^ 20).
Proof.
  intros Fv Fm Fe Hm HB RB RB64 RB2 He HK Hw Hv. cbv zeta.
  destruct (sqrt_op d m B Fm Hm ltac:(lra) RB RB64) as (Fs & Ls & Gs).
  destruct (add_op (elem_sqrt d m) e (2 * B) Fs Fe RB2) as (Ft & _ & Nt); [rewrite Rabs_right by lra; lra|].
  rewrite (Rabs_right (_ + _)) in Nt by lra. apply rabs_le in Nt. pose proof u_le as HU. pose proof h_le as Hh.
  pose proof (sqrt_pos (real m)) as Pr. set (r := sqrt (real m)) in *. set (t := real (fadd (elem_sqrt d m) e)) in *. set (s := real (elem_sqrt d m)) in *.
  assert (Hh2 : 2 * h <= U * / 2 ^ 35). { apply Rle_trans with (2 * / 2 ^ 150); [lra|]. apply Rle_trans with (/ 2 ^ 60 * / 2 ^ 35); [lra|]. apply Rmult_le_compat_r; [lra|]. apply Rle_trans with (/ 2 ^ 53); [lra|]. destruct d; unfold u; lra. }
  assert (T : (1 - 4 * U) * (r + real e) <= t).
  { clear Hm Hv. set (uu := U) in *. set (hh := h) in *. clearbody uu hh r s. set (tt := t) in *. clearbody tt. set (ee := real e) in *. clearbody ee.
    assert (X1 : (1 - uu) * (s + ee) <= tt) by lra. assert (X2 : uu < / 1000) by lra.
    assert (X3 : 2 * hh <= uu * ee) by (eapply Rle_trans; [exact Hh2|]; apply Rmult_le_compat_l; lra).
    assert (X4 : (1 - 3 * uu) * (r + ee) <= s + ee) by nra.
    assert (X5 : (1 - uu) * ((1 - 3 * uu) * (r + ee)) <= (1 - uu) * (s + ee)) by (apply Rmult_le_compat_l; lra).
    eapply Rle_trans; [|exact X1]. eapply Rle_trans; [|exact X5]. rewrite <- Rmult_assoc. apply Rmult_le_compat_r; [lra|]. clear - X2 HU. nra. }
  assert (Pt : 0 < t). { assert (0 < r + real e) by lra. assert (0 < (1 - 4 * U)) by lra. assert (0 < (1 - 4 * U) * (r + real e)) by (apply Rmult_lt_0_compat; assumption). lra. }
  assert (W : Rabs (real v) <= K * (1 + / 2 ^ 25) * (r + real e)).
  { assert (w <= / 2 ^ 25 * real e). { apply Rle_trans with (/ 2 ^ 60); [lra|]. apply Rle_trans with (/ 2 ^ 25 * / 2 ^ 35); [lra|]. apply Rmult_le_compat_l; lra. }
    assert (K * w <= K * (/ 2 ^ 25 * real e)) by (apply Rmult_le_compat_l; lra).
    assert (0 <= K * r) by (apply Rmult_le_pos; lra). assert (0 <= K * real e) by (apply Rmult_le_pos; lra). lra. }
  assert (Q : Rabs (real v / t) <= K * (1 + / 2 ^ 21)).
  { unfold Rdiv. rewrite Rabs_mult, Rabs_inv, (Rabs_right t) by lra. apply Rmult_le_reg_r with t; [exact Pt|]. rewrite Rmult_assoc, Rinv_l, Rmult_1_r by lra.
    eapply Rle_trans; [exact W|]. apply Rle_trans with (K * (1 + / 2 ^ 21) * ((1 - 4 * U) * (r + real e))).
    - rewrite !Rmult_assoc. apply Rmult_le_compat_l; [lra|]. rewrite <- Rmult_assoc. apply Rmult_le_compat_r; [lra|]. clear - HU. nra.
    - apply Rmult_le_compat_l; [apply Rmult_le_pos; lra|exact T]. }
  destruct (div_op v (fadd (elem_sqrt d m) e) (2 ^ 13) Fv) as (Fq & _ & Nq).
  { fold t. lra. } { apply rep_two. destruct d; reflexivity. } { fold t. eapply Rle_trans; [exact Q|]. lra. }
  split; [exact Fq|]. apply near_le in Nq. fold t in Nq.
  eapply Rle_trans; [exact Nq|]. apply Rle_trans with ((1 + U) * (K * (1 + / 2 ^ 21)) + h); [apply Rplus_le_compat_r, Rmult_le_compat_l; [lra|exact Q]|].
  assert (h <= K * / 2 ^ 150) by lra. replace ((1 + U) * (K * (1 + / 2 ^ 21)) + h) with (K * ((1 + U) * (1 + / 2 ^ 21)) + h) by ring.
  apply Rle_trans with (K * ((1 + U) * (1 + / 2 ^ 21)) + K * / 2 ^ 150); [lra|]. rewrite <- Rmult_plus_distr_l. apply Rmult_le_compat_l; [lra|]. lra.
Qed.
(** q * alpha *)
Lemma scaled_op (q a : val d) K A : finite q -> finite a -> 1 <= K <= 2 ^ 12 -> 0 <= real a <= A -> A <= 2 ^ 20 -> Rabs (real q) <= K * (1 + / 2 ^ 20) ->
  finite (fmul q a) /\ Rabs (real (fmul q a)) <= K * A * (1 + / 2 ^ 19) + h.
Proof.
  intros Fq Fa HK Ha HA Hq. pose proof u_le as HU.
  assert (P : Rabs (real q * real a) <= K * (1 + / 2 ^ 20) * A). { rewrite Rabs_mult, (Rabs_right (real a)) by lra. apply Rmult_le_compat; try lra; apply Rabs_pos. }
  destruct (mul_op q a (2 ^ 40) Fq Fa) as (F & _ & N).
  { apply rep_two. destruct d; reflexivity. }
  { eapply Rle_trans; [exact P|]. apply Rle_trans with (2 ^ 12 * 2 * 2 ^ 20); [|lra]. apply Rmult_le_compat; lra. }
  split; [exact F|]. apply near_le in N. eapply Rle_trans; [exact N|]. apply Rplus_le_compat_r.
  apply Rle_trans with ((1 + U) * (K * (1 + / 2 ^ 20) * A)); [apply Rmult_le_compat_l; lra|].
  replace ((1 + U) * (K * (1 + / 2 ^ 20) * A)) with (K * A * ((1 + U) * (1 + / 2 ^ 20))) by ring. apply Rmult_le_compat_l; [apply Rmult_le_pos; lra|]. lra.
Qed.
(** x - delta: how far it moves; and a number that is large compared with delta does not grow *)
Lemma absorbed k D : (3 - emax d < k)%Z -> 0 <= D -> D < bpow radix2 (k - prec d) -> nearest d (bpow radix2 k + D) <= bpow radix2 k.
Proof.
  intros Hk HD H. rewrite nearest_eq.
  set (fx := SpecFloat.fexp (prec d) (emax d)).
  assert (V : Valid_exp fx) by (apply (@FLT_exp_valid (3 - emax d - prec d) (prec d) (prec_pos d))).
  assert (Fk : generic_format radix2 fx (bpow radix2 k)).
  { apply generic_format_bpow. unfold fx, SpecFloat.fexp, SpecFloat.emin. destruct d; cbn in *; lia. }
  assert (UL : ulp radix2 fx (bpow radix2 k) = bpow radix2 (k + 1 - prec d)).
  { rewrite ulp_bpow. f_equal. unfold fx, SpecFloat.fexp, SpecFloat.emin. destruct d; cbn in *; lia. }
  apply (round_N_le_midp radix2 fx (fun x => negb (Z.even x))); [exact Fk|].
  rewrite succ_eq_pos by apply bpow_ge_0. rewrite UL. replace (k + 1 - prec d)%Z with (1 + (k - prec d))%Z by lia. rewrite bpow_plus. change (bpow radix2 1) with 2. lra.
Qed.
End Elem.
