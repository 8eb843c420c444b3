(** * Optimizers in floating point: the rates *)
From Coq Require Import ZArith Bool Lia List Arith Reals Lra Psatz.
From Flocq Require Import Core BinarySingleNaN Relative.
From Verif Require Import FloatModel FloatSpec FloatProofs NumModel NumSpec NumLemmas AsmFloatSpec AsmFloat OptFloatModel OptFloatSpec OptFloatNum OptFloatNum2 OptFloatNum3.
Local Open Scope R_scope.

Lemma u64_small : u F64 <= / 2 ^ 50. Proof. unfold u. lra. Qed.
(** one minus a power *)
Lemma complement_op (p b : val F64) : finite p -> 0 <= real p <= real b + / 2 ^ 40 -> real b <= 1 - / 2 ^ 14 ->
  finite (fsub fone p) /\ 0 <= real (fsub fone p) <= 1 /\ (1 - real b) * (1 - / 2 ^ 24) <= real (fsub fone p).
Proof.
  intros F H Hb. destruct (one_eq F64) as (F1 & E1). destruct (sub_in F64 fone p 0 1 F1 F (rep_0 F64) (rep_1 F64)) as (F2 & P2 & E2); [rewrite E1; lra|].
  split; [exact F2|]. split; [exact P2|]. destruct (sub_op fone p 1 F1 F (rep_1 F64)) as (_ & _ & N & _); [rewrite E1, Rabs_right; lra|]. rewrite E1, (Rabs_right (1 - real p)) in N by lra.
  apply rabs_le in N. pose proof u64_small as HU. pose proof (u_pos F64). set (uu := u F64) in *. clearbody uu. set (z := real (fsub fone p)) in *. clearbody z.
  assert (uu * (1 - real p) <= / 2 ^ 50 * (1 - real p)) by (apply Rmult_le_compat_r; lra). lra.
Qed.
Lemma root_unit (x : val F64) : finite x -> 0 <= real x <= 1 -> finite (sqrt64 x) /\ 0 <= real (sqrt64 x) <= 1 /\ sqrt (real x) * (1 - / 2 ^ 40) - / 2 ^ 150 <= real (sqrt64 x).
Proof.
  intros F H. destruct (sqrt64_spec x F (proj1 H)) as (Fs & E). split; [exact Fs|]. pose proof (sqrt_pos (real x)) as P. rewrite E. split.
  - split; [now apply nearest_pos|]. destruct (rep_1 F64) as (R & _). apply Rle_trans with (nearest F64 1); [|rewrite R; lra]. apply nearest_le. rewrite <- sqrt_1. apply sqrt_le_1_alt. lra.
  - pose proof (round_error F64 (sqrt (real x))) as N. rewrite (Rabs_right (sqrt (real x))) in N by lra. apply rabs_le in N. pose proof u64_small. pose proof (tiny_small F64).
    assert (u F64 * sqrt (real x) <= / 2 ^ 50 * sqrt (real x)) by (apply Rmult_le_compat_r; lra). lra.
Qed.
Section Rates.
Variables (m : libm) (step b1 b2 : val F64) (S : R).
Hypothesis P1 : powers m b1.
Hypothesis P2 : powers m b2.
Hypothesis Hs : rate S step.
Hypothesis HS : S <= 2 ^ 8.
Hypothesis H1 : 0 <= real b1 <= 1 - / 2 ^ 10.
Hypothesis H2 : 0 <= real b2 <= 1 - / 2 ^ 14.
Lemma adam_alpha_rate ts : (1 <= ts)%nat -> rate (S / (1 - real b1) * (1 + / 2 ^ 20) + half_tiny F64) (adam_alpha m step b1 b2 ts).
Proof.
  intros Hts. unfold adam_alpha. destruct (P1 ts Hts) as (Fp1 & Lp1). destruct (P2 ts Hts) as (Fp2 & Lp2). set (p1 := Pow m b1 (of_step ts)) in *. set (p2 := Pow m b2 (of_step ts)) in *.
  destruct (complement_op p1 b1 Fp1 Lp1 ltac:(lra)) as (Fc & Pc & Lc). destruct (complement_op p2 b2 Fp2 Lp2 ltac:(lra)) as (Fe & Pe & _).
  destruct (root_unit _ Fe Pe) as (Fr & Pr & _). set (cc := fsub fone p1) in *. set (rr := sqrt64 (fsub fone p2)) in *. destruct Hs as (Fs & Ps).
  destruct (mul_in F64 step rr 0 (real step) Fs Fr (rep_0 F64) (rep_real F64 step Fs)) as (Fn & Pn & _).
  { split; [apply Rmult_le_pos; lra|]. apply Rle_trans with (real step * 1); [apply Rmult_le_compat_l|]; lra. }
  set (nn := fmul step rr) in *. assert (C0 : / 2 ^ 11 <= real cc) by lra.
  assert (Q : 0 <= real nn / real cc <= S / (1 - real b1) * (1 + / 2 ^ 22)).
  { split; [apply Rmult_le_pos; [lra|apply Rlt_le, Rinv_0_lt_compat; lra]|].
    apply Rmult_le_reg_r with (real cc); [lra|]. unfold Rdiv at 1. rewrite Rmult_assoc, Rinv_l, Rmult_1_r by lra.
    apply Rle_trans with (S / (1 - real b1) * (1 + / 2 ^ 22) * ((1 - real b1) * (1 - / 2 ^ 24))).
    - replace (S / (1 - real b1) * (1 + / 2 ^ 22) * ((1 - real b1) * (1 - / 2 ^ 24))) with (S * ((1 + / 2 ^ 22) * (1 - / 2 ^ 24))) by (field; lra). assert (S * 1 <= S * ((1 + / 2 ^ 22) * (1 - / 2 ^ 24))) by (apply Rmult_le_compat_l; lra). lra.
    - apply Rmult_le_compat_l; [|exact Lc]. apply Rmult_le_pos; [apply Rmult_le_pos; [lra|apply Rlt_le, Rinv_0_lt_compat; lra]|lra]. }
  assert (QS : S / (1 - real b1) <= 2 ^ 18). { apply Rmult_le_reg_r with (1 - real b1); [lra|]. unfold Rdiv. rewrite Rmult_assoc, Rinv_l, Rmult_1_r by lra. assert (2 ^ 18 * / 2 ^ 10 <= 2 ^ 18 * (1 - real b1)) by (apply Rmult_le_compat_l; lra). lra. }
  assert (Q0 : 0 <= S / (1 - real b1)) by (apply Rmult_le_pos; [lra|apply Rlt_le, Rinv_0_lt_compat; lra]). set (q := S / (1 - real b1)) in *. clearbody q.
  destruct (div_in F64 nn cc 0 (2 ^ 20) Fn ltac:(lra) (rep_0 F64) (rep_two F64 20 ltac:(reflexivity))) as (F & P & E); [lra|].
  split; [exact F|]. split; [apply P|]. rewrite E. pose proof (round_error F64 (real nn / real cc)) as N. rewrite (Rabs_right (real nn / real cc)) in N by lra. apply rabs_le in N. pose proof u64_small.
  assert (u F64 * (real nn / real cc) <= / 2 ^ 50 * (real nn / real cc)) by (apply Rmult_le_compat_r; lra). lra.
Qed.
Lemma radam_guard eps ts : (1 <= ts)%nat -> guard eps -> / 2 ^ 67 <= real eps ^ 2 * (1 - real b2) -> guard (fmul eps (radam_root m b2 ts)).
Proof.
  intros Hts (Fe & He) Hg. unfold radam_root. destruct (P2 ts Hts) as (Fp2 & Lp2). set (p2 := Pow m b2 (of_step ts)) in *.
  destruct (complement_op p2 b2 Fp2 Lp2 ltac:(lra)) as (Fc & Pc & Lc). destruct (root_unit _ Fc Pc) as (Fr & Pr & Lr). set (rr := sqrt64 (fsub fone p2)) in *.
  destruct (mul_in F64 eps rr 0 1 Fe Fr (rep_0 F64) (rep_1 F64)) as (F & P & E).
  { split; [apply Rmult_le_pos; lra|]. apply Rle_trans with (1 * 1); [apply Rmult_le_compat|]; lra. }
  split; [exact F|]. split; [|apply P]. rewrite E.
  destruct (rep_bpow F64 (-34) ltac:(cbn; lia) ltac:(reflexivity)) as (R & _).
  assert (E34 : bpow radix2 (-34) = / 2 ^ 34). { change (-34)%Z with (- Z.of_nat 34)%Z. now rewrite bpow_opp, <- pow2. } rewrite E34 in R. rewrite <- R. apply nearest_le.
  (* the root of 1 - b2, times eps, is at least the root of 2^-67 *)
  set (z := real (fsub fone p2)) in *. pose proof (sqrt_pos z) as Pz.
  assert (S1 : / 2 ^ 34 * (1 + / 2 ^ 10) <= real eps * sqrt z).
  { apply Rsqr_incr_0; [|lra|apply Rmult_le_pos; lra]. rewrite (Rsqr_mult (real eps)), Rsqr_sqrt by lra. unfold Rsqr.
    assert (real eps * real eps * ((1 - real b2) * (1 - / 2 ^ 24)) <= real eps * real eps * z). { apply Rmult_le_compat_l; [apply Rmult_le_pos; lra|lra]. }
    assert (X : / 2 ^ 67 * (1 - / 2 ^ 24) <= real eps ^ 2 * (1 - real b2) * (1 - / 2 ^ 24)) by (apply Rmult_le_compat_r; lra). lra. }
  assert (S2 : real eps * (sqrt z * (1 - / 2 ^ 40) - / 2 ^ 150) <= real eps * real rr) by (apply Rmult_le_compat_l; lra).
  assert (real eps * / 2 ^ 150 <= 1 * / 2 ^ 150) by (apply Rmult_le_compat_r; lra). set (es := real eps * sqrt z) in *.
  replace (real eps * (sqrt z * (1 - / 2 ^ 40) - / 2 ^ 150)) with (es * (1 - / 2 ^ 40) - real eps * / 2 ^ 150) in S2 by (unfold es; ring). lra.
Qed.
End Rates.
