(** * Optimizers in floating point: settings, and the move of a parameter *)
From Coq Require Import ZArith Bool Lia List Arith Reals Lra Psatz.
From Flocq Require Import Core BinarySingleNaN Relative.
From Verif Require Import FloatModel FloatSpec FloatProofs NumModel NumSpec NumLemmas AsmFloatSpec AsmFloat OptFloatModel OptFloatSpec OptFloatNum OptFloatNum2.
Import ListNotations.
Local Open Scope R_scope.

Lemma nearest_opp d r : nearest d (- r) = - nearest d r.
Proof. unfold nearest. apply round_NE_opp. Qed.
Lemma power_above B : 0 < B -> exists k, B < bpow radix2 k <= 2 * B.
Proof.
  intros H. destruct (mag radix2 B) as (k & E). specialize (E (Rgt_not_eq _ _ H)). rewrite Rabs_right in E by lra. exists k. split; [apply E|].
  replace k with (1 + (k - 1))%Z by lia. rewrite bpow_plus. change (bpow radix2 1) with 2. lra.
Qed.
Section Move.
Variable d : dtype.
Notation U := (u d).
Notation h := (half_tiny d).
Lemma move_op (x y : val d) k D Y : finite x -> finite y -> Rabs (real y) <= Y -> Rabs (real x - real y) <= bpow radix2 k + D -> 0 <= D -> (3 - emax d < k)%Z -> (k + 1 < emax d)%Z ->
  D < bpow radix2 (k - prec d) -> finite (fsub x y) /\ Rabs (real (fsub x y)) <= bpow radix2 k /\ Rabs (real (fsub x y) - real x) <= (1 + U) * Y + U * Rabs (real x).
Proof.
  intros Fx Fy HY T P K1 K2 H. assert (D < bpow radix2 k). { eapply Rlt_le_trans; [exact H|]. apply bpow_le. destruct d; cbn; lia. }
  destruct (sub_op x y (bpow radix2 (k + 1)) Fx Fy) as (F & _ & N & E).
  { apply rep_bpow; [destruct d; cbn in *; lia|exact K2]. } { rewrite bpow_plus. change (bpow radix2 1) with 2. lra. }
  split; [exact F|]. split.
  - rewrite E. apply le_rabs. apply rabs_le in T. pose proof (absorbed d k D K1 P H) as AB.
    split; [|eapply Rle_trans; [apply nearest_le, T|exact AB]].
    apply Ropp_le_cancel. rewrite Ropp_involutive, <- nearest_opp. eapply Rle_trans; [apply nearest_le|exact AB]. lra.
  - pose proof (Rabs_triang (real (fsub x y) - (real x - real y)) (- real y)) as T2. rewrite Rabs_Ropp in T2.
    replace (real (fsub x y) - (real x - real y) + - real y) with (real (fsub x y) - real x) in T2 by ring. eapply Rle_trans; [exact T2|].
    pose proof (Rabs_triang (real x) (- real y)) as T3. rewrite Rabs_Ropp in T3. fold (real x - real y) in T3. pose proof (u_pos d).
    assert (U * Rabs (real x - real y) <= U * (Rabs (real x) + Y)) by (apply Rmult_le_compat_l; lra). lra.
Qed.

(** ** Settings after their conversion *)
Lemma conv_rate A (a : val F64) : rate A a -> A <= 2 ^ 19 -> finite (conv F64 d a) /\ 0 <= real (conv F64 d a) <= real a * (1 + U) + h /\ real a * (1 + U) + h <= 2 ^ 20.
Proof.
  intros (F & H) HA. assert (R : rep d (2 ^ 20)) by (apply rep_two; destruct d; reflexivity).
  destruct (conv_op (d := d) a (2 ^ 20) F R) as (Fc & _ & N); [rewrite Rabs_right by lra; lra|].
  destruct (conv_in F64 d a 0 (2 ^ 20) F (rep_0 d) R) as (_ & P & _); [lra|]. pose proof (u_small d). pose proof (tiny_small d).
  split; [exact Fc|]. apply near_le in N. rewrite !Rabs_right in N by lra. split; [lra|]. nra.
Qed.
Lemma conv_guard (e : val F64) : guard e -> finite (conv F64 d e) /\ / 2 ^ 35 <= real (conv F64 d e) <= 1.
Proof.
  intros (F & H). destruct (conv_in F64 d e (/ 2 ^ 35) 1 F) as (Fc & P & _); [|apply rep_1|lra|auto].
  replace (/ 2 ^ 35) with (bpow radix2 (-35)); [apply rep_bpow; destruct d; cbn; lia|].
  change (-35)%Z with (- Z.of_nat 35)%Z. rewrite bpow_opp, <- pow2. reflexivity.
Qed.
(** the factor b *)
Lemma conv_factor (b : val F64) : finite b -> 0 <= real b <= 1 -> finite (conv F64 d b) /\ 0 <= real (conv F64 d b) <= 1 /\ Rabs (real (conv F64 d b) - real b) <= U * real b + h.
Proof.
  intros F H. destruct (conv_in F64 d b 0 1 F (rep_0 d) (rep_1 d) H) as (Fc & P & E). split; [exact Fc|]. split; [exact P|].
  rewrite E. pose proof (round_error d (real b)) as R. rewrite (Rabs_right (real b)) in R by lra. exact R.
Qed.
Lemma u_64 : u F64 <= U.
Proof. destruct d; [|lra]. unfold u. apply Rinv_le_contravar; [apply pow_lt; lra|apply Rle_pow; [lra|lia]]. Qed.
(** the factor 1 - b *)
Lemma conv_complement (b : val F64) : finite b -> 0 <= real b <= 1 - / 2 ^ 14 ->
  finite (conv F64 d (fsub fone b)) /\ 0 <= real (conv F64 d (fsub fone b)) <= 1 /\ Rabs (real (conv F64 d (fsub fone b)) - (1 - real b)) <= 3 * U * (1 - real b).
Proof.
  intros F H. destruct (one_eq F64) as (F1 & E1).
  destruct (sub_op fone b 1 F1 F (rep_1 F64)) as (F2 & B2 & N2 & _); [rewrite E1, Rabs_right by lra; lra|]. rewrite E1 in N2.
  destruct (sub_in F64 fone b 0 1 F1 F (rep_0 F64) (rep_1 F64)) as (_ & P2 & _); [rewrite E1; lra|].
  destruct (conv_factor (fsub fone b) F2 P2) as (F3 & P3 & N3). split; [exact F3|]. split; [exact P3|].
  rewrite (Rabs_right (1 - real b)) in N2 by lra. pose proof u_64. pose proof (u_small d). pose proof (tiny_small d).
  set (c := real (fsub fone b)) in *. clearbody c. set (c' := real (conv F64 d (fsub fone b))) in *. clearbody c'. set (s := 1 - real b) in *.
  assert (Hs : / 2 ^ 14 <= s <= 1) by (unfold s; lra). clearbody s.
  assert (Hh : h <= / 2 ^ 10 * U * s).
  { apply Rle_trans with (/ 2 ^ 10 * / 2 ^ 53 * / 2 ^ 14); [lra|]. apply Rmult_le_compat; try lra. apply Rmult_le_compat_l; [lra|]. destruct d; unfold u; lra. }
  apply rabs_le in N2, N3. assert (u F64 * s <= U * s) by (apply Rmult_le_compat_r; lra).
  assert (c <= s * (1 + U)) by lra. assert (U * c <= U * (s * (1 + U))) by (apply Rmult_le_compat_l; lra).
  assert (U * (U * s) <= / 2 ^ 10 * (U * s)) by (apply Rmult_le_compat_r; [apply Rmult_le_pos; lra|lra]).
  apply le_rabs. split; lra.
Qed.
Lemma conv_averages K (b1 b2 : val F64) : averages K b1 b2 ->
  let p1 := real (conv F64 d b1) in let q1 := real (conv F64 d (fsub fone b1)) in let p2 := real (conv F64 d b2) in let q2 := real (conv F64 d (fsub fone b2)) in
  finite (conv F64 d b1) /\ finite (conv F64 d (fsub fone b1)) /\ finite (conv F64 d b2) /\ finite (conv F64 d (fsub fone b2)) /\
  0 <= p1 /\ p1 <= 1 - / 2 ^ 11 /\ 0 <= q1 <= 1 /\ p1 + q1 <= 1 + / 2 ^ 20 /\ / 4 <= p2 <= 1 - / 2 ^ 15 /\ 0 < q2 <= 1 /\ p2 + q2 <= 1 + / 2 ^ 20 /\
  p1 ^ 2 * K ^ 2 * q2 + q1 ^ 2 * p2 <= (1 - / 2 ^ 17) * (K ^ 2 * p2 * q2).
Proof.
  intros (HK & F1 & H1 & F2 & H2 & HC). cbv zeta.
  destruct (conv_factor b1 F1 ltac:(lra)) as (Fa & Pa & Na). destruct (conv_complement b1 F1 ltac:(lra)) as (Fb & Pb & Nb).
  destruct (conv_factor b2 F2 ltac:(lra)) as (Fc & Pc & Nc). destruct (conv_complement b2 F2 ltac:(lra)) as (Fe & Pe & Ne).
  set (p1 := real (conv F64 d b1)) in *. set (q1 := real (conv F64 d (fsub fone b1))) in *. set (p2 := real (conv F64 d b2)) in *. set (q2 := real (conv F64 d (fsub fone b2))) in *.
  clearbody p1 q1 p2 q2. set (x := real b1) in *. set (y := real b2) in *. clearbody x y.
  do 4 (split; [assumption|]). pose proof (u_small d) as HU. pose proof (tiny_small d) as Hh. apply rabs_le in Na, Nb, Nc, Ne.
  assert (Hh2 : h <= / 2 ^ 10 * U). { apply Rle_trans with (/ 2 ^ 10 * / 2 ^ 53); [lra|]. apply Rmult_le_compat_l; [lra|]. destruct d; unfold u; lra. }
  set (uu := U) in *. set (hh := h) in *. clearbody uu hh.
  assert (Zx : 0 <= uu * x) by (apply Rmult_le_pos; lra). assert (Zy : 0 <= uu * y) by (apply Rmult_le_pos; lra).
  assert (Ux' : uu * (1 - x) <= uu) by lra. assert (Uy' : uu * (1 - y) <= uu) by lra.
  assert (Ux : uu * x <= uu * 1) by (apply Rmult_le_compat_l; lra). assert (Uy : uu * y <= uu * 1) by (apply Rmult_le_compat_l; lra).
  split; [lra|]. split; [lra|]. split; [lra|]. split; [lra|]. split; [lra|].
  assert (Hq2 : (1 - 3 * uu) * (1 - y) <= q2) by lra. assert (Q2 : 0 < q2) by (eapply Rlt_le_trans; [apply Rmult_lt_0_compat|exact Hq2]; lra).
  split; [lra|]. split; [lra|].
  (* the condition *)
  assert (HC' : x ^ 2 * K ^ 2 * (1 - y) + (1 - x) ^ 2 * y <= (1 - / 2 ^ 16) * (K ^ 2 * y * (1 - y))).
  { assert (PP : 0 < K ^ 2 * y * (1 - y)). { apply Rmult_lt_0_compat; [apply Rmult_lt_0_compat; [apply pow_lt; lra|lra]|lra]. }
    apply Rmult_le_compat_r with (r := K ^ 2 * y * (1 - y)) in HC; [|lra]. eapply Rle_trans; [|exact HC]. right. field. repeat split; lra. }
  assert (A1 : p1 ^ 2 <= (1 + 4 * uu) * x ^ 2 + 4 * hh).
  { assert (p1 <= (1 + uu) * x + hh) by lra. assert (p1 ^ 2 <= ((1 + uu) * x + hh) ^ 2) by (apply pow_incr; lra). eapply Rle_trans; [eassumption|].
    assert (X1 : (1 + uu) ^ 2 * x ^ 2 <= (1 + 4 * uu) * x ^ 2) by (apply Rmult_le_compat_r; [apply pow2_ge_0|clear - HU; nra]).
    assert (X2 : (2 * (1 + uu) * x) * hh <= 3 * hh). { apply Rmult_le_compat_r; [lra|]. assert ((1 + uu) * x <= (1 + uu) * 1) by (apply Rmult_le_compat_l; lra). lra. }
    assert (X3 : hh * hh <= 1 * hh) by (apply Rmult_le_compat_r; lra).
    replace (((1 + uu) * x + hh) ^ 2) with ((1 + uu) ^ 2 * x ^ 2 + (2 * (1 + uu) * x) * hh + hh * hh) by ring. lra. }
  assert (A2 : q1 ^ 2 <= (1 + 7 * uu) * (1 - x) ^ 2).
  { assert (q1 <= (1 + 3 * uu) * (1 - x)) by lra. assert (q1 ^ 2 <= ((1 + 3 * uu) * (1 - x)) ^ 2) by (apply pow_incr; lra). eapply Rle_trans; [eassumption|]. rewrite Rpow_mult_distr. apply Rmult_le_compat_r; [apply pow2_ge_0|]. clear - HU. nra. }
  assert (Uy2 : uu * / 2 <= uu * y) by (apply Rmult_le_compat_l; lra).
  assert (A3 : p2 <= (1 + 2 * uu) * y) by lra. assert (A4 : q2 <= (1 + 3 * uu) * (1 - y)) by lra.
  assert (A5 : y <= (1 + 3 * uu) * p2). { assert ((1 - 2 * uu) * y <= p2) by lra. clear - H HU H2 . assert ((1 + 3 * uu) * ((1 - 2 * uu) * y) <= (1 + 3 * uu) * p2) by (apply Rmult_le_compat_l; lra). nra. }
  assert (A6 : 1 - y <= (1 + 4 * uu) * q2). { assert ((1 + 4 * uu) * ((1 - 3 * uu) * (1 - y)) <= (1 + 4 * uu) * q2) by (apply Rmult_le_compat_l; lra). clear - H HU H2. nra. }
  assert (KK : 1 <= K ^ 2) by (clear - HK; nra).
  assert (B1 : p1 ^ 2 * K ^ 2 * q2 <= (1 + 8 * uu) * (x ^ 2 * K ^ 2 * (1 - y)) + 4 * hh * (K ^ 2 * q2)).
  { apply Rle_trans with (((1 + 4 * uu) * x ^ 2 + 4 * hh) * (K ^ 2 * q2)).
    - rewrite Rmult_assoc. apply Rmult_le_compat_r; [|exact A1]. apply Rmult_le_pos; lra.
    - rewrite Rmult_plus_distr_r. apply Rplus_le_compat_r. apply Rle_trans with ((1 + 4 * uu) * x ^ 2 * (K ^ 2 * ((1 + 3 * uu) * (1 - y)))).
      + apply Rmult_le_compat_l; [apply Rmult_le_pos; [lra|apply pow2_ge_0]|]. apply Rmult_le_compat_l; lra.
      + replace ((1 + 4 * uu) * x ^ 2 * (K ^ 2 * ((1 + 3 * uu) * (1 - y)))) with ((1 + 4 * uu) * (1 + 3 * uu) * (x ^ 2 * K ^ 2 * (1 - y))) by ring.
        apply Rmult_le_compat_r; [|clear - HU; nra]. apply Rmult_le_pos; [apply Rmult_le_pos; [apply pow2_ge_0|lra]|lra]. }
  assert (B2 : q1 ^ 2 * p2 <= (1 + 10 * uu) * ((1 - x) ^ 2 * y)).
  { apply Rle_trans with ((1 + 7 * uu) * (1 - x) ^ 2 * ((1 + 2 * uu) * y)); [apply Rmult_le_compat; try lra; apply pow2_ge_0|].
    replace ((1 + 7 * uu) * (1 - x) ^ 2 * ((1 + 2 * uu) * y)) with ((1 + 7 * uu) * (1 + 2 * uu) * ((1 - x) ^ 2 * y)) by ring.
    apply Rmult_le_compat_r; [|clear - HU; nra]. apply Rmult_le_pos; [apply pow2_ge_0|lra]. }
  assert (B3 : K ^ 2 * y * (1 - y) <= (1 + 8 * uu) * (K ^ 2 * p2 * q2)).
  { apply Rle_trans with (K ^ 2 * ((1 + 3 * uu) * p2) * ((1 + 4 * uu) * q2)).
    - apply Rmult_le_compat; try lra; [apply Rmult_le_pos; lra|]. apply Rmult_le_compat_l; lra.
    - replace (K ^ 2 * ((1 + 3 * uu) * p2) * ((1 + 4 * uu) * q2)) with ((1 + 3 * uu) * (1 + 4 * uu) * (K ^ 2 * p2 * q2)) by ring.
      apply Rmult_le_compat_r; [|clear - HU; nra]. apply Rmult_le_pos; [apply Rmult_le_pos; lra|lra]. }
  assert (P3 : 0 <= (1 - x) ^ 2 * y) by (apply Rmult_le_pos; [apply pow2_ge_0|lra]).
  assert (P4 : 0 <= x ^ 2 * K ^ 2 * (1 - y)) by (apply Rmult_le_pos; [apply Rmult_le_pos; [apply pow2_ge_0|lra]|lra]).
  set (S := K ^ 2 * p2 * q2) in *. assert (PS : 0 <= S) by (apply Rmult_le_pos; [apply Rmult_le_pos; lra|lra]).
  assert (Up : uu * / 4 <= uu * p2) by (apply Rmult_le_compat_l; lra).
  assert (B4 : 4 * hh * (K ^ 2 * q2) <= uu * S). { unfold S. replace (uu * (K ^ 2 * p2 * q2)) with (uu * p2 * (K ^ 2 * q2)) by ring. apply Rmult_le_compat_r; [apply Rmult_le_pos; lra|lra]. }
  clearbody S. set (L1 := x ^ 2 * K ^ 2 * (1 - y)) in *. set (L2 := (1 - x) ^ 2 * y) in *. set (T := K ^ 2 * y * (1 - y)) in *. clearbody L1 L2 T.
  apply Rle_trans with ((1 + 10 * uu) * (L1 + L2) + uu * S); [clear - B1 B2 B4 P3 P4 HU; nra|].
  apply Rle_trans with ((1 + 10 * uu) * ((1 - / 2 ^ 16) * ((1 + 8 * uu) * S)) + uu * S).
  - apply Rplus_le_compat_r. apply Rmult_le_compat_l; [lra|]. eapply Rle_trans; [exact HC'|]. apply Rmult_le_compat_l; lra.
  - replace ((1 + 10 * uu) * ((1 - / 2 ^ 16) * ((1 + 8 * uu) * S)) + uu * S) with (((1 + 10 * uu) * (1 - / 2 ^ 16) * (1 + 8 * uu) + uu) * S) by ring.
    apply Rmult_le_compat_r; [exact PS|]. assert ((1 + 10 * uu) * (1 + 8 * uu) <= 1 + 19 * uu) by (clear - HU; nra).
    replace ((1 + 10 * uu) * (1 - / 2 ^ 16) * (1 + 8 * uu)) with ((1 + 10 * uu) * (1 + 8 * uu) * (1 - / 2 ^ 16)) by ring.
    assert ((1 + 10 * uu) * (1 + 8 * uu) * (1 - / 2 ^ 16) <= (1 + 19 * uu) * (1 - / 2 ^ 16)) by (apply Rmult_le_compat_r; lra). lra.
Qed.
End Move.
