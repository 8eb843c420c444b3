(** * The gradients of FixNorm and RMSNorm: the accuracy *)
From Coq Require Import ZArith Bool Lia List Arith Reals Lra Psatz.
From Flocq Require Import Core BinarySingleNaN.
From Verif Require Import FloatModel FloatSpec NumModel NumSpec NumLemmas AsmFloatSpec AsmFloat AsmFloat2 AsmModel AsmCalls AsmSpec OptFloatModel OptFloatNum NormFloatModel NormFloatSpec NormFloatNum NormFloatProofs NormFloatProofs2 NormFloatBack NormFloatBack2.
Import ListNotations.
Local Open Scope R_scope.

(** ** Half of one over the root *)
(** a lower and an upper bound of one over the root *)
Definition p_min (d : dtype) : R := match d with F32 => / 2 ^ 60 | F64 => / 2 ^ 465 end.
Definition p_max (d : dtype) : R := match d with F32 => 2 ^ 75 | F64 => 2 ^ 537 end.
Lemma p_facts d : 0 < p_min d /\ half_tiny d <= u d * p_min d / 8 /\ 1 <= p_max d /\ rep d (2 * p_max d) /\ rep F64 (2 * p_max d) /\ p_min d * p_min d * s_max d <= 1 /\ 1 <= p_max d * p_max d * (2 * half_tiny d) /\ p_max d * half_tiny d <= match d with F32 => / 2 ^ 75 | F64 => / 2 ^ 538 end.
Proof.
  unfold p_min, p_max, s_max, half_tiny, u. destruct d.
  - assert (E : 2 * 2 ^ 75 = 2 ^ 76) by (cbn [pow]; ring). rewrite E. split; [apply Rinv_0_lt_compat, pow_lt; lra|]. split; [lra|]. split; [apply pow_R1_Rle; lra|]. split; [apply rep_pow2; cbn; lia|]. split; [apply rep_pow2; cbn; lia|]. lra.
  - assert (E : 2 * 2 ^ 537 = 2 ^ 538) by (cbn [pow]; ring). rewrite E. split; [apply Rinv_0_lt_compat, pow_lt; lra|]. split.
    { replace (/ 2 ^ 53 * / 2 ^ 465 / 8) with (/ 2 ^ 521); [apply Rinv_le_contravar; [apply pow_lt; lra|apply Rle_pow; [lra|lia]]|]. replace 521%nat with (53 + (465 + 3))%nat by lia. rewrite !pow_add, !Rinv_mult. replace (/ 2 ^ 3) with (/ 8) by lra. unfold Rdiv. ring. }
    split; [apply pow_R1_Rle; lra|]. split; [apply rep_pow2; cbn; lia|]. split; [apply rep_pow2; cbn; lia|]. split; [|split].
    + rewrite <- Rinv_mult, <- pow_add. change (465 + 465)%nat with 930%nat. apply Req_le, Rinv_l, pow_nonzero. lra.
    + rewrite <- pow_add. change (537 + 537)%nat with 1074%nat. replace 1075%nat with (S 1074) by lia. assert (P : 0 < 2 ^ 1074) by (apply pow_lt; lra). change (2 ^ S 1074) with (2 * 2 ^ 1074). set (k := 2 ^ 1074) in *. clearbody k. apply Req_le. field. lra.
    + replace 1075%nat with (537 + 538)%nat by lia. rewrite pow_add, Rinv_mult. assert (P : 0 < 2 ^ 537) by (apply pow_lt; lra). rewrite <- Rmult_assoc, Rinv_r, Rmult_1_l by lra. apply Rle_refl.
Qed.
Lemma half_eq d : finite (conv F64 d (lit 1 (-1))) /\ real (conv F64 d (lit 1 (-1))) = / 2.
Proof.
  destruct (lit_eq F64 1 (-1) (/ 2) ltac:(cbn; lra) ltac:(cbn; lia) ltac:(cbn; lia) ltac:(cbn; lia)) as (F & E).
  assert (R : rep d (/ 2)) by (apply (rep_dyadic d 1 (-1)); [cbn; lra|destruct d; cbn; lia..]).
  destruct (conv_in F64 d (lit 1 (-1)) (/ 2) (/ 2) F R R ltac:(lra)) as (F' & B & _). split; [exact F'|lra].
Qed.
Lemma small_50 d : / 2 ^ 50 <= 8 * u d.
Proof. pose proof (u64_le d) as H. replace (/ 2 ^ 50) with (8 * u F64) by (unfold u; lra). lra. Qed.
Definition half_root (m : libm) d (s : val d) : val d := fmul (conv F64 d (Pow m (conv d F64 s) (lit (-1) (-1)))) (conv F64 d (lit 1 (-1))).
Lemma half_root_ok m d (s : val d) r : inverse_root m -> 16 * u d <= r <= / 200 -> finite s -> 0 < real s <= s_max d ->
  finite (half_root m d s) /\ rel (0.85 * r) (real (half_root m d s)) (/ (2 * sqrt (real s))) /\ / sqrt (real s) <= p_max d.
Proof.
  intros Hm Hr Fs (S0 & S1). destruct (conv_up d s Fs) as (Fu & Eu). destruct (root_value m Hm (conv d F64 s) Fu ltac:(change (B2R (conv d F64 s)) with (real (conv d F64 s)); lra)) as (Fp & Ep).
  change (B2R (conv d F64 s)) with (real (conv d F64 s)) in Ep. rewrite Eu in Ep. set (p0 := Pow m (conv d F64 s) (lit (-1) (-1))) in *. change (B2R p0) with (real p0) in Ep. change (finite p0) in Fp.
  pose proof (p_facts d) as (A1 & A2 & A3 & A4 & A5 & A6 & A7 & _). pose proof (u_small d) as (U0 & U1). pose proof (smallest d s Fs S0) as SM. pose proof (half_tiny_pos d) as H0.
  set (q := sqrt (real s)) in *. assert (Pq : 0 < q) by (apply sqrt_lt_R0; lra). assert (Qq : q * q = real s) by (apply sqrt_sqrt; lra). set (iq := / q) in *. assert (Piq : 0 < iq) by now apply Rinv_0_lt_compat. assert (Q1 : q * iq = 1) by (unfold iq; field; lra).
  assert (Lo : p_min d <= iq). { unfold iq. rewrite <- (Rinv_inv (p_min d)). apply Rinv_le_contravar; [lra|]. apply Rsqr_incr_0_var; [unfold Rsqr; rewrite Qq|left; now apply Rinv_0_lt_compat]. apply (Rmult_le_reg_r (p_min d * p_min d)); [apply Rmult_lt_0_compat; lra|]. replace (/ p_min d * / p_min d * (p_min d * p_min d)) with 1 by (field; lra). assert (real s * (p_min d * p_min d) <= s_max d * (p_min d * p_min d)) by (apply Rmult_le_compat_r; [apply Rmult_le_pos; lra|lra]). lra. }
  assert (Hi : iq <= p_max d). { apply Rsqr_incr_0_var; [unfold Rsqr|lra]. assert (iq * iq * real s = 1) by (rewrite <- Qq; replace (iq * iq * (q * q)) with ((q * iq) * (q * iq)) by ring; rewrite Q1; ring). apply (Rmult_le_reg_r (real s)); [lra|]. rewrite H. assert (p_max d * p_max d * (2 * half_tiny d) <= p_max d * p_max d * real s) by (apply Rmult_le_compat_l; [apply Rmult_le_pos; lra|lra]). lra. }
  pose proof (small_50 d) as T50.
  assert (R0 : rel (8 * u d) (real p0) iq). { unfold rel. replace (real p0 - iq) with ((real p0 * q - 1) * iq) by (rewrite Rmult_minus_distr_r, Rmult_assoc, Q1; ring). rewrite Rabs_mult. apply Rmult_le_compat_r; [apply Rabs_pos|]. lra. }
  pose proof (rel_abs _ _ _ R0) as B0. rewrite (Rabs_right iq) in B0 by lra. assert (B0' : Rabs (real p0) <= 2 * p_max d). { assert ((1 + 8 * u d) * iq <= 2 * p_max d) by (apply Rmult_le_compat; lra). lra. }
  destruct (conv_op (d := d) p0 (2 * p_max d) Fp A4 B0') as (F1 & B1 & N1). destruct (half_eq d) as (Fh & Eh).
  assert (R0' := R0). unfold rel in R0'. rewrite (Rabs_right iq) in R0' by lra. apply rabs_le in R0'. assert (8 * u d * iq <= 0.01 * iq) by (apply Rmult_le_compat_r; lra). assert (UL : u d * p_min d <= u d * iq) by (apply Rmult_le_compat_l; lra). assert (0 <= u d * p_min d) by (apply Rmult_le_pos; lra).
  apply near_rel in N1; [|rewrite Rabs_right by lra; assert (u d * (0.99 * iq) <= u d * real p0) by (apply Rmult_le_compat_l; lra); lra].
  assert (R1 : rel (2 * u d + 8 * u d + 2 * u d * (8 * u d)) (real (conv F64 d p0)) iq) by (eapply rel_trans; [|exact N1|exact R0]; lra).
  assert (UU : u d * u d <= u d * 0.0001) by (apply Rmult_le_compat_l; lra). apply (rel_le _ (10.01 * u d)) in R1; [|lra]. assert (R1' := R1). unfold rel in R1'. rewrite (Rabs_right iq) in R1' by lra. apply rabs_le in R1'. assert (10.01 * u d * iq <= 0.01 * iq) by (apply Rmult_le_compat_r; lra).
  unfold half_root. fold p0. destruct (mul_op (conv F64 d p0) (conv F64 d (lit 1 (-1))) (2 * p_max d) F1 Fh A4) as (F2 & B2 & N2). { rewrite Eh, Rabs_mult, (Rabs_right (/ 2)) by lra. pose proof (Rabs_pos (real (conv F64 d p0))). lra. } rewrite Eh in N2.
  set (p2 := real (fmul (conv F64 d p0) (conv F64 d (lit 1 (-1))))) in *. set (p1 := real (conv F64 d p0)) in *.
  apply near_rel in N2; [|rewrite Rabs_right by lra; assert (u d * (0.49 * iq) <= u d * (p1 * / 2)) by (apply Rmult_le_compat_l; lra); lra].
  split; [exact F2|]. split; [|exact Hi]. replace (/ (2 * q)) with (iq * / 2) by (unfold iq; field; lra).
  assert (R2 : rel (10.01 * u d) (p1 * / 2) (iq * / 2)). { unfold rel in *. rewrite <- Rmult_minus_distr_r, !Rabs_mult, (Rabs_right (/ 2)) by lra. lra. }
  eapply rel_le; [eapply rel_trans; [|exact N2|exact R2]; lra|]. lra.
Qed.

(** ** One element of the gradient *)
Definition gs_max (d : dtype) : R := match d with F32 => 2 ^ 122 | F64 => 2 ^ 610 end.
Lemma each_le c (l : list R) v : 0 < c -> In v l -> c * v ^ 2 <= c * squares l.
Proof.
  intros Hc H. apply Rmult_le_compat_l; [lra|]. induction l as [|a l IH]; [contradiction|]. cbn [squares fold_right]. fold (squares l). destruct H as [->|H].
  - pose proof (squares_pos l). lra.
  - specialize (IH H). pose proof (pow2_ge_0 a). lra.
Qed.
Lemma squares_each d c (x : list (val d)) v : 0 < c <= 1 -> In v x -> c * Rabs (real v) <= size_c d c x /\ c * (real v * real v) <= size_c d c x * size_c d c x.
Proof.
  intros Hc H. pose proof (squares_pos (reals x)) as SP. pose proof (each_le c (reals x) (real v) ltac:(lra) (in_map _ _ _ H)) as E.
  assert (P : 0 <= c * squares (reals x)) by (apply Rmult_le_pos; lra). unfold size_c. rewrite (sqrt_sqrt _ P). replace (real v ^ 2) with (real v * real v) in E by ring. split; [|exact E].
  apply Rsqr_incr_0_var; [unfold Rsqr|apply sqrt_pos]. rewrite (sqrt_sqrt _ P). replace (c * Rabs (real v) * (c * Rabs (real v))) with (c * (c * (Rabs (real v) * Rabs (real v)))) by ring. rewrite <- Rabs_mult, Rabs_right by nra.
  assert (Q0 : 0 <= c * (real v * real v)) by (apply Rmult_le_pos; nra). assert (c * (c * (real v * real v)) <= 1 * (c * (real v * real v))) by (apply Rmult_le_compat_r; lra). lra.
Qed.
Lemma root_each d c (x : list (val d)) s v : 0 < c <= 1 -> sq_ok d c x s -> 0 < real s -> In v x -> c * Rabs (real v) <= 1.74 * sqrt (real s) /\ c * (real v * real v) <= 3 * real s.
Proof.
  intros Hc Ok S0 H. pose proof (sq_each _ _ _ _ Ok S0) as E. rewrite Forall_forall in E. specialize (E v H). cbn beta in E. replace (real v ^ 2) with (real v * real v) in E by ring. split; [|exact E].
  apply Rsqr_incr_0_var; [unfold Rsqr|pose proof (sqrt_pos (real s)); lra]. replace (1.74 * sqrt (real s) * (1.74 * sqrt (real s))) with (1.74 * 1.74 * (sqrt (real s) * sqrt (real s))) by ring. rewrite sqrt_sqrt by lra.
  replace (c * Rabs (real v) * (c * Rabs (real v))) with (c * (c * (Rabs (real v) * Rabs (real v)))) by ring. rewrite <- Rabs_mult, Rabs_right by nra.
  assert (Q0 : 0 <= c * (real v * real v)) by (apply Rmult_le_pos; nra). assert (c * (c * (real v * real v)) <= 1 * (c * (real v * real v))) by (apply Rmult_le_compat_r; lra). lra.
Qed.
Lemma dot_abs_each {d} k K (x gy : list (val d)) : length x = length gy -> 0 <= k -> Forall (fun v => k * Rabs (real v) <= K) x -> k * dot_abs x gy <= K * abs_sum (reals gy).
Proof.
  intros L Hk. revert gy L. unfold dot_abs. induction x as [|a x IH]; intros [|b gy] L F; try discriminate; [cbn; lra|]. inversion F; subst.
  cbn [combine fold_right fst snd reals map abs_sum]. fold (reals gy) (abs_sum (reals gy)). specialize (IH gy ltac:(cbn in L; lia) H2). change (B2R b) with (real b).
  assert (Rabs (real b) * (k * Rabs (real a)) <= Rabs (real b) * K) by (apply Rmult_le_compat_l; [apply Rabs_pos|assumption]). lra.
Qed.
