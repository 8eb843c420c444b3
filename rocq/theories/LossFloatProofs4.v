(** * Cross entropy in floating point: the gradient, continued *)
From Coq Require Import ZArith Bool Lia List Arith Reals Lra Psatz Permutation.
From Flocq Require Import Core BinarySingleNaN Relative.
From Verif Require Import DenseModel ArithModel AsmModel AsmCode AsmCalls AsmSpec FloatModel FloatSpec FloatProofs NumModel NumSpec NumLemmas NumProofs NumProofs2 NumProofs4 AsmFloatSpec AsmFloat AsmFloat2 SoftModel SoftSpec SoftProofs SoftFloat SoftFloat2 OptFloatNum NormFloatModel NormFloatNum NormFloatBack NormFloatBack5 LossFloatModel LossFloatSpec LossFloatProofs LossFloatProofs2 LossFloatProofs3.
Import ListNotations.
Local Open Scope list_scope.
Local Open Scope R_scope.

Lemma m1_eq d : finite (conv F64 d (lit (-1) 0) : val d) /\ real (conv F64 d (lit (-1) 0) : val d) = -1.
Proof. destruct d; (split; [reflexivity|]); unfold real; vm_compute; lra. Qed.
Lemma minus_eq d (v : val d) : finite v -> finite (minus d v) /\ real (minus d v) = - real v.
Proof.
  intros Fv. destruct (m1_eq d) as (F1 & V1). unfold minus. assert (R : rep d (- real v)) by (apply rep_opp, rep_real, Fv).
  destruct (mul_in d v (conv F64 d (lit (-1) 0)) (- real v) (- real v) Fv F1 R R) as (A & B & _); [rewrite V1; lra|]. split; [exact A|lra].
Qed.
Lemma neg_back_eq d (v : val d) : finite v -> finite (neg_back d v) /\ real (neg_back d v) = - real v.
Proof.
  intros Fv. assert (Q : finite (conv F64 d (fneg fone) : val d) /\ real (conv F64 d (fneg fone) : val d) = -1) by (destruct d; (split; [reflexivity|]); unfold real; vm_compute; lra). destruct Q as (F1 & V1).
  unfold neg_back. assert (R : rep d (- real v)) by (apply rep_opp, rep_real, Fv).
  destruct (mul_in d (conv F64 d (fneg fone)) v (- real v) (- real v) F1 Fv R R) as (A & B & _); [rewrite V1; lra|]. split; [exact A|lra].
Qed.
Lemma minus_total d (l : list (val d)) : Forall finite l -> Forall finite (map (minus d) l) /\ total (map (minus d) l) = - total l /\ total_abs (map (minus d) l) = total_abs l.
Proof.
  unfold total, total_abs. induction 1 as [|v l Fv _ (I1 & I2 & I3)]; [cbn; repeat split; auto; lra|]. destruct (minus_eq d v Fv) as (A & B). cbn [map fold_right]. rewrite I2, I3, B, Rabs_Ropp. split; [now constructor|]. split; lra.
Qed.
Lemma nth_spot d n i (v : val d) j z : (j < n)%nat -> nth j (spot d n i v) z = if (j =? i)%nat then v else fzero.
Proof.
  intros H. unfold spot. set (f := fun k => if (k =? i)%nat then v else fzero). rewrite (nth_indep _ z (f 0%nat)) by (rewrite map_length, seq_length; exact H). rewrite (map_nth f), seq_nth by exact H. reflexivity.
Qed.
Lemma spot_length d n i (v : val d) : length (spot d n i v) = n.
Proof. unfold spot. now rewrite map_length, seq_length. Qed.
Lemma safe_largest d : 4 * safe d <= largest d.
Proof.
  unfold largest, safe. replace 4 with (2 ^ 2) by (cbn; lra). destruct d.
  - rewrite <- pow_add. apply Rle_trans with (2 ^ 20 * 2 ^ 104); [rewrite <- pow_add; apply Rle_pow; [lra|lia]|]. apply Rmult_le_compat_r; [apply pow_le; lra|]. cbn. lra.
  - rewrite <- pow_add. apply Rle_trans with (2 ^ 40 * 2 ^ 971); [rewrite <- pow_add; apply Rle_pow; [lra|lia]|]. apply Rmult_le_compat_r; [apply pow_le; lra|]. cbn. lra.
Qed.
(** the inverse of a number between 1 and the bound of the sums *)
Lemma inverse_rel d (s : val d) : finite s -> 1 <= real s <= cap d -> exists r, go_log_deriv (conv d F64 s) = Some r /\ let r' := conv F64 d r in finite r' /\ 0 <= Rabs (real r') <= 1 /\ rel (5 * u d) (real r') (/ real s).
Proof.
  intros Fs (B1 & B2). destruct (conv_up d s Fs) as (Fu & Vu). exists (fdiv fone (conv d F64 s)). unfold go_log_deriv. destruct (one_eq F64) as (Fo & Vo).
  assert (L : flt (fzero : val F64) (conv d F64 s) = true). { apply (lt_eq F64); [reflexivity|exact Fu|]. rewrite Vu. cbn. lra. }
  split; [change (B754_zero false : val F64) with (fzero : val F64); rewrite L; reflexivity|].
  assert (Ip : 0 < / real s <= 1) by (split; [apply Rinv_0_lt_compat; lra|rewrite <- Rinv_1; apply Rinv_le_contravar; lra]). assert (Q : real (fone : val F64) / real (conv d F64 s) = / real s) by (rewrite Vo, Vu; unfold Rdiv; ring).
  destruct (@div_op F64 fone (conv d F64 s) 1 Fo ltac:(rewrite Vu; lra) (rep_1 F64) ltac:(rewrite Q, Rabs_right; lra)) as (F1 & V1 & E1). rewrite Q in E1. set (r := fdiv fone (conv d F64 s)) in *.
  destruct (@conv_op d r 1 F1 (rep_1 d) V1) as (F2 & V2 & E2). split; [exact F2|]. split; [split; [apply Rabs_pos|exact V2]|].
  assert (Sm : 4 * half_tiny d <= u d * / real s).
  { assert (C : / cap d <= / real s) by (apply Rinv_le_contravar; lra). pose proof (u_pos d) as U. apply Rle_trans with (u d * / cap d); [|apply Rmult_le_compat_l; lra]. 
    assert (Cu : / cap d = u d) by (unfold cap, u; destruct d; [change (prec F32) with (Z.of_nat 24)|change (prec F64) with (Z.of_nat 53)]; rewrite <- pow2; reflexivity). rewrite Cu, tiny_u.
    assert (T : 2 * tau d <= u d). { unfold tau, u. replace 2 with (2 ^ 1) at 1 by (cbn; lra). destruct d; [replace (/ 2 ^ 125) with (/ 2 ^ 24 * / 2 ^ 101) by (rewrite <- inv_split; reflexivity)|replace (/ 2 ^ 1021) with (/ 2 ^ 53 * / 2 ^ 968) by (rewrite <- inv_split; reflexivity)].
      - assert (X : / 2 ^ 101 <= / 2 ^ 1) by (apply inv_le; lia). pose proof (inv_pos 24) as Y. assert (/ 2 ^ 24 * / 2 ^ 101 <= / 2 ^ 24 * / 2 ^ 1) by (apply Rmult_le_compat_l; lra). lra.
      - assert (X : / 2 ^ 968 <= / 2 ^ 1) by (apply inv_le; lia). pose proof (inv_pos 53) as Y. assert (/ 2 ^ 53 * / 2 ^ 968 <= / 2 ^ 53 * / 2 ^ 1) by (apply Rmult_le_compat_l; lra). lra. }
    replace (4 * (u d * (tau d / 2))) with (u d * (2 * tau d)) by field. apply Rmult_le_compat_l; lra. }
  pose proof (u_small d) as (U1 & U2). assert (Us : / 2 ^ 24 <= / 1000) by (apply inv_small; lia). pose proof (half_tiny_pos d) as Hp.
  assert (A1 : rel (2 * u d) (real r) (/ real s)) by (apply (near_rel d); [now apply (near_64 d)|rewrite Rabs_right; lra]).
  assert (A2 : rel (2 * u d) (real (conv F64 d r : val d)) (real r)).
  { apply (near_rel d); [exact E2|]. unfold rel in A1. rewrite (Rabs_right (/ real s)) in A1 by lra. apply Rabs_le_inv in A1. assert (2 * u d * / real s <= 2 * / 1000 * / real s) by (apply Rmult_le_compat_r; lra). assert (Pr : / 2 * / real s <= real r) by lra. rewrite Rabs_right by lra. assert (u d * (/ 2 * / real s) <= u d * real r) by (apply Rmult_le_compat_l; lra). lra. }
  eapply rel_le; [apply (rel_trans (2 * u d) (2 * u d) _ (real r)); [lra|exact A2|exact A1]|]. assert (u d * u d <= / 1000 * u d) by (apply Rmult_le_compat_r; lra). lra.
Qed.
