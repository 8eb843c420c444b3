(** * The results of FixNorm and RMSNorm, and the gradients of their divisors *)
From Coq Require Import ZArith Bool Lia List Arith Reals Lra Psatz.
From Flocq Require Import Core BinarySingleNaN.
From Verif Require Import FloatModel FloatSpec NumModel NumSpec NumLemmas AsmFloatSpec AsmFloat AsmFloat2 AsmModel AsmCalls AsmSpec OptFloatModel OptFloatNum NormFloatModel NormFloatSpec NormFloatNum NormFloatProofs.
Import ListNotations.
Local Open Scope R_scope.

Lemma d_max_inv d : / 2 ^ 466 <= / (2 * d_max d) /\ half_tiny d <= u d * / ((2 * d_max d) * (2 * d_max d)) / 4 /\ half_tiny F64 <= u F64 * / 2 ^ 940.
Proof.
  assert (E : half_tiny F64 <= u F64 * / 2 ^ 940) by (unfold half_tiny, u; rewrite <- Rinv_mult, <- pow_add; apply Rinv_le_contravar; try (apply pow_lt; lra); apply Rle_pow; try lra; lia).
  split; [|split; [|exact E]]; unfold d_max.
  - destruct d; apply Rinv_le_contravar; try (replace (2 * 2 ^ 60) with (2 ^ 61) by (cbn [pow]; ring)); try (replace (2 * 2 ^ 465) with (2 ^ 466) by (cbn [pow]; ring)); try (apply pow_lt; lra); apply Rle_pow; try lra; lia.
  - destruct d.
    + replace (2 * 2 ^ 60 * (2 * 2 ^ 60)) with (2 ^ 122) by (replace (2 * 2 ^ 60) with (2 ^ 61) by (cbn [pow]; ring); rewrite <- pow_add; f_equal; lia). unfold half_tiny, u.
      replace (/ 2 ^ 24 * / 2 ^ 122 / 4) with (/ 2 ^ 148); [apply Rinv_le_contravar; [apply pow_lt; lra|apply Rle_pow; [lra|lia]]|]. replace 148%nat with (24 + (122 + 2))%nat by lia. rewrite !pow_add, !Rinv_mult. replace (/ 2 ^ 2) with (/ 4) by lra. unfold Rdiv. ring.
    + replace (2 * 2 ^ 465 * (2 * 2 ^ 465)) with (2 ^ 932) by (replace (2 * 2 ^ 465) with (2 ^ 466) by (cbn [pow]; ring); rewrite <- pow_add; f_equal; lia). unfold half_tiny, u.
      replace (/ 2 ^ 53 * / 2 ^ 932 / 4) with (/ 2 ^ 987); [apply Rinv_le_contravar; [apply pow_lt; lra|apply Rle_pow; [lra|lia]]|]. replace 987%nat with (53 + (932 + 2))%nat by lia. rewrite !pow_add, !Rinv_mult. replace (/ 2 ^ 2) with (/ 4) by lra. unfold Rdiv. ring.
Qed.
Lemma d_max_sq d : (2 * d_max d) * (2 * d_max d) <= 2 ^ 940.
Proof. unfold d_max. destruct d; [replace (2 * 2 ^ 60) with (2 ^ 61) by (cbn [pow]; ring)|replace (2 * 2 ^ 465) with (2 ^ 466) by (cbn [pow]; ring)]; rewrite <- pow_add; apply Rle_pow; try lra; lia. Qed.
Lemma rep_small d n : (n <= 100)%nat -> rep d (2 ^ n).
Proof. intros H. apply rep_pow2. destruct d; cbn; lia. Qed.
Lemma rep64_all d n : (Z.of_nat n + prec d <= emax d)%Z -> rep d (2 ^ n) /\ rep F64 (2 ^ n).
Proof. intros H. split; apply rep_pow2; destruct d; cbn in *; lia. Qed.

Section Recip.
Variables (d : dtype) (r M : R) (D : val d).
Hypothesis U16 : 16 * u d <= r <= / 200.
Hypothesis FD : finite D.
Hypothesis ED : rel (1.2 * r) (real D) M.
Hypothesis M0 : 0 < M.
Hypothesis BD : / 2 ^ 35 <= real D <= 2 * d_max d.
(** one over the divisor *)
Lemma recip_ok : finite (recip d D) /\ 0 < real (recip d D) <= 2 ^ 35 /\ rel (1.5 * r) (real (recip d D)) (/ M).
Proof.
  destruct (conv_up d D FD) as (Fu & Eu). destruct (one_eq F64) as (F1 & E1). pose proof (u_small d) as (U0 & U1). pose proof (d_max_inv d) as (I1 & I2 & I3).
  assert (D0 : 0 < real D) by lra. assert (D35 : 0 < / real D <= 2 ^ 35). { split; [apply Rinv_0_lt_compat; lra|]. rewrite <- (Rinv_inv (2 ^ 35)). apply Rinv_le_contravar; [apply Rinv_0_lt_compat, pow_lt; lra|lra]. }
  assert (Q : Rabs (real (fone : val F64) / real (conv d F64 D)) <= 2 ^ 35). { rewrite E1, Eu. unfold Rdiv. rewrite Rmult_1_l, Rabs_right by lra. lra. }
  destruct (div_op fone (conv d F64 D) (2 ^ 35) F1 ltac:(rewrite Eu; lra) (rep_pow2 F64 35 ltac:(cbn; lia)) Q) as (F2 & B2 & N2). rewrite E1, Eu in N2. unfold Rdiv in N2. rewrite Rmult_1_l in N2.
  assert (DL : / (2 * d_max d) <= / real D) by (apply Rinv_le_contravar; lra).
  apply (near_64 d) in N2. pose proof (d_max_facts d) as (_ & _ & _ & _ & _ & DM1).
  assert (IM : 0 < / (2 * d_max d) <= 1). { split; [apply Rinv_0_lt_compat; lra|]. rewrite <- Rinv_1. apply Rinv_le_contravar; lra. }
  assert (I2' : half_tiny d <= u d * / (2 * d_max d) / 4). { eapply Rle_trans; [exact I2|]. rewrite Rinv_mult. assert (u d * (/ (2 * d_max d) * / (2 * d_max d)) <= u d * (/ (2 * d_max d) * 1)) by (apply Rmult_le_compat_l; [lra|apply Rmult_le_compat_l; lra]). lra. }
  apply near_rel in N2; [|rewrite Rabs_right by lra; assert (u d * / (2 * d_max d) <= u d * / real D) by (apply Rmult_le_compat_l; lra); assert (0 <= u d * / (2 * d_max d)) by (apply Rmult_le_pos; lra); lra].
  destruct (conv_op (d := d) _ (2 ^ 35) F2 (rep_small d 35 ltac:(lia)) B2) as (F3 & B3 & N3). fold (recip d D) in *.
  assert (N2' := N2). unfold rel in N2'. rewrite (Rabs_right (/ real D)) in N2' by lra. apply rabs_le in N2'. assert (2 * u d * / real D <= / 4 * / real D) by (apply Rmult_le_compat_r; lra).
  apply near_rel in N3; [|rewrite Rabs_right by lra; assert (u d * (/ (2 * d_max d) / 2) <= u d * real (fdiv fone (conv d F64 D))) by (apply Rmult_le_compat_l; lra); assert (0 <= u d * / (2 * d_max d)) by (apply Rmult_le_pos; lra); lra].
  assert (RR : rel (2 * u d + 2 * u d + 2 * u d * (2 * u d)) (real (recip d D)) (/ real D)) by (eapply rel_trans; [|exact N3|exact N2]; lra).
  destruct (rel_inv (1.2 * r) (real D) M ltac:(lra) ltac:(lra) ED) as (_ & RI). split; [exact F3|]. apply rabs_le in B3.
  assert (UU : u d * u d <= u d * 0.001) by (apply Rmult_le_compat_l; lra). assert (r2 : r * r <= / 200 * r) by (apply Rmult_le_compat_r; lra). assert (ur : u d * r <= u d * / 200) by (apply Rmult_le_compat_l; lra).
  split.
  - split; [|lra]. unfold rel in RR. rewrite (Rabs_right (/ real D)) in RR by lra. apply rabs_le in RR. assert ((2 * u d + 2 * u d + 2 * u d * (2 * u d)) * / real D <= / 2 * / real D) by (apply Rmult_le_compat_r; lra). lra.
  - apply (rel_le _ (4.01 * u d)) in RR; [|lra]. apply (rel_le _ (1.22 * r)) in RI; [|lra]. eapply rel_le; [eapply rel_trans; [|exact RR|exact RI]; lra|]. lra.
Qed.
(** minus one over its square *)
Lemma minus_ok : finite (minus_recip_square d D) /\ Rabs (real (minus_recip_square d D)) <= 2 ^ 71 /\ rel (3 * r) (real (minus_recip_square d D)) (- / (M * M)).
Proof.
  destruct (conv_up d D FD) as (Fu & Eu). destruct (one_eq F64) as (F1 & E1). pose proof (u_small d) as (U0 & U1). pose proof (d_max_inv d) as (I1 & I2 & I3). pose proof (u64_le d) as U6. pose proof (u_pos F64) as U60.
  assert (D0 : 0 < real D) by lra. pose proof (d_max_facts d) as (_ & _ & _ & _ & _ & DM1).
  assert (S0 : / 2 ^ 70 <= real D * real D <= (2 * d_max d) * (2 * d_max d)). { split; [replace (/ 2 ^ 70) with (/ 2 ^ 35 * / 2 ^ 35) by (rewrite <- Rinv_mult, <- pow_add; do 2 f_equal; lia)|]; apply Rmult_le_compat; lra. }
  assert (P70 : 0 < / 2 ^ 70) by (apply Rinv_0_lt_compat, pow_lt; lra).
  assert (SB : (2 * d_max d) * (2 * d_max d) <= 2 ^ 940). { apply d_max_sq. }
  destruct (mul_op (conv d F64 D) (conv d F64 D) (2 ^ 940) Fu Fu (rep_pow2 F64 940 ltac:(cbn; lia))) as (F2 & B2 & N2); [rewrite Eu, Rabs_right by lra; lra|]. rewrite Eu in N2.
  assert (H70 : half_tiny F64 <= u F64 * / 2 ^ 70). { eapply Rle_trans; [exact I3|]. apply Rmult_le_compat_l; [lra|]. apply Rinv_le_contravar; [apply pow_lt; lra|apply Rle_pow; [lra|lia]]. }
  apply near_rel in N2; [|rewrite Rabs_right by lra; eapply Rle_trans; [exact H70|]; apply Rmult_le_compat_l; lra].
  set (q := fmul (conv d F64 D) (conv d F64 D)) in *. apply (rel_le _ (2 * u d)) in N2; [|lra].
  assert (N2' := N2). unfold rel in N2'. rewrite (Rabs_right (real D * real D)) in N2' by lra. apply rabs_le in N2'. assert (2 * u d * (real D * real D) <= 0.01 * (real D * real D)) by (apply Rmult_le_compat_r; lra).
  assert (Q0 : 0 < real q) by lra. assert (IQ : 0 < / real q <= 2 ^ 71).
  { split; [now apply Rinv_0_lt_compat|]. rewrite <- (Rinv_inv (2 ^ 71)). apply Rinv_le_contravar; [apply Rinv_0_lt_compat, pow_lt; lra|]. replace (2 ^ 71) with (2 * 2 ^ 70) by (cbn [pow]; ring). rewrite Rinv_mult. lra. }
  assert (QB : Rabs (real (fone : val F64) / real (fneg q)) <= 2 ^ 71). { rewrite E1, neg_eq. unfold Rdiv. rewrite Rmult_1_l, Rinv_opp, Rabs_Ropp, Rabs_right by lra. lra. }
  destruct (div_op fone (fneg q) (2 ^ 71) F1 ltac:(rewrite neg_eq; lra) (rep_pow2 F64 71 ltac:(cbn; lia)) QB) as (F3 & B3 & N3). rewrite E1, neg_eq in N3. unfold Rdiv in N3. rewrite Rmult_1_l in N3.
  destruct (conv_op (d := d) _ (2 ^ 71) F3 (rep_small d 71 ltac:(lia)) B3) as (F4 & B4 & N4). fold q in F4, B4, N4. change (conv F64 d (fdiv fone (fneg q))) with (minus_recip_square d D) in *.
  set (Y := 2 * d_max d * (2 * d_max d)) in *. assert (QL : / Y / 2 <= / real q). { assert (PY : 1 <= Y) by (unfold Y; nra). replace (/ Y / 2) with (/ (2 * Y)) by (field; lra). apply Rinv_le_contravar; lra. }
  assert (QL6 : / 2 ^ 940 / 2 <= / real q). { assert (P9 : 1 <= 2 ^ 940) by (apply pow_R1_Rle; lra). replace (/ 2 ^ 940 / 2) with (/ (2 * 2 ^ 940)) by (field; lra). apply Rinv_le_contravar; [lra|]. apply rabs_le in B2. lra. }
  assert (NA : Rabs (/ - real q) = / real q) by (rewrite Rinv_opp, Rabs_Ropp, Rabs_right; lra).
  assert (N3r : rel (3 * u d) (real (fdiv fone (fneg q))) (/ - real q)).
  { unfold rel. rewrite NA. unfold near_to in N3. rewrite NA in N3. assert (u F64 * (/ 2 ^ 940 / 2) <= u F64 * / real q) by (apply Rmult_le_compat_l; lra). assert (u F64 * / real q <= u d * / real q) by (apply Rmult_le_compat_r; lra). lra. }
  assert (N3' := N3r). unfold rel in N3'. rewrite NA in N3'. apply rabs_le in N3'. assert (3 * u d * / real q <= 0.01 * / real q) by (apply Rmult_le_compat_r; lra). rewrite Rinv_opp in N3'.
  apply near_rel in N4; [|rewrite Rabs_left by lra; assert (u d * (/ Y / 2 * 0.99) <= u d * - real (fdiv fone (fneg q))) by (apply Rmult_le_compat_l; lra); assert (0 <= u d * / Y) by (apply Rmult_le_pos; [lra|left; apply Rinv_0_lt_compat; unfold Y; nra]); lra].
  assert (R1 : rel (2 * u d + 3 * u d + 2 * u d * (3 * u d)) (real (minus_recip_square d D)) (/ - real q)) by (eapply rel_trans; [|exact N4|exact N3r]; lra).
  assert (R2 : rel (1.2 * r + 1.2 * r + 1.2 * r * (1.2 * r)) (real D * real D) (M * M)) by (apply rel_mul; auto; lra).
  assert (UU : u d * u d <= u d * 0.001) by (apply Rmult_le_compat_l; lra). assert (r2 : r * r <= / 200 * r) by (apply Rmult_le_compat_r; lra). assert (ur : u d * r <= u d * / 200) by (apply Rmult_le_compat_l; lra).
  assert (R3 : rel (2.55 * r) (real q) (M * M)). { apply (rel_le _ (2.41 * r)) in R2; [|lra]. eapply rel_le; [eapply rel_trans; [|exact N2|exact R2]; lra|]. lra. }
  destruct (rel_inv (2.55 * r) (real q) (M * M) ltac:(lra) ltac:(apply Rgt_not_eq, Rmult_lt_0_compat; lra) R3) as (_ & R4). split; [exact F4|]. split; [exact B4|].
  assert (R5 : rel (2.55 * r + 2 * (2.55 * r) * (2.55 * r)) (/ - real q) (- / (M * M))). { unfold rel in *. rewrite Rabs_Ropp. replace (/ - real q - - / (M * M)) with (- (/ real q - / (M * M))) by (rewrite Rinv_opp; ring). rewrite Rabs_Ropp. exact R4. }
  apply (rel_le _ (5.01 * u d)) in R1; [|lra]. apply (rel_le _ (2.62 * r)) in R5; [|lra]. eapply rel_le; [eapply rel_trans; [|exact R1|exact R5]; lra|]. lra.
Qed.
End Recip.

(** ** The results *)
Lemma in_max_35 d : rep d (in_max d * 2 ^ 35) /\ in_max d * 2 ^ 35 <= largest d.
Proof.
  unfold in_max. destruct d; rewrite <- pow_add; (split; [apply rep_pow2; cbn; lia|]); unfold largest.
  - replace (2 ^ 104) with (2 ^ 19 * 2 ^ (50 + 35)) by (rewrite <- pow_add; f_equal; lia). assert (0 < 2 ^ (50 + 35)) by (apply pow_lt; lra). set (k := 2 ^ (50 + 35)) in *. clearbody k. nra.
  - replace (2 ^ 971) with (2 ^ 496 * 2 ^ (440 + 35)) by (rewrite <- pow_add; f_equal; lia). assert (0 < 2 ^ (440 + 35)) by (apply pow_lt; lra). assert (1 <= 2 ^ 496) by (apply pow_R1_Rle; lra). set (k := 2 ^ (440 + 35)) in *. set (j := 2 ^ 496) in *. clearbody k j. nra.
Qed.
Lemma divided d B r M (D v : val d) : 16 * u d <= r <= / 200 -> finite D -> rel (1.2 * r) (real D) M -> 0 < M -> / 2 ^ 35 <= real D <= 2 * d_max d ->
  finite v -> Rabs (real v) <= B -> rep d (B * 2 ^ 35) ->
  finite (fmul v (recip d D)) /\ Rabs (real (fmul v (recip d D)) - real v / M) <= 1.6 * r * Rabs (real v / M) + half_tiny d.
Proof.
  intros U16 FD ED M0 BD Fv Bv RB. destruct (recip_ok d r M D U16 FD ED M0 BD) as (Fr & Rr & Er).
  destruct (mul_op v (recip d D) (B * 2 ^ 35) Fv Fr RB) as (F & _ & N). { rewrite Rabs_mult, (Rabs_right (real (recip d D))) by lra. apply Rmult_le_compat; try lra; apply Rabs_pos. }
  split; [exact F|]. pose proof (u_small d) as (U0 & U1). assert (RV : rel (1.5 * r) (real v * real (recip d D)) (real v / M)).
  { unfold rel, Rdiv. rewrite <- Rmult_minus_distr_l, !Rabs_mult. unfold rel in Er. assert (Rabs (real v) * Rabs (real (recip d D) - / M) <= Rabs (real v) * (1.5 * r * Rabs (/ M))) by (apply Rmult_le_compat_l; [apply Rabs_pos|exact Er]). lra. }
  pose proof (rel_abs _ _ _ RV) as A. unfold rel in RV. unfold near_to in N. set (y := real (fmul v (recip d D))) in *. set (z := real v * real (recip d D)) in *. set (q := real v / M) in *. pose proof (Rabs_pos q).
  replace (y - q) with ((y - z) + (z - q)) by ring. eapply Rle_trans; [apply Rabs_triang|].
  assert (u d * Rabs z <= u d * (1.1 * Rabs q)). { apply Rmult_le_compat_l; [lra|]. eapply Rle_trans; [exact A|]. apply Rmult_le_compat_r; lra. }
  assert (16 * u d * Rabs q <= r * Rabs q) by (apply Rmult_le_compat_r; lra). assert (0 <= u d * Rabs q) by (apply Rmult_le_pos; lra). lra.
Qed.
Section Forward.
Variables (d : dtype) (c : R) (x : list (val d)) (s : val d).
Hypothesis Ok : sq_ok d c x s.
Hypothesis Few : few d (length x).
Hypothesis C0 : 0 < c <= 1.
Hypothesis Sized : sized (in_max d) x.
Notation den := (fadd (elem_sqrt d s) (eps10 d)).
Lemma forward_ok : Forall2 (fun v y => finite y /\ Rabs (real y - real v / (size_c d c x + guard10)) <= 1.6 * rho d (length x) * Rabs (real v / (size_c d c x + guard10)) + half_tiny d) x (div_scalar d x den).
Proof using All.
  destruct (divisor_ok d c x s Ok Few C0) as (FD & ED & BD). pose proof (few_small d _ Few) as (R1 & _). pose proof (size_pos d c x). pose proof guard_low.
  assert (M0 : 0 < size_c d c x + guard10) by lra. set (M := size_c d c x + guard10) in *. set (r := rho d (length x)) in *. clearbody M r. clear Ok Few. unfold div_scalar.
  pose proof Sized as SZ. clear - SZ FD ED BD R1 M0. induction SZ as [|v l (Fv & Bv) HH IH]; cbn [map]; [constructor|]. constructor; [|exact IH]. apply (divided d (in_max d)); auto; apply in_max_35.
Qed.
End Forward.
