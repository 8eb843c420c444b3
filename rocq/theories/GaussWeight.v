(** * The tail of the bell curve has the weight that the lowest strip leaves for it *)
From Coq Require Import List ZArith Reals Lia Lra Bool.
From Coquelicot Require Import Coquelicot.
From Verif Require Import RandModel FloatModel NumModel NumSpec GaussTables GaussModel GaussSpec GaussTab GaussReal GaussProofs GaussTail.
Import ListNotations.
Open Scope R_scope.

Lemma bell_derive x : is_derive bell x (- x * bell x).
Proof.
  unfold bell. auto_derive; [trivial|].
  change (x * x * / 2) with (x * x / 2). set (e := exp _). unfold R_AbsRing in *. cbn in *. clearbody e. lra.
Qed.
Lemma bell_continuous x : continuous bell x.
Proof. apply (ex_derive_continuous bell x). exists (- x * bell x). apply bell_derive. Qed.
Lemma integral_derive a b : is_derive (fun y => RInt bell a y) b (bell b).
Proof.
  apply (is_derive_RInt bell _ a b); [|apply bell_continuous]. exists (mkposreal 1 Rlt_0_1). intros y _. apply (RInt_correct (V := R_CompleteNormedModule)). apply (ex_RInt_continuous (V := R_CompleteNormedModule)). intros; apply bell_continuous.
Qed.
(** convergents of the continued fraction for the tail of the bell curve *)
Definition upper (x : R) : R := (x ^ 4 + 9 * x ^ 2 + 8) / (x ^ 5 + 10 * x ^ 3 + 15 * x).
Definition lower (x : R) : R := (x ^ 5 + 14 * x ^ 3 + 33 * x) / (x ^ 6 + 15 * x ^ 4 + 45 * x ^ 2 + 15).
Lemma upper_pos x : 0 < x -> 0 < x ^ 5 + 10 * x ^ 3 + 15 * x.
Proof. intros H. pose proof (pow_lt x 5 H). pose proof (pow_lt x 3 H). lra. Qed.
Lemma lower_pos x : 0 < x -> 0 < x ^ 6 + 15 * x ^ 4 + 45 * x ^ 2 + 15.
Proof. intros H. pose proof (pow_lt x 6 H). pose proof (pow_lt x 4 H). pose proof (pow_lt x 2 H). lra. Qed.
Lemma upper_derive x : 0 < x -> is_derive (fun y => upper y * bell y) x (- bell x - 120 / (x ^ 5 + 10 * x ^ 3 + 15 * x) ^ 2 * bell x).
Proof.
  intros H. pose proof (upper_pos x H) as Q.
  assert (D : is_derive upper x (((4 * x ^ 3 + 18 * x) * (x ^ 5 + 10 * x ^ 3 + 15 * x) - (x ^ 4 + 9 * x ^ 2 + 8) * (5 * x ^ 4 + 30 * x ^ 2 + 15)) / (x ^ 5 + 10 * x ^ 3 + 15 * x) ^ 2)).
  { unfold upper. auto_derive; [cbn [pow] in *; lra|]. cbn [pow] in *. field. lra. }
  evar_last; [apply (is_derive_mult upper bell x _ _ D (bell_derive x)); intros; apply Rmult_comm|].
  unfold upper, plus, mult. cbn -[pow bell]. field. lra.
Qed.
Lemma lower_derive x : 0 < x -> is_derive (fun y => lower y * bell y) x (- bell x + 720 / (x ^ 6 + 15 * x ^ 4 + 45 * x ^ 2 + 15) ^ 2 * bell x).
Proof.
  intros H. pose proof (lower_pos x H) as Q.
  assert (D : is_derive lower x (((5 * x ^ 4 + 42 * x ^ 2 + 33) * (x ^ 6 + 15 * x ^ 4 + 45 * x ^ 2 + 15) - (x ^ 5 + 14 * x ^ 3 + 33 * x) * (6 * x ^ 5 + 60 * x ^ 3 + 90 * x)) / (x ^ 6 + 15 * x ^ 4 + 45 * x ^ 2 + 15) ^ 2)).
  { unfold lower. auto_derive; [cbn [pow] in *; lra|]. cbn [pow] in *. field. lra. }
  evar_last; [apply (is_derive_mult lower bell x _ _ D (bell_derive x)); intros; apply Rmult_comm|].
  unfold lower, plus, mult. cbn -[pow bell]. field. lra.
Qed.
Lemma integral_bounds a b : 0 < a -> a <= b ->
  lower a * bell a - lower b * bell b <= RInt bell a b <= upper a * bell a - upper b * bell b.
Proof.
  intros Ha Hb. split.
  - destruct (MVT_gen (fun y => RInt bell a y + lower y * bell y) a b (fun x => bell x + (- bell x + 720 / (x ^ 6 + 15 * x ^ 4 + 45 * x ^ 2 + 15) ^ 2 * bell x))) as (c & Hc & E).
    + intros x Hx. rewrite Rmin_left in Hx by lra. apply (is_derive_plus (fun y => RInt bell a y) (fun y => lower y * bell y)); [apply integral_derive|apply lower_derive; lra].
    + intros x Hx. rewrite Rmin_left in Hx by lra. apply continuity_pt_filterlim, (ex_derive_continuous (fun y => RInt bell a y + lower y * bell y)). eexists.
      apply (is_derive_plus (fun y => RInt bell a y) (fun y => lower y * bell y)); [apply integral_derive|apply lower_derive; lra].
    + rewrite Rmin_left in Hc by lra. rewrite RInt_point in E. cbv beta in E. change (@zero (CompleteNormedModule.AbelianGroup R_AbsRing R_CompleteNormedModule)) with 0 in E.
      assert (0 <= 720 / (c ^ 6 + 15 * c ^ 4 + 45 * c ^ 2 + 15) ^ 2 * bell c).
      { apply Rmult_le_pos; [|left; apply bell_pos]. pose proof (lower_pos c ltac:(lra)) as Q. left. apply Rdiv_lt_0_compat; [lra|now apply pow_lt]. }
      set (k := 720 / _ * _) in *. clearbody k. assert (0 <= (bell c + (- bell c + k)) * (b - a)) by (apply Rmult_le_pos; lra). lra.
  - destruct (MVT_gen (fun y => RInt bell a y + upper y * bell y) a b (fun x => bell x + (- bell x - 120 / (x ^ 5 + 10 * x ^ 3 + 15 * x) ^ 2 * bell x))) as (c & Hc & E).
    + intros x Hx. rewrite Rmin_left in Hx by lra. apply (is_derive_plus (fun y => RInt bell a y) (fun y => upper y * bell y)); [apply integral_derive|apply upper_derive; lra].
    + intros x Hx. rewrite Rmin_left in Hx by lra. apply continuity_pt_filterlim, (ex_derive_continuous (fun y => RInt bell a y + upper y * bell y)). eexists.
      apply (is_derive_plus (fun y => RInt bell a y) (fun y => upper y * bell y)); [apply integral_derive|apply upper_derive; lra].
    + rewrite Rmin_left in Hc by lra. rewrite RInt_point in E. cbv beta in E. change (@zero (CompleteNormedModule.AbelianGroup R_AbsRing R_CompleteNormedModule)) with 0 in E.
      assert (0 <= 120 / (c ^ 5 + 10 * c ^ 3 + 15 * c) ^ 2 * bell c).
      { apply Rmult_le_pos; [|left; apply bell_pos]. pose proof (upper_pos c ltac:(lra)) as Q. left. apply Rdiv_lt_0_compat; [lra|now apply pow_lt]. }
      set (k := 120 / _ * _) in *. clearbody k. assert (0 <= k * (b - a)) by (apply Rmult_le_pos; lra). lra.
Qed.

(** the curve where the tail begins *)
Definition tail_n : Z := (3442619855899 * 3442619855899)%Z.
Definition tail_d : Z := (2 * 10 ^ 24 * 2 ^ 10)%Z.
Lemma tail_check : ((0 <=? start tail_n tail_d) && (0 <=? start (- tail_n) tail_d) && (26696285 * one64 <=? low (- tail_n) tail_d * 10 ^ 10) && (one64 * 10 ^ 10 <=? low tail_n tail_d * 26696297))%Z = true.
Proof. vm_compute. reflexivity. Qed.
Lemma tail_d_pos : (0 < tail_d)%Z. Proof. reflexivity. Qed.
Lemma tail_exponent : IZR tail_n / IZR tail_d * 2 ^ 10 = tail_start * tail_start / 2.
Proof. unfold tail_n, tail_d. rewrite !mult_IZR, (powZ 10 10 eq_refl). change (IZR (10 ^ 24)) with 1000000000000000000000000. unfold tail_start. cbn [pow]. lra. Qed.
Lemma tail_lows : exists l1 l2, 26696285 * IZR one64 <= IZR l2 * 10000000000 /\ IZR one64 * 10000000000 <= IZR l1 * 26696297 /\
  IZR l1 / IZR one64 <= exp (IZR tail_n / IZR tail_d * 2 ^ 10) /\ IZR l2 / IZR one64 <= exp (IZR (- tail_n) / IZR tail_d * 2 ^ 10).
Proof.
  exists (low tail_n tail_d), (low (- tail_n) tail_d). pose proof tail_check as A. apply andb_true_iff in A as (A & A1). apply andb_true_iff in A as (A & A2). apply andb_true_iff in A as (S1 & S2).
  apply Z.leb_le in A1, A2. split; [|split; [|split; [exact (low_le _ _ tail_d_pos S1)|exact (low_le _ _ tail_d_pos S2)]]].
  - change 26696285 with (IZR 26696285). change 10000000000 with (IZR (10 ^ 10)). rewrite <- !mult_IZR. apply IZR_le. exact A2.
  - change 26696297 with (IZR 26696297). change 10000000000 with (IZR (10 ^ 10)). rewrite <- !mult_IZR. apply IZR_le. exact A1.
Qed.
Lemma from_lows (X B o k1 k2 : R) : 0 < o -> 0 < B -> X * B = 1 -> 26696285 * o <= k2 * 10000000000 -> o * 10000000000 <= k1 * 26696297 ->
  k1 / o <= X -> k2 / o <= B -> 0.0026696285 <= B <= 0.0026696297.
Proof.
  intros O Bp N A2 A1 L1 L2.
  assert (M1 : k1 <= X * o) by (apply (Rmult_le_reg_r (/ o)); [now apply Rinv_0_lt_compat|]; replace (X * o * / o) with X by (field; lra); exact L1).
  assert (M2 : k2 <= B * o) by (apply (Rmult_le_reg_r (/ o)); [now apply Rinv_0_lt_compat|]; replace (B * o * / o) with B by (field; lra); exact L2).
  split.
  - apply (Rmult_le_reg_r o); [lra|]. lra.
  - assert (H : 10000000000 <= X * 26696297) by (apply (Rmult_le_reg_r o); lra).
    assert (H1 : 10000000000 * B <= X * 26696297 * B) by (apply Rmult_le_compat_r; lra). replace (X * 26696297 * B) with (26696297 * (X * B)) in H1 by ring. rewrite N in H1. lra.
Qed.
Lemma bell_inverse x : exp (x * x / 2) * bell x = 1.
Proof. unfold bell. rewrite <- exp_plus. replace (x * x / 2 + - (x * x / 2)) with 0 by ring. apply exp_0. Qed.
Lemma tail_exponent_neg : IZR (- tail_n) / IZR tail_d * 2 ^ 10 = - (tail_start * tail_start / 2).
Proof. rewrite <- tail_exponent, opp_IZR. generalize (IZR tail_n) (IZR tail_d). intros. unfold Rdiv. ring. Qed.
Lemma bell_tail : 0.0026696285 <= bell tail_start <= 0.0026696297.
Proof.
  destruct tail_lows as (l1 & l2 & A2 & A1 & L1 & L2). rewrite tail_exponent in L1. rewrite tail_exponent_neg in L2.
  exact (from_lows (exp (tail_start * tail_start / 2)) (bell tail_start) (IZR one64) (IZR l1) (IZR l2) one64_pos (bell_pos _) (bell_inverse _) A2 A1 L1 L2).
Qed.
Lemma bell_10 b : 10 <= b -> bell b <= / 10 ^ 15.
Proof.
  intros H. apply Rle_trans with (bell 10); [apply bell_le; rewrite !Rabs_right by lra; lra|]. unfold bell. replace (- (10 * 10 / 2)) with (- (50)) by lra. rewrite exp_Ropp.
  assert (G : forall n, exp (5 * INR n) = exp 5 ^ n).
  { induction n as [|n IH]; [cbn [pow INR]; rewrite Rmult_0_r, exp_0; reflexivity|]. cbn [pow]. rewrite <- IH, <- exp_plus, S_INR. f_equal. ring. }
  apply Rinv_le_contravar; [apply pow_lt; lra|]. assert (E : exp 50 = exp 5 ^ 10) by (rewrite <- G; f_equal; rewrite INR_IZR_INZ; cbn; lra).
  rewrite E. apply Rle_trans with (38 ^ 10); [cbn [pow]; lra|]. apply pow_incr. pose proof (exp_ge_3 5). lra.
Qed.
Lemma bounds_at : upper tail_start <= 0.270490 /\ 0.270455 <= lower tail_start.
Proof.
  unfold upper, lower, tail_start. split.
  - apply (Rmult_le_reg_r (3.442619855899 ^ 5 + 10 * 3.442619855899 ^ 3 + 15 * 3.442619855899)); [apply upper_pos; lra|]. unfold Rdiv. rewrite Rmult_assoc, Rinv_l by (pose proof (upper_pos 3.442619855899); lra). cbn [pow]. lra.
  - apply (Rmult_le_reg_r (3.442619855899 ^ 6 + 15 * 3.442619855899 ^ 4 + 45 * 3.442619855899 ^ 2 + 15)); [apply lower_pos; lra|]. unfold Rdiv. rewrite Rmult_assoc, Rinv_l by (pose proof (lower_pos 3.442619855899); lra). cbn [pow]. lra.
Qed.
Lemma tail_integral b : 10 <= b -> 0.00072200 <= RInt bell tail_start b <= 0.00072211.
Proof.
  intros H. destruct (integral_bounds tail_start b) as (L & U); [unfold tail_start; lra|unfold tail_start; lra|]. destruct bounds_at as (Bu & Bl). pose proof bell_tail as (T1 & T2). pose proof (bell_10 b H) as B10. pose proof (bell_pos b) as Bp.
  assert (U0 : 0 < upper b). { unfold upper. apply Rdiv_lt_0_compat; [|apply upper_pos; lra]. pose proof (pow_lt b 4 ltac:(lra)). pose proof (pow_lt b 2 ltac:(lra)). lra. }
  assert (L0 : 0 < lower b). { unfold lower. apply Rdiv_lt_0_compat; [|apply lower_pos; lra]. pose proof (pow_lt b 5 ltac:(lra)). pose proof (pow_lt b 3 ltac:(lra)). lra. }
  assert (L1 : lower b <= 1).
  { unfold lower. pose proof (lower_pos b ltac:(lra)) as Q. apply (Rmult_le_reg_r (b ^ 6 + 15 * b ^ 4 + 45 * b ^ 2 + 15)); [exact Q|]. unfold Rdiv. rewrite Rmult_assoc, Rinv_l by lra. rewrite Rmult_1_r, Rmult_1_l.
    assert (b ^ 5 <= b ^ 6) by (apply Rle_pow; [lra|lia]). assert (b ^ 3 <= b ^ 4) by (apply Rle_pow; [lra|lia]). assert (b ^ 1 <= b ^ 2) by (apply Rle_pow; [lra|lia]). rewrite pow_1 in *.
    assert (0 < b ^ 4) by (apply pow_lt; lra). assert (0 < b ^ 2) by (apply pow_lt; lra). assert (0 < b ^ 3) by (apply pow_lt; lra). lra. }
  split.
  - assert (lower b * bell b <= 1 * / 10 ^ 15) by (apply Rmult_le_compat; lra). assert (0.270455 * 0.0026696285 <= lower tail_start * bell tail_start) by (apply Rmult_le_compat; lra).
    assert (1 * / 10 ^ 15 <= 0.000000000001) by (cbn [pow]; lra). lra.
  - assert (0 <= upper b * bell b) by (apply Rmult_le_pos; lra). assert (upper tail_start * bell tail_start <= 0.270490 * 0.0026696297).
    { apply Rmult_le_compat; try lra. unfold upper. left. apply Rdiv_lt_0_compat; [unfold tail_start; cbn [pow]; lra|apply upper_pos; unfold tail_start; lra]. }
    lra.
Qed.
Lemma tail_share_eq : tail_share = 1 - 1991057938 / 2 ^ 31.
Proof.
  unfold tail_share, inner, edge. destruct base_facts as (P & _). unfold edge in P. set (w := real (nth 0 wn fzero)) in *.
  assert (w <> 0) by (intros Q; rewrite Q in P; lra). change (nth 0 kn 0%Z) with 1991057938%Z. field. assumption.
Qed.
Theorem tail_weight b : 10 <= b -> Rabs (RInt bell tail_start b - area * tail_share) <= area * tail_share / 2 ^ 12.
Proof.
  intros H. pose proof (tail_integral b H) as I. rewrite tail_share_eq. unfold area. change (IZR area_num) with 99125630. change (IZR area_den) with 10000000000.
  apply Rabs_le. set (J := RInt _ _ _) in *. clearbody J. cbn [pow]. lra.
Qed.
