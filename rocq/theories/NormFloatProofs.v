(** * The divisor of the normalization layers *)
From Coq Require Import ZArith Bool Lia List Arith Reals Lra Psatz.
From Flocq Require Import Core BinarySingleNaN.
From Verif Require Import FloatModel FloatSpec NumModel NumSpec NumLemmas AsmFloatSpec AsmFloat AsmFloat2 AsmModel AsmCalls AsmSpec OptFloatModel OptFloatNum NormFloatModel NormFloatSpec NormFloatNum.
Import ListNotations.
Local Open Scope R_scope.

Lemma zip_same {A B} (f : A -> A -> B) x : zip f x x = map (fun v => f v v) x.
Proof. induction x; cbn; congruence. Qed.
Lemma few_small d n : few d n -> 16 * u d <= rho d n <= / 200 /\ INR n * u d <= rho d n - 16 * u d.
Proof. unfold few, rho. intros H. pose proof (u_small d) as (P & L). pose proof (pos_INR n). assert (0 <= INR n * u d) by (apply Rmult_le_pos; lra). lra. Qed.
Lemma few_gamma d n : few d n -> gamma d n <= 1.01 * (rho d n - 16 * u d).
Proof.
  intros H. destruct (few_small d n H) as (A & B). pose proof (gamma_bound d n ltac:(unfold few in H; lra)) as G. pose proof (pos_INR n). pose proof (u_pos d).
  assert (0 <= INR n * u d) by (apply Rmult_le_pos; lra). unfold few in H. set (k := INR n * u d) in *. clearbody k. assert (k * k <= k * / 2 ^ 8) by (apply Rmult_le_compat_l; lra). lra.
Qed.
Lemma smallest d (x : val d) : finite x -> 0 < real x -> 2 * half_tiny d <= real x.
Proof.
  intros F P. assert (S : is_finite_strict x = true) by (destruct x; try discriminate; [cbn in P; lra|reflexivity]).
  pose proof (abs_B2R_ge_emin (prec d) (emax d) x S) as H. fold (real x) in H. rewrite Rabs_right in H by lra. rewrite half_tiny_eq.
  replace (2 * (/ 2 * bpow radix2 (3 - emax d - prec d))) with (bpow radix2 (3 - emax d - prec d)) by field. exact H.
Qed.

(** what is needed of the (mean of the) sum of squares *)
Definition s_max (d : dtype) : R := match d with F32 => 2 ^ 120 | F64 => 2 ^ 930 end.
Record sq_ok (d : dtype) (c : R) (x : list (val d)) (s : val d) : Prop := {
  sq_finite : finite s;
  sq_range : 0 <= real s <= s_max d;
  sq_error : Rabs (real s - c * squares (reals x)) <= 1.5 * rho d (length x) * (c * squares (reals x)) + 4 * INR (length x) * half_tiny d;
  sq_each : 0 < real s -> Forall (fun v => c * real v ^ 2 <= 3 * real s) x
}.

Lemma squares_pos x : 0 <= squares x.
Proof. induction x; cbn [squares fold_right]; [lra|]. fold (squares x). pose proof (pow2_ge_0 a). lra. Qed.
Lemma squares_le d B (x : list (val d)) : sized B x -> squares (reals x) <= INR (length x) * (B * B).
Proof.
  induction 1 as [|v x (F & H) _ IH]; cbn [reals map squares fold_right length]; [cbn; lra|]. fold (reals x) (squares (reals x)). rewrite S_INR.
  assert (B2R v ^ 2 <= B * B). { rewrite <- Rsqr_pow2, Rsqr_abs. unfold Rsqr. apply Rmult_le_compat; auto; apply Rabs_pos. } lra.
Qed.
Lemma rep_max d : rep d (in_max d * in_max d).
Proof. unfold in_max. destruct d; rewrite <- pow_add; apply rep_pow2; cbn; lia. Qed.
Lemma in_max_pos d : 1 <= in_max d.
Proof. destruct d; apply pow_R1_Rle; lra. Qed.
(** the squares *)
Lemma square_elems d (x : list (val d)) : sized (in_max d) x ->
  Forall finite (square d x) /\ Forall (fun q => 0 <= real q) (square d x) /\ length (square d x) = length x /\
  Rabs (total (square d x) - squares (reals x)) <= u d * squares (reals x) + INR (length x) * half_tiny d /\
  total_abs (square d x) = total (square d x) /\
  Forall2 (fun v q => (1 - u d) * real v ^ 2 - half_tiny d <= real q) x (square d x).
Proof.
  intros H. unfold square. rewrite zip_same. induction H as [|v x (F & H) HH IH]; cbn [map].
  - repeat split; auto. cbn. rewrite Rminus_0_r, Rabs_R0. lra.
  - destruct IH as (F1 & P1 & L1 & E1 & A1 & D1). change (finite v) in F. fold (real v) in H.
    assert (Q : 0 <= real v * real v <= in_max d * in_max d). { split; [nra|]. rewrite <- Rabs_right with (r := real v * real v) by nra. rewrite Rabs_mult. apply Rmult_le_compat; auto; apply Rabs_pos. }
    destruct (mul_in d v v 0 (in_max d * in_max d) F F (rep_0 d) (rep_max d) Q) as (Fq & Rq & Eq). pose proof (round_error d (real v * real v)) as N. rewrite <- Eq in N.
    rewrite (Rabs_right (real v * real v)) in N by lra.
    repeat split; try (constructor; auto; tauto).
    + cbn [length]. now rewrite map_length.
    + cbn [total fold_right reals map squares length]. fold (total (map (fun v => fmul v v) x)) (reals x) (squares (reals x)). rewrite S_INR. fold (real v).
      replace (real v ^ 2) with (real v * real v) by ring. set (a := real (fmul v v)) in *. set (b := real v * real v) in *. set (t := total _) in *. set (s := squares _) in *.
      replace (a + t - (b + s)) with ((a - b) + (t - s)) by ring. eapply Rle_trans; [apply Rabs_triang|]. lra.
    + cbn [total total_abs fold_right]. fold (total (map (fun v => fmul v v) x)) (total_abs (map (fun v => fmul v v) x)). rewrite A1, Rabs_right by lra. reflexivity.
    + constructor; [|exact D1]. apply rabs_le in N. fold (real v). replace (real v ^ 2) with (real v * real v) by ring. lra.
Qed.
Lemma few_max d n : few d n -> 4 * (INR n * (in_max d * in_max d)) <= s_max d / 4.
Proof.
  unfold few, in_max, s_max, u. intros H. pose proof (pos_INR n).
  assert (Y : INR n <= match d with F32 => 2 ^ 16 | F64 => 2 ^ 45 end).
  { apply (Rmult_le_reg_r (/ 2 ^ match d with F32 => 24 | F64 => 53 end)); [apply Rinv_0_lt_compat, pow_lt; lra|]. eapply Rle_trans; [exact H|]. right. destruct d; field. }
  destruct d.
  - replace (2 ^ 50 * 2 ^ 50) with (2 ^ 100) by (rewrite <- pow_add; f_equal; lia). replace (2 ^ 120) with (2 ^ 20 * 2 ^ 100) by (rewrite <- pow_add; f_equal; lia). assert (0 < 2 ^ 100) by (apply pow_lt; lra). set (k := 2 ^ 100) in *. clearbody k. nra.
  - replace (2 ^ 440 * 2 ^ 440) with (2 ^ 880) by (rewrite <- pow_add; f_equal; lia). replace (2 ^ 930) with (2 ^ 50 * 2 ^ 880) by (rewrite <- pow_add; f_equal; lia). assert (0 < 2 ^ 880) by (apply pow_lt; lra). set (k := 2 ^ 880) in *. clearbody k. nra.
Qed.
Lemma s_max_pos d : 0 < s_max d.
Proof. destruct d; apply pow_lt; lra. Qed.
Lemma s_max_rep d : rep d (s_max d / 4) /\ s_max d <= largest d.
Proof.
  destruct d; unfold s_max, largest; split.
  - replace (2 ^ 120 / 4) with (1 * bpow radix2 118). { apply (rep_dyadic F32 (2 ^ 23) 95). change (IZR (2 ^ 23)) with (bpow radix2 23). rewrite <- bpow_plus. rewrite Rmult_1_l. reflexivity. reflexivity. cbn; lia. cbn; lia. }
    change 118%Z with (Z.of_nat 118). rewrite <- pow2. replace (2 ^ 120) with (2 ^ 2 * 2 ^ 118) by (rewrite <- pow_add; f_equal; lia). field.
  - replace (2 ^ 120) with (2 ^ 16 * 2 ^ 104) by (rewrite <- pow_add; f_equal; lia). assert (0 < 2 ^ 104) by (apply pow_lt; lra). set (k := 2 ^ 104) in *. clearbody k. nra.
  - replace (2 ^ 930 / 4) with (2 ^ 928); [apply rep_pow2; cbn; lia|]. replace (2 ^ 930) with (2 ^ 2 * 2 ^ 928) by (rewrite <- pow_add; f_equal; lia). field.
  - replace (2 ^ 971) with (2 ^ 41 * 2 ^ 930) by (rewrite <- pow_add; f_equal; lia). assert (0 < 2 ^ 930) by (apply pow_lt; lra). set (k := 2 ^ 930) in *. clearbody k. nra.
Qed.
Lemma n_tiny d n : few d n -> INR n * half_tiny d <= 1.
Proof. intros H. pose proof (pos_INR n). assert (half_tiny d <= u d). { pose proof (u_pos d). destruct d; unfold half_tiny, u; apply Rinv_le_contravar; try (apply pow_lt; lra); apply Rle_pow; try lra; lia. } unfold few in H. nra. Qed.

(** the sum of the squares *)
Lemma sum_squares d k sum (x : list (val d)) : adds_all sum -> sized (in_max d) x -> few d (length x) ->
  let s := sum k (square d x) in
  finite s /\ 0 <= real s <= s_max d / 4 /\
  Rabs (real s - squares (reals x)) <= 1.01 * rho d (length x) * squares (reals x) + 2 * (INR (length x) * half_tiny d) /\
  Forall (fun v => (1 - u d) * real v ^ 2 - half_tiny d <= real s) x.
Proof.
  intros A H Hn s. destruct (square_elems d x H) as (F & P & L & E & TA & D). pose proof (few_max d _ Hn) as M. pose proof (squares_le d _ x H) as SL. pose proof (squares_pos (reals x)) as SP.
  pose proof (few_gamma d _ Hn) as G. pose proof (few_small d _ Hn) as (R1 & R2). pose proof (gamma_pos d (length x)) as G0. pose proof (n_tiny d _ Hn) as NT. pose proof (pos_INR (length x)) as PN.
  pose proof (in_max_pos d) as X1. pose proof (u_small d) as (U0 & U1). pose proof (half_tiny_pos d) as H0.
  pose proof (A k (square d x)) as S. fold s in S. pose proof (total_abs_pos d (square d x)) as TP. rewrite TA in TP.
  set (N := squares (reals x)) in *. set (t := total (square d x)) in *. set (g := gamma d (length x)) in *. set (r := rho d (length x)) in *. set (nh := INR (length x) * half_tiny d) in *. set (n := INR (length x)) in *. set (U := u d) in *. set (Y := in_max d * in_max d) in *.
  assert (Pnh : 0 <= nh) by (unfold nh; apply Rmult_le_pos; lra).
  assert (Tl : t <= 2 * (n * Y)).
  { destruct x as [|v0 x0]. { replace t with 0 by reflexivity. assert (0 <= n * Y) by (apply Rmult_le_pos; [lra|unfold Y; nra]). lra. }
    assert (n1 : 1 <= n). { unfold n. cbn [length]. rewrite S_INR. pose proof (pos_INR (length x0)). lra. } assert (Y1 : 1 <= Y) by (unfold Y; nra). apply rabs_le in E.
    assert (U * N <= / 2 * N) by (apply Rmult_le_compat_r; lra). assert (nh <= / 2 * (n * Y)). { unfold nh. rewrite <- Rmult_assoc, (Rmult_comm (/2)), Rmult_assoc. apply Rmult_le_compat_l; [lra|]. pose proof (tiny_small d). lra. } lra. }
  assert (Fs : finite s).
  { apply (sum_finite d s _ S F). change (lane (floats d)) with (val d). rewrite TA, L. fold t g. pose proof (s_max_rep d) as (_ & ML). assert ((1 + g) * t <= 2 * t) by (apply Rmult_le_compat_r; lra). lra. }
  destruct (sum_error d s _ S Fs) as (_ & ER). change (lane (floats d)) with (val d) in ER. rewrite TA, L in ER. fold t in ER. destruct (sum_dominates d s _ S Fs P) as (S0 & DM).
  assert (G1 : gamma d (length x - 1) <= g) by (apply gamma_le; lia). pose proof (gamma_pos d (length x - 1)) as G10. set (g1 := gamma d (length x - 1)) in *.
  assert (ER' : Rabs (real s - t) <= g * t). { eapply Rle_trans; [exact ER|]. apply Rmult_le_compat_r; lra. }
  split; [exact Fs|]. split; [|split].
  - apply rabs_le in ER'. split; [exact S0|]. assert (g * t <= 1 * t) by (apply Rmult_le_compat_r; lra). lra.
  - apply rabs_le in E. assert (TN : t <= (1 + U) * N + nh) by lra. replace (real s - N) with ((real s - t) + (t - N)) by ring. eapply Rle_trans; [apply Rabs_triang|].
    assert (g * t <= g * ((1 + U) * N + nh)) by (apply Rmult_le_compat_l; lra). assert (Rabs (t - N) <= U * N + nh) by (apply le_rabs; lra).
    assert (g * nh <= nh) by (assert (g <= 1) by lra; nra). assert (g * ((1 + U) * N) <= 1.01 * (r - 16 * U) * ((1 + U) * N)) by (apply Rmult_le_compat_r; [nra|lra]).
    assert ((1.01 * (r - 16 * U) * (1 + U) + U) * N <= (1.01 * r) * N) by (apply Rmult_le_compat_r; nra). lra.
  - clear - D DM. revert DM. generalize (real s). intros z DM. induction D as [|v q x l Hq D IH]; [constructor|]. inversion DM; subst. constructor; [lra|auto].
Qed.
Lemma fix_square_ok d sum (x : list (val d)) : adds_all sum -> sized (in_max d) x -> few d (length x) -> sq_ok d 1 x (fix_square d sum x).
Proof.
  intros A H Hn. destruct (sum_squares d 0 sum x A H Hn) as (F & Rg & E & D). unfold fix_square. set (s := sum 0%nat (square d x)) in *.
  pose proof (few_small d _ Hn) as (R1 & _). pose proof (u_small d) as (U0 & U1). pose proof (squares_pos (reals x)) as SP. pose proof (pos_INR (length x)). pose proof (half_tiny_pos d).
  split.
  - exact F.
  - pose proof (s_max_pos d). lra.
  - rewrite Rmult_1_l. eapply Rle_trans; [exact E|]. assert (0 <= INR (length x) * half_tiny d) by (apply Rmult_le_pos; lra). assert (1.01 * rho d (length x) * squares (reals x) <= 1.5 * rho d (length x) * squares (reals x)) by (apply Rmult_le_compat_r; lra). lra.
  - intros Ps. pose proof (smallest d s F Ps) as Sm. eapply Forall_impl; [|exact D]. cbn beta. intros v Hv. rewrite Rmult_1_l. pose proof (pow2_ge_0 (real v)). assert (u d * real v ^ 2 <= / 2 * real v ^ 2) by (apply Rmult_le_compat_r; lra). lra.
Qed.

(** one over the number of elements *)
Lemma few_int d n : few d n -> (Z.of_nat n < 2 ^ 46)%Z.
Proof.
  unfold few, u. intros H. apply lt_IZR. rewrite <- INR_IZR_INZ. change (IZR (2 ^ 46)) with (bpow radix2 (Z.of_nat 46)). rewrite <- pow2.
  apply (Rmult_lt_reg_r (/ 2 ^ match d with F32 => 24 | F64 => 53 end)); [apply Rinv_0_lt_compat, pow_lt; lra|]. eapply Rle_lt_trans; [exact H|]. destruct d; lra.
Qed.
Lemma of_size_eq d n : few d n -> finite (of_size n) /\ real (of_size n) = INR n.
Proof.
  intros H. pose proof (few_int d n H). unfold of_size. apply lit_eq; try (cbn; lia). rewrite INR_IZR_INZ. cbn [bpow]. ring.
Qed.
Lemma inverse_size d n : few d n -> (0 < n)%nat ->
  finite (conv F64 d (fdiv fone (of_size n))) /\ 0 <= real (conv F64 d (fdiv fone (of_size n))) <= 1 /\ rel (5 * u d) (real (conv F64 d (fdiv fone (of_size n)))) (/ INR n).
Proof.
  intros H Hp. destruct (of_size_eq d n H) as (Fs & Es). destruct (one_eq F64) as (F1 & E1). assert (1 <= INR n) by (change 1 with (INR 1); apply le_INR; lia).
  assert (Q : 0 <= real (fone : val F64) / real (of_size n) <= 1). { rewrite E1, Es. unfold Rdiv. rewrite Rmult_1_l. split; [left; apply Rinv_0_lt_compat; lra|]. rewrite <- Rinv_1. apply Rinv_le_contravar; lra. }
  destruct (div_in F64 fone (of_size n) 0 1 F1 ltac:(rewrite Es; lra) (rep_0 _) (rep_1 _) Q) as (F2 & R2 & E2).
  destruct (conv_in F64 d _ 0 1 F2 (rep_0 _) (rep_1 _) R2) as (F3 & R3 & E3). split; [exact F3|]. split; [exact R3|].
  pose proof (round_error F64 (real (fone : val F64) / real (of_size n))) as N2. rewrite <- E2 in N2. pose proof (round_error d (real (fdiv fone (of_size n)))) as N3. rewrite <- E3 in N3.
  rewrite E1, Es in N2. unfold Rdiv in N2. rewrite Rmult_1_l in N2.
  assert (Lo : / 2 ^ 46 <= / INR n). { apply Rinv_le_contravar; [lra|]. pose proof (few_int d n H) as K. apply IZR_lt in K. rewrite <- INR_IZR_INZ in K. change (IZR (2 ^ 46)) with (bpow radix2 (Z.of_nat 46)) in K. rewrite <- pow2 in K. lra. }
  assert (T : half_tiny d <= u d * / 2 ^ 50). { destruct d; unfold half_tiny, u; rewrite <- Rinv_mult, <- pow_add; apply Rinv_le_contravar; try (apply pow_lt; lra); apply Rle_pow; try lra; lia. }
  pose proof (u_small d) as (U0 & U1). pose proof (half_tiny_pos d).
  apply (near_64 d) in N2. apply near_rel in N2; [|rewrite Rabs_right by lra; eapply Rle_trans; [exact T|]; apply Rmult_le_compat_l; lra].
  pose proof (Rabs_right (/ INR n) ltac:(lra)) as AR. 
  assert (N2' := N2). unfold rel in N2'. rewrite AR in N2'. apply rabs_le in N2'.
  apply near_rel in N3; [|rewrite Rabs_right by lra; eapply Rle_trans; [exact T|]; apply Rmult_le_compat_l; [lra|]; assert (2 * u d * / INR n <= / 2 * / INR n) by (apply Rmult_le_compat_r; lra); lra].
  eapply rel_le; [eapply rel_trans; [|exact N3|exact N2]; lra|]. nra.
Qed.
Lemma rms_square_ok d sum (x : list (val d)) : adds_all sum -> sized (in_max d) x -> few d (length x) -> (0 < length x)%nat -> sq_ok d (/ INR (length x)) x (rms_square d sum x).
Proof.
  intros A H Hn Hp. destruct (sum_squares d 0 sum x A H Hn) as (F & Rg & E & D). unfold rms_square, reduce_mean. 
  assert (Ls : length (square d x) = length x) by apply (square_elems d x H). rewrite Ls. set (t := sum 0%nat (square d x)) in *.
  destruct (inverse_size d _ Hn Hp) as (Fi & Ri & Ei). set (i := conv F64 d (fdiv fone (of_size (length x)))) in *.
  pose proof (few_small d _ Hn) as (R1 & R2). pose proof (u_small d) as (U0 & U1). pose proof (squares_pos (reals x)) as SP. pose proof (half_tiny_pos d) as H0.
  assert (n1 : 1 <= INR (length x)) by (change 1 with (INR 1); apply le_INR; lia).
  assert (Q : 0 <= real t * real i <= s_max d / 4). { split; [apply Rmult_le_pos; lra|]. assert (real t * real i <= real t * 1) by (apply Rmult_le_compat_l; lra). lra. }
  destruct (mul_in d t i 0 _ F Fi (rep_0 d) (proj1 (s_max_rep d)) Q) as (Fs & Rs & Es). set (s := fmul t i) in *.
  pose proof (round_error d (real t * real i)) as N. rewrite <- Es, (Rabs_right (real t * real i)) in N by lra. unfold rel in Ei. 
  assert (Pn : 0 < / INR (length x) <= 1). { split; [apply Rinv_0_lt_compat; lra|]. rewrite <- Rinv_1. apply Rinv_le_contravar; lra. } rewrite (Rabs_right (/ INR (length x))) in Ei by lra.
  set (n := INR (length x)) in *. set (c := / n) in *. set (S := squares (reals x)) in *. set (r := rho d (length x)) in *. set (h := half_tiny d) in *. set (U := u d) in *.
  assert (cn : c * n = 1) by (unfold c; field; lra). 
  enough (HH : 0 <= real s <= s_max d /\ Rabs (real s - c * S) <= 1.5 * r * (c * S) + 4 * n * h /\ (0 < real s -> Forall (fun v => c * real v ^ 2 <= 3 * real s) x)) by (destruct HH as (HH1 & HH2 & HH3); split; [exact Fs|exact HH1|exact HH2|exact HH3]).
  assert (Sm0 : 0 < real s -> 2 * h <= real s) by (apply (smallest d s Fs)).
  clearbody c n S r h U. split; [|split].
  - pose proof (s_max_pos d). lra.
  - apply rabs_le in N, Ei, E. assert (B1 : Rabs (real t * real i - c * S) <= 1.01 * r * (c * S) + 2 * h + 5 * U * (c * ((1 + 1.01 * r) * S + 2 * (n * h)))).
    { replace (real t * real i - c * S) with (c * (real t - S) + real t * (real i - c)) by ring. eapply Rle_trans; [apply Rabs_triang|]. rewrite !Rabs_mult, (Rabs_right c), (Rabs_right (real t)) by lra.
      assert (c * Rabs (real t - S) <= c * (1.01 * r * S + 2 * (n * h))) by (apply Rmult_le_compat_l; [lra|]; apply le_rabs; lra).
      assert (real t * Rabs (real i - c) <= ((1 + 1.01 * r) * S + 2 * (n * h)) * (5 * U * c)) by (apply Rmult_le_compat; [lra|apply Rabs_pos|lra|apply le_rabs; lra]).
      replace (c * (1.01 * r * S + 2 * (n * h))) with (1.01 * r * (c * S) + 2 * h * (c * n)) in * by ring. rewrite cn in *. lra. }
    replace (5 * U * (c * ((1 + 1.01 * r) * S + 2 * (n * h)))) with (5 * U * ((1 + 1.01 * r) * (c * S)) + 10 * U * h * (c * n)) in B1 by ring. rewrite cn in B1.
    assert (CS : 0 <= c * S) by (apply Rmult_le_pos; lra). set (w := c * S) in *. clearbody w. assert (rU : U * r <= U * / 200) by (apply Rmult_le_compat_l; lra).
    assert (B2 : Rabs (real t * real i - w) <= 1.5 * r * w - 1.05 * U * w + 2.1 * h).
    { eapply Rle_trans; [exact B1|]. assert (10 * U * h <= 0.1 * h) by (apply Rmult_le_compat_r; lra). assert ((1.01 * r + 5 * U * (1 + 1.01 * r)) * w <= (1.5 * r - 1.05 * U - U * / 200) * w) by (apply Rmult_le_compat_r; lra). assert (0 <= U * / 200 * w) by (apply Rmult_le_pos; lra). lra. }
    apply rabs_le in B2. apply le_rabs. assert (U * (real t * real i) <= U * ((1 + 0.01) * w + 2.1 * h)). { apply Rmult_le_compat_l; [lra|]. assert (1.5 * r * w <= 0.01 * w) by (apply Rmult_le_compat_r; lra). assert (0 <= U * w) by (apply Rmult_le_pos; lra). lra. }
    assert (U * (2.1 * h) <= 0.1 * h) by nra. assert (1 * h <= n * h) by (apply Rmult_le_compat_r; lra). split; lra.
  - intros Ps. pose proof (Sm0 Ps) as Sm. apply rabs_le in N, Ei. eapply Forall_impl; [|exact D]. cbn beta. intros v Hv. pose proof (pow2_ge_0 (real v)) as V0. set (q := real v ^ 2) in *. clearbody q.
    assert (q <= 1.001 * real t + 1.001 * h) by nra. assert (c * q <= c * (1.001 * real t + 1.001 * h)) by (apply Rmult_le_compat_l; lra). assert (c * h <= h) by nra.
    assert (c * real t <= 1.001 * (real t * real i)). { rewrite (Rmult_comm (real t)), <- Rmult_assoc. apply Rmult_le_compat_r; [lra|]. assert (5 * U * c <= 0.0001 * c) by (apply Rmult_le_compat_r; lra). lra. }
    assert (real t * real i <= 1.001 * (real s + h)) by (assert (U * (real t * real i) <= 0.0005 * (real t * real i)) by (apply Rmult_le_compat_r; lra); lra). lra.
Qed.

(** ** The root and the divisor *)
Lemma guard_low : / 2 ^ 34 <= guard10 <= / 2 ^ 33.
Proof. unfold guard10. split; apply Rinv_le_contravar; try (apply pow_lt; lra); cbn; lra. Qed.
Lemma eps10_eq d : finite (eps10 d) /\ rel (3 * u d) (real (eps10 d)) guard10.
Proof.
  assert (L : finite go_1em10 /\ real go_1em10 = IZR 7737125245533627 * bpow radix2 (-86)) by (apply lit_eq; [reflexivity|cbn; lia..]). destruct L as (F & E).
  assert (EG : Rabs (real go_1em10 - guard10) <= u F64 * guard10 * / 2).
  { rewrite E. unfold guard10, u. change (bpow radix2 (-86)) with (/ 77371252455336267181195264). change (7737125245533627) with (IZR 7737125245533627). apply le_rabs. lra. }
  pose proof guard_low as GL. pose proof (u_small d) as (U0 & U1). pose proof (u64_le d) as U6. pose proof (u_pos F64) as U60.
  assert (EG' : rel (/ 2 * u d) (real go_1em10) guard10). { unfold rel. rewrite (Rabs_right guard10) by lra. eapply Rle_trans; [exact EG|]. assert (u F64 * guard10 <= u d * guard10) by (apply Rmult_le_compat_r; lra). lra. }
  assert (B : Rabs (real go_1em10) <= 1). { apply rel_abs in EG'. rewrite (Rabs_right guard10) in EG' by lra. assert (/ 2 ^ 33 <= / 2) by lra. nra. }
  destruct (conv_op (d := d) go_1em10 1 F (rep_1 d) B) as (F1 & _ & N). split; [exact F1|]. fold (eps10 d) in *.
  apply near_rel in N.
  - eapply rel_le; [eapply rel_trans; [|exact N|exact EG']; lra|]. nra.
  - assert (T : half_tiny d <= u d * / 2 ^ 50) by (destruct d; unfold half_tiny, u; rewrite <- Rinv_mult, <- pow_add; apply Rinv_le_contravar; try (apply pow_lt; lra); apply Rle_pow; try lra; lia).
    eapply Rle_trans; [exact T|]. apply Rmult_le_compat_l; [lra|]. unfold rel in EG'. rewrite (Rabs_right guard10) in EG' by lra. apply rabs_le in EG'. assert (/ 2 * u d * guard10 <= / 2 * guard10) by (apply Rmult_le_compat_r; lra). rewrite Rabs_right by lra. lra.
Qed.
Lemma sqrt_near d (s : val d) B : finite s -> 0 <= real s <= B * B -> 0 <= B -> rep d B -> rep F64 B ->
  finite (elem_sqrt d s) /\ 0 <= real (elem_sqrt d s) <= B /\ Rabs (real (elem_sqrt d s) - sqrt (real s)) <= 2.1 * u d * sqrt (real s) + 2.1 * half_tiny d.
Proof.
  intros F (P & L) HB R R64. unfold elem_sqrt. destruct (conv_up d s F) as (F1 & E1).
  destruct (sqrt64_spec (conv d F64 s) F1) as (F2 & E2); [rewrite E1; exact P|]. rewrite E1 in E2.
  assert (SB : 0 <= sqrt (real s) <= B). { split; [apply sqrt_pos|]. rewrite <- (sqrt_square B HB). apply sqrt_le_1_alt, L. }
  assert (S2 : 0 <= real (sqrt64 (conv d F64 s)) <= B). { rewrite E2. destruct (between F64 0 _ B (rep_0 F64) R64 SB) as (_ & Q). exact Q. }
  destruct (conv_in F64 d _ 0 B F2 (rep_0 d) R S2) as (F3 & Q3 & E3). split; [exact F3|]. split; [exact Q3|].
  pose proof (round_error F64 (sqrt (real s))) as A. rewrite <- E2 in A. apply (near_64 d) in A. unfold near_to in A. pose proof (round_error d (real (sqrt64 (conv d F64 s)))) as C. rewrite <- E3 in C.
  set (s1 := real (sqrt64 (conv d F64 s))) in *. set (s0 := sqrt (real s)) in *. set (s2 := real (conv F64 d (sqrt64 (conv d F64 s)))) in *. clearbody s0 s1 s2.
  rewrite (Rabs_right s0) in A by lra. rewrite (Rabs_right s1) in C by lra. apply rabs_le in A, C. apply le_rabs. pose proof (u_small d) as (U0 & U1). pose proof (half_tiny_pos d) as H0.
  assert (u d * s1 <= u d * ((1 + u d) * s0 + half_tiny d)) by (apply Rmult_le_compat_l; lra). assert (u d * (u d * s0) <= u d * (0.05 * s0)) by (apply Rmult_le_compat_l; [lra|]; apply Rmult_le_compat_r; lra).
  assert (u d * half_tiny d <= 0.05 * half_tiny d) by (apply Rmult_le_compat_r; lra). lra.
Qed.
(** the error of the root: relative, and a small part of the 1e-10 *)
Lemma root_error r Q s w : 0 <= r <= / 200 -> 0 <= Q -> 0 <= s -> 0 <= w -> Rabs (s - Q) <= 1.5 * r * Q + w * w -> Rabs (sqrt s - sqrt Q) <= 0.76 * r * sqrt Q + w.
Proof.
  intros Hr HQ Hs Hw H. apply rabs_le in H. set (N := sqrt Q). assert (EN : N * N = Q) by apply (sqrt_sqrt Q HQ). assert (PN : 0 <= N) by apply sqrt_pos. rewrite <- EN in H. clearbody N.
  apply le_rabs. split.
  - assert (L : (1 - 0.76 * r) * N - w <= sqrt s); [|lra]. set (a := (1 - 0.76 * r) * N). destruct (Rle_lt_dec (a - w) 0) as [C|C]; [pose proof (sqrt_pos s); lra|].
    rewrite <- (sqrt_square (a - w)) by lra. apply sqrt_le_1_alt. assert (a * a <= (1 - 1.5 * r) * (N * N)). { unfold a. assert (r * r <= r * / 200) by (apply Rmult_le_compat_l; lra). assert ((1 - 0.76 * r) * (1 - 0.76 * r) <= 1 - 1.5 * r) by lra. assert (0 <= N * N) by (apply Rmult_le_pos; lra).
      replace ((1 - 0.76 * r) * N * ((1 - 0.76 * r) * N)) with ((1 - 0.76 * r) * (1 - 0.76 * r) * (N * N)) by ring. apply Rmult_le_compat_r; lra. } nra.
  - assert (L : sqrt s <= (1 + 0.75 * r) * N + w). { rewrite <- (sqrt_square ((1 + 0.75 * r) * N + w)) by nra. apply sqrt_le_1_alt. assert (0 <= r * N) by nra. assert (0 <= r * N * w) by nra. assert (0 <= N * w) by nra. nra. }
    assert (0 <= r * N) by nra. lra.
Qed.
Lemma few_w d n : few d n -> exists w, 0 <= w <= u d * guard10 / 64 /\ 4 * INR n * half_tiny d <= w * w.
Proof.
  intros H. exists (u d * guard10 / 64). pose proof guard_low as (G & _). pose proof (u_pos d) as U. split; [split; [apply Rmult_le_pos; [apply Rmult_le_pos; lra|lra]|lra]|].
  unfold few in H. pose proof (half_tiny_pos d) as T0.
  assert (K : half_tiny d * 2 ^ 6 <= u d * u d * u d * (/ 2 ^ 34 * / 2 ^ 34)).
  { destruct d; unfold half_tiny, u.
    - replace (/ 2 ^ 24 * / 2 ^ 24 * / 2 ^ 24 * (/ 2 ^ 34 * / 2 ^ 34)) with (/ 2 ^ 140) by (rewrite <- !Rinv_mult, <- !pow_add; do 2 f_equal; lia). replace (/ 2 ^ 150) with (/ 2 ^ 140 * / 2 ^ 10) by (rewrite <- Rinv_mult, <- pow_add; do 2 f_equal; lia). assert (0 < / 2 ^ 140) by (apply Rinv_0_lt_compat, pow_lt; lra). set (k := / 2 ^ 140) in *. clearbody k. lra.
    - replace (/ 2 ^ 53 * / 2 ^ 53 * / 2 ^ 53 * (/ 2 ^ 34 * / 2 ^ 34)) with (/ 2 ^ 227) by (rewrite <- !Rinv_mult, <- !pow_add; do 2 f_equal; lia). replace (/ 2 ^ 1075) with (/ 2 ^ 227 * / 2 ^ 848) by (rewrite <- Rinv_mult, <- pow_add; do 2 f_equal; lia). assert (0 < / 2 ^ 227) by (apply Rinv_0_lt_compat, pow_lt; lra).
      assert (/ 2 ^ 848 <= / 2 ^ 6) by (apply Rinv_le_contravar; [apply pow_lt; lra|apply Rle_pow; [lra|lia]]). assert (0 < / 2 ^ 848) by (apply Rinv_0_lt_compat, pow_lt; lra). set (k := / 2 ^ 227) in *. set (j := / 2 ^ 848) in *. clearbody k j. assert (j * 2 ^ 6 <= 1) by lra. assert (k * (j * 2 ^ 6) <= k * 1) by (apply Rmult_le_compat_l; lra). lra. }
  apply (Rmult_le_reg_r (u d)); [exact U|]. assert (A1 : 4 * INR n * half_tiny d * u d <= 4 * half_tiny d * / 2 ^ 8). { replace (4 * INR n * half_tiny d * u d) with (4 * half_tiny d * (INR n * u d)) by ring. apply Rmult_le_compat_l; lra. }
  assert (GG : / 2 ^ 34 * / 2 ^ 34 <= guard10 * guard10) by (apply Rmult_le_compat; lra). assert (U3 : 0 <= u d * u d * u d) by (repeat apply Rmult_le_pos; lra).
  assert (A2 : u d * u d * u d * (/ 2 ^ 34 * / 2 ^ 34) <= u d * u d * u d * (guard10 * guard10)) by (apply Rmult_le_compat_l; lra). set (h := half_tiny d) in *. set (U' := u d) in *. set (g := guard10) in *. clearbody h U' g. set (z := U' * U' * U' * (/ 2 ^ 34 * / 2 ^ 34)) in *. clearbody z.
  replace (U' * g / 64 * (U' * g / 64) * U') with (U' * U' * U' * (g * g) / 4096) by field. lra.
Qed.
(** norms of all sizes *)
Definition d_max (d : dtype) : R := match d with F32 => 2 ^ 60 | F64 => 2 ^ 465 end.
Lemma d_max_facts d : rep d (d_max d) /\ rep F64 (d_max d) /\ 0 <= d_max d /\ s_max d <= d_max d * d_max d /\ rep d (2 * d_max d) /\ 1 <= d_max d.
Proof.
  unfold d_max, s_max. destruct d.
  - rewrite <- pow_add. replace (2 * 2 ^ 60) with (2 ^ 61) by (cbn [pow]; ring). repeat split; try (apply rep_pow2; cbn; lia); try (left; apply pow_lt; lra); try (apply Rle_pow; [lra|lia]); apply pow_R1_Rle; lra.
  - rewrite <- pow_add. replace (2 * 2 ^ 465) with (2 ^ 466) by (cbn [pow]; ring). repeat split; try (apply rep_pow2; cbn; lia); try (left; apply pow_lt; lra); try (apply Rle_pow; [lra|lia]); apply pow_R1_Rle; lra.
Qed.
Lemma tiny_u d : half_tiny d <= u d * / 2 ^ 50.
Proof. destruct d; unfold half_tiny, u; rewrite <- Rinv_mult, <- pow_add; apply Rinv_le_contravar; try (apply pow_lt; lra); apply Rle_pow; try lra; lia. Qed.
Section Divisor.
Variables (d : dtype) (c : R) (x : list (val d)) (s : val d).
Hypothesis Ok : sq_ok d c x s.
Hypothesis Few : few d (length x).
Hypothesis C0 : 0 < c <= 1.
Definition size_c : R := sqrt (c * squares (reals x)).
Notation N := size_c.
Notation r := (rho d (length x)).
Notation den := (fadd (elem_sqrt d s) (eps10 d)).
Lemma size_pos : 0 <= N. Proof. apply sqrt_pos. Qed.
Lemma root_near : Rabs (sqrt (real s) - N) <= 0.76 * r * N + u d * guard10 / 64.
Proof.
  destruct (few_w d _ Few) as (w & Hw & W2). pose proof (few_small d _ Few) as (R1 & R2). pose proof (u_pos d). pose proof (squares_pos (reals x)).
  eapply Rle_trans; [apply (root_error r (c * squares (reals x)) (real s) w); try lra; [apply Rmult_le_pos; lra|apply (sq_range _ _ _ _ Ok)|]|fold N; lra].
  eapply Rle_trans; [apply (sq_error _ _ _ _ Ok)|]. lra.
Qed.
Lemma divisor_ok : finite den /\ rel (1.2 * r) (real den) (N + guard10) /\ / 2 ^ 35 <= real den <= 2 * d_max d.
Proof.
  destruct (eps10_eq d) as (Fe & Ee). pose proof (few_small d _ Few) as (R1 & R2). pose proof (u_small d) as (U0 & U1). pose proof guard_low as GL. pose proof size_pos as NP. pose proof root_near as RN.
  unfold rel in Ee. rewrite (Rabs_right guard10) in Ee by lra. apply rabs_le in Ee.
  pose proof (d_max_facts d) as DR.
  destruct DR as (D1 & D2 & D3 & D4 & D5 & D6).
  destruct (sqrt_near d s (d_max d) (sq_finite _ _ _ _ Ok)) as (Fr & Rr & Er); auto; [pose proof (sq_range _ _ _ _ Ok); lra|].
  assert (EB : 3 * u d * guard10 <= / 2 * guard10) by (apply Rmult_le_compat_r; lra).
  destruct (add_op (elem_sqrt d s) (eps10 d) (2 * d_max d) Fr Fe D5) as (Fd & Bd & Ed); [apply le_rabs; lra|].
  split; [exact Fd|]. rewrite (Rabs_right (real (elem_sqrt d s) + _)) in Ed by lra.
  assert (T : half_tiny d <= u d * guard10 / 100). { pose proof (tiny_u d). assert (u d * / 2 ^ 50 <= u d * (guard10 / 100)) by (apply Rmult_le_compat_l; lra). lra. }
  set (rt := real (elem_sqrt d s)) in *. set (e := real (eps10 d)) in *. set (q := sqrt (real s)) in *. set (D := real den) in *. set (E := guard10) in *. set (U := u d) in *. set (h := half_tiny d) in *. set (rr := r) in *. set (NN := N) in *.
  assert (PQ : 0 <= q) by apply sqrt_pos. clearbody rt e q E U h rr NN. apply rabs_le in Er, RN, Ed.
  assert (A0 : rr * NN <= / 200 * NN) by (apply Rmult_le_compat_r; lra). assert (A1 : q <= 1.01 * (NN + E)) by (assert (U * E <= 0.1 * E) by (apply Rmult_le_compat_r; lra); lra).
  assert (A2 : U * q <= U * (1.01 * (NN + E))) by (apply Rmult_le_compat_l; lra). assert (A3 : rt + e <= 1.05 * (NN + E)) by (assert (U * (1.01 * (NN + E)) <= 0.0001 * (NN + E)) by (assert (U * (NN + E) <= 0.00005 * (NN + E)) by (apply Rmult_le_compat_r; lra); lra); assert (U * E <= 0.0001 * E) by (apply Rmult_le_compat_r; lra); lra).
  assert (A4 : U * (rt + e) <= U * (1.05 * (NN + E))) by (apply Rmult_le_compat_l; lra). assert (UN : 0 <= U * NN) by (apply Rmult_le_pos; lra). assert (UE : 0 <= U * E) by (apply Rmult_le_pos; lra).
  assert (KK : 16 * (U * (NN + E)) <= rr * (NN + E)) by (rewrite <- Rmult_assoc; apply Rmult_le_compat_r; lra). assert (rE : 0 <= rr * E) by (apply Rmult_le_pos; lra).
  assert (RB : Rabs (D - (NN + E)) <= 1.2 * rr * (NN + E)) by (apply le_rabs; lra).
  split; [unfold rel; rewrite (Rabs_right (NN + E)) by lra; exact RB|]. apply rabs_le in Bd. split; [|lra]. apply rabs_le in RB. assert (1.2 * rr * (NN + E) <= 0.25 * (NN + E)) by (apply Rmult_le_compat_r; lra). lra.
Qed.
End Divisor.
