(** * The gradients of FixNorm and RMSNorm: the computed values *)
From Coq Require Import ZArith Bool Lia List Arith Reals Lra Psatz.
From Flocq Require Import Core BinarySingleNaN.
From Verif Require Import FloatModel FloatSpec NumModel NumSpec NumLemmas AsmFloatSpec AsmFloat AsmFloat2 AsmModel AsmCalls AsmSpec OptFloatModel OptFloatNum NormFloatModel NormFloatSpec NormFloatNum NormFloatProofs NormFloatProofs2 NormFloatBack.
Import ListNotations.
Local Open Scope R_scope.

(** the exact sum of the products, and of their absolute values *)
Definition dot {d} (x gy : list (val d)) : R := fold_right (fun p s => real (snd p) * real (fst p) + s) 0 (combine x gy).
Definition dot_abs {d} (x gy : list (val d)) : R := fold_right (fun p s => Rabs (real (snd p)) * Rabs (real (fst p)) + s) 0 (combine x gy).
Lemma dot_le {d} (x gy : list (val d)) : Rabs (dot x gy) <= dot_abs x gy.
Proof.
  unfold dot, dot_abs. induction (combine x gy) as [|(a, b) l IH]; cbn [fold_right fst snd]; [rewrite Rabs_R0; lra|].
  eapply Rle_trans; [apply Rabs_triang|]. rewrite Rabs_mult. lra.
Qed.
Lemma abs_sum_pos x : 0 <= abs_sum x.
Proof. induction x; cbn; [lra|]. fold (abs_sum x). pose proof (Rabs_pos a). lra. Qed.
Lemma abs_sum_le d B (gy : list (val d)) : sized B gy -> abs_sum (reals gy) <= INR (length gy) * B.
Proof. induction 1 as [|v l (F & H) K IH]; [cbn; lra|]. cbn [reals map abs_sum fold_right length]. fold (reals l) (abs_sum (reals l)). rewrite S_INR. lra. Qed.
Lemma dot_abs_le {d} X (x gy : list (val d)) : length x = length gy -> Forall (fun v => Rabs (real v) <= X) x -> dot_abs x gy <= X * abs_sum (reals gy).
Proof.
  revert gy. unfold dot_abs. induction x as [|a x IH]; intros [|b gy] L F; try discriminate; [cbn; lra|]. inversion F; subst.
  cbn [combine fold_right fst snd reals map abs_sum]. fold (reals gy) (abs_sum (reals gy)). specialize (IH gy ltac:(cbn in L; lia) H2). fold (real b).
  assert (Rabs (real b) * Rabs (real a) <= Rabs (real b) * X) by (apply Rmult_le_compat_l; [apply Rabs_pos|assumption]). unfold real in *. lra.
Qed.

(** one term of the sum *)
Lemma term_error U h r g x c C t w : 0 < U <= / 2 ^ 24 -> 0 < h -> 16 * U <= r <= / 200 -> rel (3 * r) c C ->
  Rabs (t - x * c) <= U * Rabs (x * c) + h -> Rabs (w - g * t) <= U * Rabs (g * t) + h ->
  Rabs (w - C * (g * x)) <= 3.16 * r * (Rabs C * (Rabs g * Rabs x)) + 1.01 * ((Rabs g + 1) * h).
Proof.
  intros HU Hh Hr Hc Ht Hw. pose proof (rel_abs _ _ _ Hc) as Ac. unfold rel in Hc. rewrite !Rabs_mult in *.
  set (aC := Rabs C) in *. set (ag := Rabs g) in *. set (ax := Rabs x) in *. set (ac := Rabs c) in *. set (at' := Rabs t) in *.
  assert (P : 0 <= aC /\ 0 <= ag /\ 0 <= ax /\ 0 <= ac /\ 0 <= at') by (repeat split; apply Rabs_pos). destruct P as (P1 & P2 & P3 & P4 & P5).
  assert (AT : at' <= ax * ac + (U * (ax * ac) + h)). { unfold at'. replace t with ((t - x * c) + x * c) by ring. eapply Rle_trans; [apply Rabs_triang|]. rewrite Rabs_mult. fold ax ac. lra. }
  replace (w - C * (g * x)) with ((w - g * t) + (g * (t - x * c) + g * x * (c - C))) by ring. eapply Rle_trans; [apply Rabs_triang|]. eapply Rle_trans; [apply Rplus_le_compat_l, Rabs_triang|]. rewrite !Rabs_mult. fold ag ax.
  assert (E1 : ag * Rabs (t - x * c) <= ag * (U * (ax * ac) + h)) by (apply Rmult_le_compat_l; auto). assert (E2 : ag * ax * Rabs (c - C) <= ag * ax * (3 * r * aC)) by (apply Rmult_le_compat_l; auto; apply Rmult_le_pos; auto).
  assert (E3 : U * (ag * at') <= U * (ag * (ax * ac + (U * (ax * ac) + h)))) by (apply Rmult_le_compat_l; [lra|]; apply Rmult_le_compat_l; auto).
  set (q := ag * (ax * ac)) in *. set (Q := aC * (ag * ax)). assert (Pq : 0 <= q) by (unfold q; repeat apply Rmult_le_pos; auto). assert (PQ : 0 <= Q) by (unfold Q; repeat apply Rmult_le_pos; auto).
  assert (qQ : q <= (1 + 3 * r) * Q). { unfold q, Q. replace ((1 + 3 * r) * (aC * (ag * ax))) with (ag * (ax * ((1 + 3 * r) * aC))) by ring. apply Rmult_le_compat_l; auto. apply Rmult_le_compat_l; auto. }
  assert (qQ' : q <= 1.02 * Q) by (assert ((1 + 3 * r) * Q <= 1.02 * Q) by (apply Rmult_le_compat_r; lra); lra).
  assert (Uq : U * q <= U * (1.02 * Q)) by (apply Rmult_le_compat_l; lra). assert (UUq : U * (U * q) <= 0.001 * (U * q)) by (apply Rmult_le_compat_r; [apply Rmult_le_pos; lra|lra]).
  assert (UQ : 16 * (U * Q) <= r * Q) by (rewrite <- Rmult_assoc; apply Rmult_le_compat_r; lra). assert (0 <= U * Q) by (apply Rmult_le_pos; lra).
  assert (Pgh : 0 <= ag * h) by (apply Rmult_le_pos; lra). assert (Ugh : U * (ag * h) <= 0.001 * (ag * h)) by (apply Rmult_le_compat_r; lra).
  replace (ag * (U * (ax * ac) + h)) with (U * q + ag * h) in E1 by (unfold q; ring). replace (ag * ax * (3 * r * aC)) with (3 * r * Q) in E2 by (unfold Q; ring).
  replace (U * (ag * (ax * ac + (U * (ax * ac) + h)))) with (U * q + U * (U * q) + U * (ag * h)) in E3 by (unfold q; ring). fold Q.
  assert (0 <= r * Q) by (apply Rmult_le_pos; lra). lra.
Qed.

Definition x_max (d : dtype) : R := match d with F32 => 2 ^ 52 | F64 => 2 ^ 82 end.
Lemma x_max_rep d : rep d (x_max d) /\ rep d (back_max d * x_max d) /\ 0 <= x_max d /\ 0 <= back_max d /\ back_max d * x_max d <= match d with F32 => 2 ^ 72 | F64 => 2 ^ 522 end.
Proof. unfold x_max, back_max. destruct d; rewrite <- pow_add; repeat split; try (apply rep_pow2; cbn; lia); try (left; apply pow_lt; lra); right; f_equal; lia. Qed.
(** the terms *)
Lemma terms_ok d r (c : val d) C (x gy : list (val d)) : 16 * u d <= r <= / 200 -> finite c -> rel (3 * r) (real c) C -> length x = length gy ->
  Forall (fun v => finite v /\ Rabs (real v * real c) <= x_max d) x -> sized (back_max d) gy ->
  let l := zip fmul gy (map (fun v => fmul v c) x) in
  Forall finite l /\ length l = length x /\ total_abs l <= INR (length l) * (back_max d * x_max d) /\
  Rabs (total l - C * dot x gy) <= 3.16 * r * (Rabs C * dot_abs x gy) + 1.01 * ((abs_sum (reals gy) + INR (length x)) * half_tiny d) /\
  total_abs l <= (1 + 3.16 * r) * (Rabs C * dot_abs x gy) + 1.01 * ((abs_sum (reals gy) + INR (length x)) * half_tiny d).
Proof.
  intros Hr Fc Rc. pose proof (u_small d) as Hu. pose proof (half_tiny_pos d) as Hh. destruct (x_max_rep d) as (X1 & X2 & X3 & X4 & X5). revert gy. induction x as [|a x IH]; intros [|b gy] L F G; try discriminate.
  - cbn. repeat split; try constructor; try rewrite Rabs_R0 in *; rewrite ?Rmult_0_r, ?Rplus_0_r, ?Rminus_0_r, ?Rabs_R0, ?Rmult_0_l; lra.
  - inversion F as [|? ? (Fa & Ba) F']; subst. inversion G as [|? ? (Fb & Bb) G']; subst. specialize (IH gy ltac:(cbn in L; lia) F' G'). cbv zeta in IH. destruct IH as (I1 & I2 & I3 & I4 & I5).
    cbn [map zip]. set (l := zip fmul gy (map (fun v => fmul v c) x)) in *. destruct (mul_op a c (x_max d) Fa Fc X1 Ba) as (F1 & B1 & N1).
    change (finite b) in Fb. change (B2R b) with (real b) in Bb. destruct (mul_op b (fmul a c) (back_max d * x_max d) Fb F1 X2) as (F2 & B2 & N2). { rewrite Rabs_mult. apply Rmult_le_compat; auto; apply Rabs_pos. }
    unfold near_to in N1, N2. pose proof (term_error (u d) (half_tiny d) r (real b) (real a) (real c) C _ _ Hu Hh Hr Rc N1 N2) as T.
    unfold dot, dot_abs. cbn [combine fold_right fst snd length reals map abs_sum total total_abs]. fold (dot x gy) (dot_abs x gy) (reals gy) (abs_sum (reals gy)) (total l) (total_abs l). change (B2R b) with (real b). rewrite !S_INR.
    set (w := real (fmul b (fmul a c))) in *. split; [constructor; auto|]. split; [lia|]. set (h := half_tiny d) in *. split; [lra|].
    assert (TA : Rabs w <= Rabs C * (Rabs (real b) * Rabs (real a)) + Rabs (w - C * (real b * real a))). { replace (Rabs C * (Rabs (real b) * Rabs (real a))) with (Rabs (C * (real b * real a))) by (rewrite !Rabs_mult; reflexivity). replace w with (C * (real b * real a) + (w - C * (real b * real a))) at 1 by ring. apply Rabs_triang. }
    split; [|lra]. replace (w + total l - C * (real b * real a + dot x gy)) with ((w - C * (real b * real a)) + (total l - C * dot x gy)) by ring. eapply Rle_trans; [apply Rabs_triang|]. lra.
Qed.

Definition gn_max (d : dtype) : R := match d with F32 => 2 ^ 90 | F64 => 2 ^ 570 end.
Lemma few_count d n : few d n -> INR n <= match d with F32 => 2 ^ 16 | F64 => 2 ^ 45 end.
Proof.
  unfold few, u. intros H. apply (Rmult_le_reg_r (/ 2 ^ match d with F32 => 24 | F64 => 53 end)); [apply Rinv_0_lt_compat, pow_lt; lra|]. eapply Rle_trans; [exact H|]. right. destruct d; field.
Qed.
Lemma gn_max_facts d n : few d n -> 2 * (INR n * (back_max d * x_max d)) <= gn_max d / 2 /\ gn_max d <= largest d.
Proof.
  intros H. pose proof (few_count d n H) as C. destruct (x_max_rep d) as (_ & _ & X3 & X4 & X5). pose proof (pos_INR n) as P. assert (0 <= back_max d * x_max d) by (apply Rmult_le_pos; auto).
  assert (K : INR n * (back_max d * x_max d) <= match d with F32 => 2 ^ 16 | F64 => 2 ^ 45 end * match d with F32 => 2 ^ 72 | F64 => 2 ^ 522 end) by (apply Rmult_le_compat; auto).
  unfold gn_max, largest. destruct d; rewrite <- pow_add in K.
  - split; [replace (2 ^ 90) with (4 * 2 ^ (16 + 72)) by (cbn [pow Nat.add]; ring); lra|]. replace (2 ^ 104) with (2 ^ 14 * 2 ^ 90) by (rewrite <- pow_add; f_equal; lia). assert (0 < 2 ^ 90) by (apply pow_lt; lra). set (k := 2 ^ 90) in *. clearbody k. clear - H1. cbn. lra.
  - split; [replace (2 ^ 570) with (8 * 2 ^ (45 + 522)) by (replace 570%nat with (3 + (45 + 522))%nat by lia; rewrite (pow_add _ 3); cbn [pow]; ring); assert (0 < 2 ^ (45 + 522)) by (apply pow_lt; lra); lra|].
    replace (2 ^ 971) with (2 ^ 401 * 2 ^ 570) by (rewrite <- pow_add; f_equal; lia). assert (0 < 2 ^ 570) by (apply pow_lt; lra). assert (1 <= 2 ^ 401) by (apply pow_R1_Rle; lra). set (k := 2 ^ 570) in *. set (j := 2 ^ 401) in *. clearbody k j.
    assert (1 * k <= j * k) by (apply Rmult_le_compat_r; lra). assert (1 * (j * k) <= (2 ^ 53 - 1) * (j * k)) by (apply Rmult_le_compat_r; [nra|lra]). lra.
Qed.
(** the gradient of the divisor *)
Lemma norm_gradient d k sum r (c : val d) C (x gy : list (val d)) : adds_all sum -> few d (length x) -> r = rho d (length x) -> finite c -> rel (3 * r) (real c) C -> length x = length gy ->
  Forall (fun v => finite v /\ Rabs (real v * real c) <= x_max d) x -> sized (back_max d) gy ->
  let gn := sum k (zip fmul gy (map (fun v => fmul v c) x)) in
  finite gn /\ Rabs (real gn) <= gn_max d / 2 /\ Rabs (real gn - C * dot x gy) <= 4.25 * r * (Rabs C * dot_abs x gy) + 1.1 * ((abs_sum (reals gy) + INR (length x)) * half_tiny d).
Proof.
  intros A Hn -> Fc Rc L F G gn. destruct (few_small d _ Hn) as (R1 & R2). destruct (terms_ok d _ c C x gy R1 Fc Rc L F G) as (T1 & T2 & T3 & T4 & T5).
  pose proof (A k (zip fmul gy (map (fun v => fmul v c) x))) as S. fold gn in S. set (l := zip fmul gy (map (fun v => fmul v c) x)) in *. clearbody l gn.
  destruct (gn_max_facts d _ Hn) as (M1 & M2). pose proof (few_gamma d _ Hn) as Gm. pose proof (u_small d) as Hu. pose proof (total_abs_pos d l) as TP. pose proof (gamma_pos d (length l)) as G0. rewrite T2 in *.
  assert (GT : (1 + gamma d (length x)) * total_abs l <= gn_max d / 2). { assert ((1 + gamma d (length x)) * total_abs l <= 2 * (INR (length x) * (back_max d * x_max d))) by (apply Rmult_le_compat; lra). lra. }
  assert (Fs : finite gn). { apply (sum_finite d gn _ S T1). change (lane (floats d)) with (val d). rewrite T2. pose proof (Rabs_pos (real gn)). lra. }
  destruct (sum_error d gn _ S Fs) as (_ & ER). change (lane (floats d)) with (val d) in ER. rewrite T2 in ER.
  assert (G1 : gamma d (length x - 1) <= gamma d (length x)) by (apply gamma_le; lia). assert (ER' : Rabs (real gn - total l) <= gamma d (length x) * total_abs l). { eapply Rle_trans; [exact ER|]. apply Rmult_le_compat_r; lra. }
  assert (TT : Rabs (total l) <= total_abs l). { clear. induction l; cbn; [rewrite Rabs_R0; lra|]. eapply Rle_trans; [apply Rabs_triang|]. fold (total l) (total_abs l). lra. }
  split; [exact Fs|]. split. { replace (real gn) with ((real gn - total l) + total l) by ring. eapply Rle_trans; [apply Rabs_triang|]. lra. }
  replace (real gn - C * dot x gy) with ((real gn - total l) + (total l - C * dot x gy)) by ring. eapply Rle_trans; [apply Rabs_triang|].
  set (Q := Rabs C * dot_abs x gy) in *. set (e := (abs_sum (reals gy) + INR (length x)) * half_tiny d) in *. set (g := gamma d (length x)) in *. set (r := rho d (length x)) in *.
  assert (0 <= Q). { unfold Q. apply Rmult_le_pos; [apply Rabs_pos|]. eapply Rle_trans; [apply Rabs_pos|apply dot_le]. } assert (0 <= e). { unfold e. apply Rmult_le_pos; [|left; apply half_tiny_pos]. pose proof (abs_sum_pos (reals gy)). pose proof (pos_INR (length x)). lra. }
  assert (g * total_abs l <= 1.01 * r * ((1 + 3.16 * r) * Q + 1.01 * e)) by (apply Rmult_le_compat; lra). assert (r * (r * Q) <= / 200 * (r * Q)) by (apply Rmult_le_compat_r; [apply Rmult_le_pos; lra|lra]). assert (r * e <= / 200 * e) by (apply Rmult_le_compat_r; lra).
  assert (0 <= r * Q) by (apply Rmult_le_pos; lra). lra.
Qed.
