(** * A mathematical library with correctly rounded functions meets what is assumed of package math *)
From Coq Require Import List ZArith Bool Reals Lia Lra.
From Flocq Require Import Core BinarySingleNaN Relative.
From Verif Require Import FloatModel FloatSpec FloatProofs NumModel NumSpec NumLemmas NumProofs NumProofs2 NumProofs3 NumProofs4.
Open Scope R_scope.

Notation fexp64 := (FLT_exp (-1074) 53).
(** the float64 nearest to a real number, ties to even *)
Definition of_real (r : R) : val F64 := binary_normalize (prec F64) (emax F64) (prec_pos F64) (prec_emax F64) mode_NE (ZnearestE (scaled_mantissa radix2 fexp64 r)) (cexp radix2 fexp64 r) false.
Definition rounded : libm := {|
  Exp x := match x with B754_infinity s => if s then B754_zero false else infinity | B754_nan => B754_nan | _ => of_real (exp (B2R x)) end;
  Log x := match x with B754_infinity false => infinity | B754_infinity true | B754_nan => B754_nan | B754_zero _ => minus_infinity
           | B754_finite false _ _ _ => of_real (ln (B2R x)) | B754_finite true _ _ _ => B754_nan end;
  Tanh x := match x with B754_infinity s => of_real (if s then -1 else 1) | B754_nan => B754_nan | _ => of_real (tanh (B2R x)) end;
  Cosh x := match x with B754_infinity _ => infinity | B754_nan => B754_nan | _ => of_real (cosh (B2R x)) end;
  Pow x y := match x with B754_infinity s => B754_infinity (s && Z.odd (Ztrunc (B2R y))) | B754_nan => B754_nan | _ => of_real (powerRZ (B2R x) (Ztrunc (B2R y))) end |}.

Lemma pb50 : / 2 ^ 50 = bpow radix2 (-50).
Proof. rewrite pow2, <- bpow_opp. reflexivity. Qed.
Lemma pb1074 : / 2 ^ 1074 = bpow radix2 (-1074).
Proof. rewrite pow2, <- bpow_opp. reflexivity. Qed.
Lemma of_real_value r : F2R (Float radix2 (ZnearestE (scaled_mantissa radix2 fexp64 r)) (cexp radix2 fexp64 r)) = nearest F64 r.
Proof. reflexivity. Qed.
Lemma nearest_idem r : nearest F64 (nearest F64 r) = nearest F64 r.
Proof. rewrite !nearest_eq. apply round_generic; [apply valid_rnd_round_mode|]. apply generic_format_round; [apply FLT_exp_valid; reflexivity|apply valid_rnd_round_mode]. Qed.
Lemma of_real_spec r : if Rlt_bool (Rabs (nearest F64 r)) (limit F64) then finite (of_real r) /\ real (of_real r) = nearest F64 r
  else of_real r = B754_infinity (Rlt_bool (nearest F64 r) 0).
Proof.
  pose proof (binary_normalize_correct (prec F64) (emax F64) (prec_pos F64) (prec_emax F64) mode_NE (ZnearestE (scaled_mantissa radix2 fexp64 r)) (cexp radix2 fexp64 r) false) as C.
  cbv zeta in C. fold (of_real r) in C. rewrite of_real_value in C. change (round radix2 (SpecFloat.fexp (prec F64) (emax F64)) (round_mode mode_NE)) with (nearest F64) in C.
  rewrite nearest_idem in C. change (bpow radix2 (emax F64)) with (bpow radix2 (emax F64)) in C. rewrite <- limit_eq in C.
  destruct (Rlt_bool _ _); [destruct C as (A & B & _); split; assumption|]. now apply over_nan in C.
Qed.
Lemma of_real_number r : is_nan (of_real r) = false.
Proof. pose proof (of_real_spec r) as C. destruct (Rlt_bool _ _); [apply finite_number, C|now rewrite C]. Qed.
Lemma of_real_in r l h : rep F64 l -> rep F64 h -> l <= r <= h -> finite (of_real r) /\ l <= real (of_real r) <= h /\ real (of_real r) = nearest F64 r.
Proof.
  intros Rl Rh B. destruct (between F64 l r h Rl Rh B) as ((N & L) & Q). pose proof (of_real_spec r) as C. rewrite Rlt_bool_true in C.
  - destruct C as (A & ->). repeat split; auto; lra.
  - exact L.
Qed.

Lemma of_real_ge r b : rep F64 b -> b <= r -> of_real r = infinity \/ (finite (of_real r) /\ b <= real (of_real r)) \/ of_real r = minus_infinity /\ b < 0.
Proof.
  intros Rb B. pose proof (of_real_spec r) as C. apply nearest_le with (d := F64) in B. rewrite (proj1 Rb) in B. destruct (Rlt_bool _ _).
  - right. left. destruct C as (A & ->). auto.
  - destruct (Rlt_bool_spec (nearest F64 r) 0) as [L|L]; [right; right; split; [exact C|lra]|now left].
Qed.
Lemma of_real_error r : Rabs (nearest F64 r - r) <= Rabs r / 2 ^ 50 + / 2 ^ 1074.
Proof.
  destruct (error_N_FLT radix2 (-1074) 53 ltac:(lia) (fun n => negb (Z.even n)) r) as (eps & eta & He & Hn & _ & E). fold (nearest F64 r) in E.
  change (nearest F64 r = r * (1 + eps) + eta) in E. rewrite E. replace (r * (1 + eps) + eta - r) with (r * eps + eta) by ring. eapply Rle_trans; [apply Rabs_triang|].
  apply Rplus_le_compat.
  - rewrite Rabs_mult. unfold Rdiv. apply Rmult_le_compat_l; [apply Rabs_pos|]. eapply Rle_trans; [exact He|]. rewrite pb50. 
    apply Rle_trans with (bpow radix2 (- (53) + 1)); [pose proof (bpow_gt_0 radix2 (- (53) + 1)); lra|apply bpow_le; lia].
  - eapply Rle_trans; [exact Hn|]. rewrite pb1074. pose proof (bpow_gt_0 radix2 (-1074)). lra.
Qed.
Lemma nearest_tiny r : 0 < r < bpow radix2 (-1075) -> nearest F64 r = 0.
Proof.
  intros (P & L). unfold nearest. assert (Nz : r <> 0) by lra. destruct (mag radix2 r) as (e & He). specialize (He Nz). rewrite Rabs_pos_eq in He by lra.
  apply (round_N_small_pos radix2 fexp64 (fun n => negb (Z.even n)) r e He). unfold FLT_exp. assert (bpow radix2 (e - 1) < bpow radix2 (-1075)) by lra. apply lt_bpow in H. lia.
Qed.

(** ** Bounds of exp that are near enough *)
Lemma two_below : 2 <= exp (710 / 1024).
Proof.
  apply Rle_trans with ((2049 / 2048) ^ 1420).
  - unfold Rdiv. rewrite Rpow_mult_distr, pow_inv. apply Rmult_le_reg_r with (2048 ^ 1420); [apply pow_lt; lra|]. rewrite Rmult_assoc, Rinv_l, Rmult_1_r by (apply pow_nonzero; lra).
    rewrite !pow_IZR, <- mult_IZR. apply IZR_le. apply Z.leb_le. vm_compute. reflexivity.
  - apply Rle_trans with (exp (/ 2048) ^ 1420); [apply pow_incr; split; [lra|]; pose proof (exp_ineq1_le (/ 2048)); lra|]. rewrite exp_nat, INR_IZR_INZ. apply exp_mono. change (Z.of_nat 1420) with 1420%Z. lra.
Qed.
Lemma at_least n x : IZR (Z.of_nat n) * (710 / 1024) <= x -> 2 ^ n <= exp x.
Proof.
  intros H. rewrite <- INR_IZR_INZ in H. apply Rle_trans with (exp (710 / 1024) ^ n); [apply pow_incr; split; [lra|apply two_below]|]. rewrite exp_nat. now apply exp_mono.
Qed.
Lemma two_above : exp (709 / 1024) <= 19992 / 10000.
Proof.
  apply Rle_trans with ((1024 / 1023) ^ 709).
  - assert (H : exp (/ 1024) <= 1024 / 1023).
    { replace (/ 1024) with (- (- / 1024)) by ring. rewrite exp_Ropp. replace (1024 / 1023) with (/ (1 - / 1024)) by lra. apply Rinv_le_contravar; [lra|]. pose proof (exp_ineq1_le (- / 1024)). lra. }
    apply Rle_trans with (exp (/ 1024) ^ 709); [rewrite exp_nat, INR_IZR_INZ; apply exp_mono; change (Z.of_nat 709) with 709%Z; lra|]. apply pow_incr. split; [left; apply exp_pos|exact H].
  - unfold Rdiv. rewrite Rpow_mult_distr, pow_inv. apply Rmult_le_reg_r with (1023 ^ 709); [apply pow_lt; lra|]. rewrite Rmult_assoc, Rinv_l, Rmult_1_r by (apply pow_nonzero; lra).
    apply Rmult_le_reg_l with 10000; [lra|]. replace (10000 * (19992 * / 10000 * 1023 ^ 709)) with (19992 * 1023 ^ 709) by (field; lra). rewrite !pow_IZR, <- !mult_IZR. apply IZR_le. apply Z.leb_le. vm_compute. reflexivity.
Qed.
Lemma exp_709_bound : exp 709 <= 3 * 2 ^ 1022.
Proof.
  apply Rle_trans with ((19992 / 10000) ^ 1024).
  - apply Rle_trans with (exp (709 / 1024) ^ 1024); [rewrite exp_nat, INR_IZR_INZ; apply exp_mono; change (Z.of_nat 1024) with 1024%Z; lra|]. apply pow_incr. split; [left; apply exp_pos|apply two_above].
  - unfold Rdiv. rewrite Rpow_mult_distr, pow_inv. apply Rmult_le_reg_r with (10000 ^ 1024); [apply pow_lt; lra|]. rewrite Rmult_assoc, Rinv_l, Rmult_1_r by (apply pow_nonzero; lra).
    rewrite !pow_IZR, <- !mult_IZR. apply IZR_le. apply Z.leb_le. vm_compute. reflexivity.
Qed.
Lemma rep_3 : rep F64 (3 * 2 ^ 1022).
Proof. apply (rep_dyadic F64 (3 * 2 ^ 51) 971); [|unfold prec, emax; lia..]. rewrite pow2, mult_IZR. change (2 ^ 51)%Z with (radix_val radix2 ^ 51)%Z. rewrite (IZR_Zpower radix2) by lia. rewrite Rmult_assoc, <- bpow_plus. reflexivity. Qed.

Definition usualx (x : val F64) (f : val F64 -> val F64) g := match x with B754_infinity _ | B754_nan => True | _ => f x = of_real (g (B2R x)) end.
Lemma exp_def x : finite x -> Exp rounded x = of_real (exp (real x)).
Proof. intros F. destruct x; try discriminate; reflexivity. Qed.
Lemma log_def x : finite x -> 0 < real x -> Log rounded x = of_real (ln (real x)).
Proof. intros F P. destruct (pos_finite F64 x F P) as (mx & e & H & ->). reflexivity. Qed.
Lemma tanh_def x : finite x -> Tanh rounded x = of_real (tanh (real x)).
Proof. intros F. destruct x; try discriminate; reflexivity. Qed.
Lemma cosh_def x : finite x -> Cosh rounded x = of_real (cosh (real x)).
Proof. intros F. destruct x; try discriminate; reflexivity. Qed.
Lemma trunc_lit k : (0 <= k < 2 ^ 24)%Z -> Ztrunc (B2R (lit k 0 : val F64)) = k.
Proof. intros H. destruct (two_eq k) as (_ & V); [lia|]. unfold real in V. rewrite V. apply Ztrunc_IZR. Qed.
Lemma pow_def x k : finite x -> (0 <= k < 2 ^ 24)%Z -> Pow rounded x (lit k 0) = of_real (powerRZ (real x) k).
Proof. intros F H. rewrite <- (trunc_lit k H) at 2. destruct x; try discriminate; reflexivity. Qed.
Lemma tanh_unit x : Rabs (tanh x) <= 1.
Proof.
  unfold tanh. assert (C : 0 < cosh x) by (unfold cosh; pose proof (exp_pos x); pose proof (exp_pos (- x)); lra).
  assert (A : - cosh x <= sinh x <= cosh x) by (unfold sinh, cosh; pose proof (exp_pos x); pose proof (exp_pos (- x)); lra).
  apply Rabs_le. split; [apply Rmult_le_reg_r with (cosh x)|apply Rmult_le_reg_r with (cosh x)]; auto; unfold Rdiv; rewrite Rmult_assoc, Rinv_l by lra; lra.
Qed.
Lemma cosh_one x : 1 <= cosh x.
Proof.
  unfold cosh. pose proof (exp_pos x) as P. assert (E : exp (- x) = / exp x) by apply exp_Ropp. rewrite E. set (a := exp x) in *. assert (I : a * / a = 1) by (apply Rinv_r; lra). pose proof (Rinv_0_lt_compat a P) as Q. set (b := / a) in *.
  assert (0 <= (a - b) * (a - b)) by apply Rle_0_sqr. assert (4 <= (a + b) * (a + b)) by nra. assert (2 <= a + b) by nra. lra.
Qed.
Lemma ln_range x : finite (x : val F64) -> 0 < real x -> Rabs (ln (real x)) <= 1100.
Proof.
  intros F P. assert (E : 2 ^ 1100 <= exp 1100) by (apply at_least; change (Z.of_nat 1100) with 1100%Z; lra).
  assert (U : real x <= 2 ^ 1100). { destruct (rep_real F64 x F) as (_ & L). apply Rabs_lt_inv in L. eapply Rle_trans; [left; exact (proj2 L)|]. rewrite limit_eq, pow2. apply bpow_le. cbn. lia. }
  assert (D : / 2 ^ 1100 <= real x).
  { rewrite pow2, <- bpow_opp. destruct (pos_finite F64 x F P) as (mx & e & H & ->). unfold real, B2R. cbn [SpecFloat.cond_Zopp]. apply Rle_trans with (bpow radix2 e); [apply bpow_le|unfold F2R; cbn; rewrite <- (Rmult_1_l (bpow radix2 e)) at 1; apply Rmult_le_compat_r; [apply bpow_ge_0|apply IZR_le; lia]].
    pose proof H as H0. unfold SpecFloat.bounded, SpecFloat.canonical_mantissa, SpecFloat.fexp, SpecFloat.emin in H0. apply andb_prop in H0 as (H1 & _). apply Zeq_bool_eq in H1. unfold prec, emax in H1. lia. }
  apply Rabs_le. split.
  - rewrite <- (Ropp_involutive (ln (real x))). apply Ropp_le_contravar. rewrite <- ln_Rinv by lra. rewrite <- (ln_exp 1100). assert (Q : / real x <= exp 1100) by (eapply Rle_trans; [|exact E]; rewrite <- (Rinv_inv (2 ^ 1100)); apply Rinv_le_contravar; [apply Rinv_0_lt_compat, pow2_pos|exact D]).
    assert (0 < / real x) by now apply Rinv_0_lt_compat. destruct Q as [Q| ->]; [left; now apply ln_increasing|lra].
  - rewrite <- (ln_exp 1100). assert (Q : real x <= exp 1100) by lra. destruct Q as [Q| ->]; [left; now apply ln_increasing|lra].
Qed.
Lemma rep_k k : (Z.abs k < 2 ^ 24)%Z -> rep F64 (IZR k).
Proof. apply rep_int. Qed.

Theorem rounded_go_math : go_math rounded.
Proof.
  split.
  - reflexivity.
  - reflexivity.
  - intros x F B. rewrite exp_def by auto. pose proof (of_real_spec (exp (real x))) as C.
    assert (L : limit F64 <= nearest F64 (exp (real x))).
    { assert (Q : 2 ^ 1024 <= exp (real x)) by (apply at_least; change (Z.of_nat 1024) with 1024%Z; lra). rewrite pow2 in Q. change (Z.of_nat 1024) with (emax F64) in Q.
      rewrite limit_eq in *. rewrite nearest_eq. apply round_ge_generic; auto; [apply FLT_exp_valid; reflexivity|apply valid_rnd_round_mode|]. apply generic_format_bpow. cbn. lia. }
    assert (P : 0 < limit F64) by (rewrite limit_eq; apply bpow_gt_0). rewrite Rlt_bool_false in C by (eapply Rle_trans; [exact L|apply Rle_abs]). rewrite Rlt_bool_false in C by lra. exact C.
  - intros x F B. rewrite exp_def by auto.
    assert (N : nearest F64 (exp (real x)) = 0).
    { apply nearest_tiny. split; [apply exp_pos|]. apply Rle_lt_trans with (exp (-746)); [now apply exp_mono|]. replace (-746) with (- (746)) by lra. rewrite exp_Ropp. change (-1075)%Z with (- (1075))%Z. rewrite bpow_opp. apply Rinv_lt_contravar; [apply Rmult_lt_0_compat; [apply bpow_gt_0|apply exp_pos]|].
      change (bpow radix2 1075) with (bpow radix2 (Z.of_nat 1075)). rewrite <- pow2. apply Rle_lt_trans with (exp 745.5); [apply at_least; change (Z.of_nat 1075) with 1075%Z; lra|apply exp_increasing; lra]. }
    rewrite <- of_real_value in N. unfold of_real. apply eq_0_F2R in N || apply F2R_eq_0 in N. rewrite N. reflexivity.
  - intros x F B. rewrite exp_def by auto. apply (of_real_in _ 0 (3 * 2 ^ 1022)); [apply rep_0|apply rep_3|]. split; [left; apply exp_pos|]. apply Rle_trans with (exp 709); [now apply exp_mono|apply exp_709_bound].
  - intros x F. rewrite exp_def by auto. destruct (of_real_ge (exp (real x)) 0 (rep_0 _)) as [E|[(A & _)|(_ & L)]]; [left; apply exp_pos|now right|now left|lra].
  - intros x F. rewrite exp_def by auto. intros Fe. pose proof (of_real_spec (exp (real x))) as C. destruct (Rlt_bool _ _); [|rewrite C in Fe; discriminate]. destruct C as (_ & ->).
    eapply Rle_trans; [apply of_real_error|]. rewrite Rabs_pos_eq by (left; apply exp_pos). lra.
  - intros x F. rewrite exp_def by auto. intros Fe. destruct (of_real_ge (exp (real x)) 0 (rep_0 _)) as [E|[(_ & A)|(_ & L)]]; [left; apply exp_pos|rewrite E in Fe; discriminate|exact A|lra].
  - intros x F B. rewrite exp_def by auto. apply (of_real_in _ 0 1 (rep_0 _) (rep_1 _)). split; [left; apply exp_pos|]. rewrite <- exp_0. now apply exp_mono.
  - intros x F Fe B. rewrite exp_def in * by auto. destruct (of_real_ge (exp (real x)) 1 (rep_1 _)) as [E|[(_ & A)|(_ & L)]]; [rewrite <- exp_0; now apply exp_mono|rewrite E in Fe; discriminate|exact A|lra].
  - reflexivity.
  - reflexivity.
  - intros x F P. rewrite log_def by auto. pose proof (ln_range x F P) as B. apply Rabs_le_inv in B. apply (of_real_in _ (-1100) 1100); auto; [apply (rep_k (-1100))|apply (rep_k 1100)]; lia.
  - intros x F P. rewrite log_def by auto. pose proof (ln_range x F P) as B. apply Rabs_le_inv in B. destruct (of_real_in (ln (real x)) (-1100) 1100) as (_ & _ & ->); auto; [apply (rep_k (-1100)); lia|apply (rep_k 1100); lia|apply of_real_error].
  - intros x F P. rewrite log_def by (auto; lra). pose proof (ln_range x F ltac:(lra)) as B. apply Rabs_le_inv in B. apply (of_real_in (ln (real x)) 0 1100); [apply rep_0|apply (rep_k 1100); lia|].
    split; [|lra]. rewrite <- ln_1. destruct P as [P| <-]; [left; apply ln_increasing; lra|lra].
  - intros x N. destruct (is_finite x) eqn:F.
    + rewrite tanh_def by exact F. pose proof (tanh_unit (real x)) as B. apply Rabs_le_inv in B. destruct (of_real_in _ (-1) 1 (rep_opp _ _ (rep_1 _)) (rep_1 _) B) as (A & C & _). split; [exact A|]. now apply Rabs_le.
    + destruct x as [s|s| |]; try discriminate. cbn [Tanh rounded]. destruct (of_real_in (if s then -1 else 1) (-1) 1 (rep_opp _ _ (rep_1 _)) (rep_1 _)) as (A & C & _); [destruct s; lra|]. split; [exact A|]. now apply Rabs_le.
  - reflexivity.
  - intros x F. rewrite cosh_def by auto. destruct (of_real_ge (cosh (real x)) 1 (rep_1 _) (cosh_one _)) as [E|[A|(_ & L)]]; [now left|now right|lra].
  - intros s. rewrite (pow_def (B754_zero s) 2) by (reflexivity || lia). unfold of_real. change (real (B754_zero s : val F64)) with 0.
    assert (N : nearest F64 (powerRZ 0 2) = 0) by (replace (powerRZ 0 2) with 0 by (simpl; ring); apply (rep_0 F64)). rewrite <- of_real_value in N. apply eq_0_F2R in N || apply F2R_eq_0 in N. rewrite N. reflexivity.
  - intros x F B. rewrite (pow_def x 2) by (auto; lia). destruct (of_real_in (powerRZ (real x) 2) 0 1 (rep_0 _) (rep_1 _)) as (A & C & _); [|auto]. apply Rabs_le_inv in B. change (powerRZ (real x) 2) with (real x * (real x * 1)). nra.
  - intros x F B. rewrite (pow_def x 3) by (auto; lia). assert (E : powerRZ (real x) 3 = real x ^ 3) by reflexivity. rewrite E.
    assert (K : Rabs (real x ^ 3) <= 2 ^ 900). { rewrite <- RPow_abs. replace (2 ^ 900) with ((2 ^ 300) ^ 3) by (rewrite <- pow_mult; reflexivity). apply pow_incr. split; [apply Rabs_pos|exact B]. } apply Rabs_le_inv in K.
    destruct (of_real_in (real x ^ 3) (- 2 ^ 900) (2 ^ 900)) as (A & _ & ->); [apply rep_opp, rep_big; cbn; lia|apply rep_big; cbn; lia|exact K|]. split; [exact A|apply of_real_error].
  - intros x F B. rewrite (pow_def x 3) by (auto; lia). pose proof (of_real_spec (powerRZ (real x) 3)) as C.
    assert (L : limit F64 <= nearest F64 (powerRZ (real x) 3)).
    { assert (Q : 2 ^ 1050 <= powerRZ (real x) 3). { change (powerRZ (real x) 3) with (real x ^ 3). replace (2 ^ 1050) with ((2 ^ 350) ^ 3) by (rewrite <- pow_mult; reflexivity). apply pow_incr. split; [left; apply pow2_pos|exact B]. }
      rewrite limit_eq in *. rewrite nearest_eq. apply round_ge_generic; auto; [apply FLT_exp_valid; reflexivity|apply valid_rnd_round_mode|apply generic_format_bpow; cbn; lia|]. eapply Rle_trans; [|exact Q]. rewrite pow2. apply bpow_le. cbn. lia. }
    assert (P : 0 < limit F64) by (rewrite limit_eq; apply bpow_gt_0). rewrite Rlt_bool_false in C by (eapply Rle_trans; [exact L|apply Rle_abs]). rewrite Rlt_bool_false in C by lra. exact C.
  - intros x F. rewrite (pow_def x 3) by (auto; lia). apply of_real_number.
Qed.
