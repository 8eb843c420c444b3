(** * Lemmas about operations on floats *)
From Coq Require Import List ZArith Bool Reals Lia Lra.
From Flocq Require Import Core BinarySingleNaN.
From Verif Require Import DenseModel FloatModel FloatSpec FloatProofs NumModel NumSpec.
Import ListNotations.
Open Scope R_scope.

(** r is a value of type d *)
Definition rep (d : dtype) (r : R) : Prop := nearest d r = r /\ Rabs r < limit d.

Lemma nearest_le d x y : x <= y -> nearest d x <= nearest d y.
Proof. intros H. rewrite !nearest_eq. apply round_le; auto; [apply FLT_exp_valid; destruct d; reflexivity|apply valid_rnd_round_mode]. Qed.
Lemma nearest_rep d x : nearest d (nearest d x) = nearest d x.
Proof. rewrite !nearest_eq. apply round_generic; [apply valid_rnd_round_mode|]. apply generic_format_round; [apply FLT_exp_valid; destruct d; reflexivity|apply valid_rnd_round_mode]. Qed.
Lemma rep_real d (x : val d) : finite x -> rep d (real x).
Proof.
  intros F. split.
  - rewrite nearest_eq. apply round_generic; [apply valid_rnd_round_mode|apply generic_format_B2R].
  - rewrite limit_eq. apply abs_B2R_lt_emax.
Qed.
Lemma rep_opp d r : rep d r -> rep d (- r).
Proof.
  intros (E & L). split; [|now rewrite Rabs_Ropp]. rewrite nearest_eq in *. cbn [round_mode] in *. now rewrite round_NE_opp, E.
Qed.
Lemma rep_0 d : rep d 0.
Proof. split; [rewrite nearest_eq; apply round_0, valid_rnd_round_mode|]. rewrite Rabs_R0, limit_eq. apply bpow_gt_0. Qed.
(** numbers of the form m * 2^e *)
Lemma rep_dyadic d m e r : r = IZR m * bpow radix2 e -> (Z.abs m < 2 ^ prec d)%Z -> (3 - emax d - prec d <= e)%Z -> (e + prec d <= emax d)%Z -> rep d r.
Proof.
  intros -> M E1 E2. split.
  - rewrite nearest_eq. apply round_generic; [apply valid_rnd_round_mode|]. apply generic_format_FLT with (prec := prec d) (emin := (3 - emax d - prec d)%Z).
    exists (Float radix2 m e); [reflexivity|exact M|exact E1].
  - rewrite limit_eq, Rabs_mult, (Rabs_pos_eq (bpow _ _)) by apply bpow_ge_0. rewrite <- abs_IZR.
    apply Rlt_le_trans with (IZR (2 ^ prec d) * bpow radix2 e).
    + apply Rmult_lt_compat_r; [apply bpow_gt_0|now apply IZR_lt].
    + change 2%Z with (radix_val radix2). rewrite IZR_Zpower by (destruct d; cbn; lia). rewrite <- bpow_plus. apply bpow_le. lia.
Qed.
Lemma rep_pow d k : (3 - emax d - prec d <= k)%Z -> (k + prec d <= emax d)%Z -> rep d (bpow radix2 k).
Proof. intros. apply (rep_dyadic d 1 k); auto; [now rewrite Rmult_1_l|destruct d; reflexivity]. Qed.
Lemma pow2 n : 2 ^ n = bpow radix2 (Z.of_nat n).
Proof. rewrite bpow_powerRZ, <- pow_powerRZ. reflexivity. Qed.
Lemma rep_pow2 d n : (Z.of_nat n + prec d <= emax d)%Z -> rep d (2 ^ n).
Proof. intros. rewrite pow2. apply rep_pow; destruct d; cbn in *; lia. Qed.
Lemma rep_1 d : rep d 1.
Proof. apply (rep_pow2 d 0). destruct d; cbn; lia. Qed.
Lemma rep_int d k : (Z.abs k < 2 ^ 24)%Z -> rep d (IZR k).
Proof. intros. apply (rep_dyadic d k 0); [now rewrite Rmult_1_r|destruct d; cbn; lia..]. Qed.

Lemma lit_eq d m e r : r = IZR m * bpow radix2 e -> (Z.abs m < 2 ^ prec d)%Z -> (3 - emax d - prec d <= e)%Z -> (e + prec d <= emax d)%Z ->
  finite (lit m e : val d) /\ real (lit m e : val d) = r.
Proof.
  intros E M E1 E2. destruct (rep_dyadic d m e r E M E1 E2) as (N & L).
  pose proof (binary_normalize_correct (prec d) (emax d) (prec_pos d) (prec_emax d) mode_NE m e false) as C. cbv zeta in C.
  unfold F2R in C. cbn [Fnum Fexp] in C. rewrite <- E, <- nearest_eq, <- limit_eq, N, Rlt_bool_true in C by auto.
  unfold finite, real, lit. tauto.
Qed.
Lemma one_eq d : finite (fone : val d) /\ real (fone : val d) = 1.
Proof. apply lit_eq; [cbn; lra|destruct d; cbn; lia..]. Qed.

(** a number between two values of the type is rounded between them *)
Lemma between d l r h : rep d l -> rep d h -> l <= r <= h -> rep d (nearest d r) /\ l <= nearest d r <= h.
Proof.
  intros (El & Ll) (Eh & Lh) (A & B). apply nearest_le with (d := d) in A, B. rewrite El in A. rewrite Eh in B.
  split; [|lra]. split; [apply nearest_rep|]. apply Rabs_lt. apply Rabs_lt_inv in Ll, Lh. lra.
Qed.
Ltac by_rounding C N L := rewrite <- nearest_eq, <- limit_eq, Rlt_bool_true in C by exact L.
Lemma add_in d (x y : val d) l h : finite x -> finite y -> rep d l -> rep d h -> l <= real x + real y <= h ->
  finite (fadd x y) /\ l <= real (fadd x y) <= h /\ real (fadd x y) = nearest d (real x + real y).
Proof.
  intros Fx Fy Rl Rh B. destruct (between d l _ h Rl Rh B) as ((N & L) & Q).
  pose proof (@Bplus_correct (prec d) (emax d) (prec_pos d) (prec_emax d) mode_NE x y Fx Fy) as C. by_rounding C N L.
  fold (fadd x y) in C. destruct C as (V & F & _). unfold real, finite in *. now rewrite V.
Qed.
Lemma sub_in d (x y : val d) l h : finite x -> finite y -> rep d l -> rep d h -> l <= real x - real y <= h ->
  finite (fsub x y) /\ l <= real (fsub x y) <= h /\ real (fsub x y) = nearest d (real x - real y).
Proof.
  intros Fx Fy Rl Rh B. destruct (between d l _ h Rl Rh B) as ((N & L) & Q).
  pose proof (@Bminus_correct (prec d) (emax d) (prec_pos d) (prec_emax d) mode_NE x y Fx Fy) as C. by_rounding C N L.
  fold (fsub x y) in C. destruct C as (V & F & _). unfold real, finite in *. now rewrite V.
Qed.
Lemma mul_in d (x y : val d) l h : finite x -> finite y -> rep d l -> rep d h -> l <= real x * real y <= h ->
  finite (fmul x y) /\ l <= real (fmul x y) <= h /\ real (fmul x y) = nearest d (real x * real y).
Proof.
  intros Fx Fy Rl Rh B. destruct (between d l _ h Rl Rh B) as ((N & L) & Q).
  pose proof (@Bmult_correct (prec d) (emax d) (prec_pos d) (prec_emax d) mode_NE x y) as C. by_rounding C N L.
  fold (fmul x y) in C. destruct C as (V & F & _). unfold real, finite in *. rewrite V, F, Fx, Fy. auto.
Qed.
Lemma div_in d (x y : val d) l h : finite x -> real y <> 0 -> rep d l -> rep d h -> l <= real x / real y <= h ->
  finite (fdiv x y) /\ l <= real (fdiv x y) <= h /\ real (fdiv x y) = nearest d (real x / real y).
Proof.
  intros Fx Fy Rl Rh B. destruct (between d l _ h Rl Rh B) as ((N & L) & Q).
  pose proof (@Bdiv_correct (prec d) (emax d) (prec_pos d) (prec_emax d) mode_NE x y Fy) as C. by_rounding C N L.
  fold (fdiv x y) in C. destruct C as (V & F & _). unfold real, finite in *. rewrite V, F, Fx. auto.
Qed.
Lemma conv_in S D (x : val S) l h : finite x -> rep D l -> rep D h -> l <= real x <= h ->
  finite (conv S D x) /\ l <= real (conv S D x) <= h /\ real (conv S D x) = nearest D (real x).
Proof.
  intros F Rl Rh B. destruct (between D l _ h Rl Rh B) as ((N & L) & Q). unfold finite, real in *.
  destruct x as [s|s| |s m e H]; try discriminate.
  - cbn [conv]. change (B2R (B754_zero s)) with 0 in *. split; [reflexivity|]. split; [exact B|]. symmetry. apply rep_0.
  - pose proof (conv_finite S D s m e H) as C. cbv zeta in C. rewrite Rlt_bool_true in C by exact L. destruct C as (Fc & V & _). now rewrite V.
Qed.
Lemma conv_up d (x : val d) : finite x -> finite (conv d F64 x) /\ real (conv d F64 x) = real x.
Proof. intros F. destruct (conv_wide d F64 x ltac:(destruct d; exact I) F) as (A & B & _). split; assumption. Qed.
Lemma neg_eq d (x : val d) : real (fneg x) = - real x.
Proof. apply B2R_Bopp. Qed.
Lemma neg_finite d (x : val d) : finite x -> finite (fneg x).
Proof. unfold finite, fneg. now rewrite is_finite_Bopp. Qed.
Lemma abs_eq d (x : val d) : real (fabs x) = Rabs (real x).
Proof. apply B2R_Babs. Qed.
Lemma abs_finite d (x : val d) : finite x -> finite (fabs x).
Proof. unfold finite, fabs. now rewrite is_finite_Babs. Qed.
Lemma lt_eq d (x y : val d) : finite x -> finite y -> flt x y = true <-> real x < real y.
Proof. intros. unfold flt. rewrite Bltb_correct by auto. destruct (Rlt_bool_spec (B2R x) (B2R y)); unfold real; split; auto; try discriminate; lra. Qed.
Lemma lt_false d (x y : val d) : finite x -> finite y -> flt x y = false -> real y <= real x.
Proof. intros Fx Fy E. destruct (Rle_or_lt (real y) (real x)); auto. apply lt_eq in H; auto. congruence. Qed.
Lemma le_eq d (x y : val d) : finite x -> finite y -> fle x y = true <-> real x <= real y.
Proof. intros. unfold fle. rewrite Bleb_correct by auto. destruct (Rle_bool_spec (B2R x) (B2R y)); unfold real; split; auto; try discriminate; lra. Qed.
Lemma le_false d (x y : val d) : finite x -> finite y -> fle x y = false -> real y < real x.
Proof. intros Fx Fy E. destruct (Rle_or_lt (real x) (real y)); auto. apply le_eq in H; auto. congruence. Qed.

(** results that are not NaN *)
Lemma finite_number d (x : val d) : finite x -> is_nan x = false.
Proof. destruct x; try reflexivity; discriminate. Qed.
Lemma over_nan d (x : val d) s : B2SF x = binary_overflow (prec d) (emax d) mode_NE s -> x = B754_infinity s.
Proof. unfold binary_overflow. cbn. destruct x; cbn; congruence. Qed.
Lemma add_number d (x y : val d) : finite x -> finite y -> is_nan (fadd x y) = false.
Proof.
  intros Fx Fy. pose proof (@Bplus_correct (prec d) (emax d) (prec_pos d) (prec_emax d) mode_NE x y Fx Fy) as C. fold (fadd x y) in C. destruct (Rlt_bool _ _).
  - apply finite_number. tauto.
  - destruct C as (C & _). apply over_nan in C. now rewrite C.
Qed.
Lemma sub_number d (x y : val d) : finite x -> finite y -> is_nan (fsub x y) = false.
Proof.
  intros Fx Fy. pose proof (@Bminus_correct (prec d) (emax d) (prec_pos d) (prec_emax d) mode_NE x y Fx Fy) as C. fold (fsub x y) in C. destruct (Rlt_bool _ _).
  - apply finite_number. tauto.
  - destruct C as (C & _). apply over_nan in C. now rewrite C.
Qed.
Lemma mul_number d (x y : val d) : finite x -> finite y -> is_nan (fmul x y) = false.
Proof.
  intros Fx Fy. pose proof (@Bmult_correct (prec d) (emax d) (prec_pos d) (prec_emax d) mode_NE x y) as C. fold (fmul x y) in C. destruct (Rlt_bool _ _).
  - apply finite_number. unfold finite in *. destruct C as (_ & C & _). now rewrite C, Fx, Fy.
  - apply over_nan in C. now rewrite C.
Qed.
Lemma div_number d (x y : val d) : finite x -> real y <> 0 -> is_nan (fdiv x y) = false.
Proof.
  intros Fx Fy. pose proof (@Bdiv_correct (prec d) (emax d) (prec_pos d) (prec_emax d) mode_NE x y Fy) as C. fold (fdiv x y) in C. destruct (Rlt_bool _ _).
  - apply finite_number. unfold finite in *. destruct C as (_ & C & _). now rewrite C, Fx.
  - apply over_nan in C. now rewrite C.
Qed.
Lemma conv_number S D (x : val S) : is_nan x = false -> is_nan (conv S D x) = false.
Proof.
  intros N. destruct x as [s|s| |s m e H]; try discriminate; try reflexivity. pose proof (conv_finite S D s m e H) as C. cbv zeta in C.
  destruct (Rlt_bool _ _); [apply finite_number; unfold finite; tauto|now rewrite C].
Qed.
(** overflow *)
Lemma mul_over d (x y : val d) : finite x -> finite y -> limit d <= real x * real y -> 0 < real x -> fmul x y = infinity.
Proof.
  intros Fx Fy B P. pose proof (@Bmult_correct (prec d) (emax d) (prec_pos d) (prec_emax d) mode_NE x y) as C. fold (fmul x y) in C.
  assert (O : limit d <= nearest d (real x * real y)).
  { rewrite limit_eq in *. rewrite nearest_eq. apply round_ge_generic; auto; [apply FLT_exp_valid; destruct d; reflexivity|apply valid_rnd_round_mode|].
    apply generic_format_bpow. destruct d; cbn; lia. }
  rewrite <- nearest_eq, <- limit_eq, Rlt_bool_false in C by (fold (real x) (real y); rewrite Rabs_pos_eq; [exact O|]; eapply Rle_trans; [|exact O]; rewrite limit_eq; apply bpow_ge_0).
  assert (Py : 0 < real y). { assert (0 < limit d) by (rewrite limit_eq; apply bpow_gt_0). destruct (Rle_or_lt (real y) 0); auto. assert (real x * real y <= real x * 0) by (apply Rmult_le_compat_l; lra). lra. }
  assert (S : forall z : val d, finite z -> 0 < real z -> Bsign z = false).
  { intros z Fz Pz. destruct z as [s| | |s mz ez Hz]; try discriminate; [cbn in Pz; lra|]. destruct s; [|reflexivity]. exfalso.
    unfold real, B2R in Pz. assert (F2R (beta := radix2) {| Fnum := SpecFloat.cond_Zopp true (Zpos mz); Fexp := ez |} < 0) by (apply F2R_lt_0; cbn; lia). lra. }
  rewrite (S x), (S y) in C by auto. now apply over_nan in C.
Qed.
