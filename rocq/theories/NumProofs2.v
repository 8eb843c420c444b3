(** * Proofs: activations in floating point *)
From Coq Require Import List ZArith Bool Reals Lia Lra.
From Flocq Require Import Core BinarySingleNaN Relative.
From Verif Require Import DenseModel DenseLemmas ArithModel ArithProofs FloatModel FloatSpec FloatProofs NumModel NumSpec NumLemmas NumProofs.
Import ListNotations.
Open Scope R_scope.

(** ** Adding something small to the largest value does not overflow *)
Definition largest (d : dtype) : val d := lit (2 ^ prec d - 1) (emax d - prec d).
Lemma largest_eq d : finite (largest d) /\ real (largest d) = bpow radix2 (emax d) - bpow radix2 (emax d - prec d).
Proof.
  apply lit_eq; [|destruct d; cbn; lia..]. rewrite minus_IZR. change 2%Z with (radix_val radix2). rewrite IZR_Zpower by (destruct d; cbn; lia).
  rewrite Rmult_minus_distr_r, <- bpow_plus, Rmult_1_l. f_equal. f_equal. lia.
Qed.
Lemma below_largest d (x : val d) : finite x -> real x <= real (largest d).
Proof.
  intros F. rewrite (proj2 (largest_eq d)). pose proof (@abs_B2R_le_emax_minus_prec (prec d) (emax d) (prec_pos d) x) as H. fold (real x) in H. apply Rabs_le_inv in H. lra.
Qed.
Lemma largest_saturates d : nearest d (real (largest d) + 64) = real (largest d).
Proof.
  destruct (largest_eq d) as (Fc & _). destruct (lit_eq d 64 0 64) as (Fo & Vo); [cbn; lra|destruct d; cbn; lia..|].
  pose proof (@Bplus_correct (prec d) (emax d) (prec_pos d) (prec_emax d) mode_NE (largest d) (lit 64 0) Fc Fo) as C.
  assert (E : @Bplus (prec d) (emax d) (prec_pos d) (prec_emax d) mode_NE (largest d) (lit 64 0) = largest d) by (apply B2SF_inj; destruct d; vm_compute; reflexivity).
  rewrite E in C. rewrite <- nearest_eq in C. fold (real (largest d)) (real (lit 64 0 : val d)) in C. rewrite Vo in C.
  destruct (Rlt_bool _ _); [symmetry; apply C|]. destruct C as (C & _). exfalso. apply over_nan in C. unfold finite in Fc. rewrite C in Fc. discriminate.
Qed.
(** x + y with 0 <= y <= 64 *)
Lemma add_small d (x y : val d) : finite x -> finite y -> 0 <= real y <= 64 -> finite (fadd x y) /\ real x <= real (fadd x y) <= real (largest d).
Proof.
  intros Fx Fy B. assert (N : real x <= nearest d (real x + real y) <= real (largest d)).
  { split; [rewrite <- (proj1 (rep_real d x Fx)) at 1|rewrite <- largest_saturates]; apply nearest_le; [lra|]. pose proof (below_largest d x Fx). lra. }
  pose proof (@Bplus_correct (prec d) (emax d) (prec_pos d) (prec_emax d) mode_NE x y Fx Fy) as C. fold (fadd x y) in C. rewrite <- nearest_eq, <- limit_eq in C. fold (real x) (real y) in C.
  rewrite Rlt_bool_true in C.
  - destruct C as (V & F & _). fold (real (fadd x y)) in V. rewrite V. split; [exact F|exact N].
  - apply Rabs_lt. pose proof (proj2 (rep_real d x Fx)) as L1. pose proof (proj2 (rep_real d _ (proj1 (largest_eq d)))) as L2. apply Rabs_lt_inv in L1, L2. lra.
Qed.
Lemma add_comm d (x y : val d) : finite x -> finite y -> finite (fadd x y) -> finite (fadd y x) /\ real (fadd y x) = real (fadd x y).
Proof.
  intros Fx Fy F. pose proof (@Bplus_correct (prec d) (emax d) (prec_pos d) (prec_emax d) mode_NE x y Fx Fy) as C. pose proof (@Bplus_correct (prec d) (emax d) (prec_pos d) (prec_emax d) mode_NE y x Fy Fx) as C'.
  fold (fadd x y) in C. fold (fadd y x) in C'. rewrite (Rplus_comm (B2R y)) in C'. destruct (Rlt_bool _ _).
  - destruct C as (V & _). destruct C' as (V' & F' & _). split; [exact F'|]. unfold real. congruence.
  - destruct C as (C & _). apply over_nan in C. unfold finite in F. rewrite C in F. discriminate.
Qed.
Lemma one_plus d (e : val d) : finite e -> 0 <= real e -> finite (fadd fone e) /\ 1 <= real (fadd fone e) /\ real e <= real (fadd fone e).
Proof.
  intros F P. destruct (one_eq d) as (Fo & Vo). destruct (add_small d e fone F Fo) as (A & B); [lra|]. destruct (add_comm d e fone F Fo A) as (A' & V).
  split; [exact A'|]. split; [|rewrite V; lra]. pose proof (@Bplus_correct (prec d) (emax d) (prec_pos d) (prec_emax d) mode_NE fone e Fo F) as C. fold (fadd fone e) in C.
  destruct (Rlt_bool _ _).
  - destruct C as (C & _). fold (real (fadd fone e)) in C. rewrite C, <- nearest_eq. rewrite <- (proj1 (rep_1 d)). apply nearest_le. fold (real (fone : val d)) (real e). lra.
  - destruct C as (C & _). apply over_nan in C. unfold finite in A'. rewrite C in A'. discriminate.
Qed.
Lemma plus_one d (e : val d) : finite e -> 0 <= real e -> finite (fadd e fone) /\ 1 <= real (fadd e fone) /\ real e <= real (fadd e fone).
Proof.
  intros F P. destruct (one_eq d) as (Fo & _). destruct (one_plus d e F P) as (A & B). destruct (add_comm d fone e Fo F A) as (A' & V). rewrite V. auto.
Qed.

(** a number from 0 to infinity *)
Definition nonneg {d} (x : val d) : Prop := (finite x /\ 0 <= real x) \/ x = infinity.
Lemma nonneg_number d (x : val d) : nonneg x -> is_nan x = false.
Proof. intros [(F & _)| ->]; [now apply finite_number|reflexivity]. Qed.
(** 1 / (1 + e) *)
Lemma recip d (e : val d) : nonneg e -> finite (fdiv fone (fadd fone e)) /\ 0 <= real (fdiv fone (fadd fone e)) <= 1.
Proof.
  destruct (one_eq d) as (Fo & Vo). intros [(F & P)| ->].
  - destruct (one_plus d e F P) as (A & B & _). destruct (div_in d fone (fadd fone e) 0 1 Fo) as (X & Y & _); [lra|apply rep_0|apply rep_1| |auto].
    rewrite Vo. unfold Rdiv. rewrite Rmult_1_l. split; [apply Rlt_le, Rinv_0_lt_compat; lra|]. rewrite <- Rinv_1. apply Rinv_le_contravar; lra.
  - assert (E : fdiv (fone : val d) (fadd fone infinity) = B754_zero false) by (apply B2SF_inj; destruct d; reflexivity). rewrite E. split; [reflexivity|]. unfold real. cbn. lra.
Qed.
Lemma conv_nonneg S D (x : val S) : nonneg x -> nonneg (conv S D x).
Proof.
  intros [(F & P)| ->]; [|now right]. destruct x as [s|s| |s mx ex H]; try discriminate; [left; split; [reflexivity|unfold real; cbn; lra]|].
  pose proof (conv_finite S D s mx ex H) as C. cbv zeta in C. set (x := B754_finite s mx ex H : val S) in *. fold (real x) in C.
  assert (N : 0 <= nearest D (real x)) by (rewrite <- (proj1 (rep_0 D)); apply nearest_le; exact P).
  destruct (Rlt_bool_spec (Rabs (nearest D (real x))) (limit D)) as [L|L].
  - destruct C as (Fc & V & _). left. split; [exact Fc|]. unfold real at 1. rewrite V. exact N.
  - right. rewrite C. assert (Sg : Bsign x = false); [|now rewrite Sg]. destruct (Bsign x) eqn:Sx; [|reflexivity]. exfalso. cbn in Sx. subst s.
    unfold x, real, B2R in P. assert (F2R (beta := radix2) {| Fnum := SpecFloat.cond_Zopp true (Zpos mx); Fexp := ex |} < 0) by (apply F2R_lt_0; cbn; lia). lra.
Qed.

(** rounding at most doubles and at most halves what is not tiny *)
Lemma half_below x : 1 <= x -> x / 2 <= nearest F64 x.
Proof.
  intros H. pose proof (@relative_error_N_FLT radix2 (-1074) 53 eq_refl (fun n => negb (Z.even n)) x) as E.
  change (nearest F64 x) with (round radix2 (FLT_exp (-1074) 53) ZnearestE x).
  assert (A : Rabs (round radix2 (FLT_exp (-1074) 53) ZnearestE x - x) <= / 2 * bpow radix2 (- (53) + 1) * Rabs x).
  { apply E. rewrite Rabs_pos_eq by lra. apply Rle_trans with 1; [|exact H]. change 1 with (bpow radix2 0). apply bpow_le. lia. }
  rewrite (Rabs_pos_eq x) in A by lra. apply Rabs_le_inv in A. assert (B : / 2 * bpow radix2 (- (53) + 1) <= / 2).
  { rewrite <- (Rmult_1_r (/ 2)) at 2. apply Rmult_le_compat_l; [lra|]. change 1 with (bpow radix2 0). apply bpow_le. lia. }
  assert (/ 2 * bpow radix2 (- (53) + 1) * x <= / 2 * x) by (apply Rmult_le_compat_r; lra). lra.
Qed.
(** a value times a power of two *)
Lemma rep_float d r : rep d r -> exists mx e, r = IZR mx * bpow radix2 e /\ (Z.abs mx < 2 ^ prec d)%Z /\ (3 - emax d - prec d <= e)%Z.
Proof.
  intros (E & _). rewrite nearest_eq in E.
  assert (Fm : generic_format radix2 (FLT_exp (3 - emax d - prec d) (prec d)) r) by (rewrite <- E; apply generic_format_round; [apply FLT_exp_valid; destruct d; reflexivity|apply valid_rnd_round_mode]).
  apply FLT_format_generic in Fm; [|destruct d; reflexivity]. destruct Fm as [f H1 H2 H3]. exists (Fnum f), (Fexp f). split; [exact H1|]. split; [exact H2|exact H3].
Qed.
Lemma rep_of_float d r mx e : r = IZR mx * bpow radix2 e -> (Z.abs mx < 2 ^ prec d)%Z -> (3 - emax d - prec d <= e)%Z -> Rabs r < limit d -> rep d r.
Proof.
  intros -> M E L. split; [|exact L]. rewrite nearest_eq. apply round_generic; [apply valid_rnd_round_mode|]. apply generic_format_FLT with (prec := prec d) (emin := (3 - emax d - prec d)%Z).
  exists (Float radix2 mx e); [reflexivity|exact M|exact E].
Qed.
Lemma rep_scale d r k : rep d r -> (0 <= k)%Z -> Rabs (r * bpow radix2 k) < limit d -> rep d (r * bpow radix2 k).
Proof.
  intros R K B. destruct (rep_float d r R) as (mx & e & E & M & L). apply (rep_of_float d _ mx (e + k)); auto; [|lia]. rewrite E, bpow_plus. ring.
Qed.
Lemma rep_halve d r : rep d r -> 1 <= Rabs r -> rep d (r / 2).
Proof.
  intros R B. destruct (rep_float d r R) as (mx & e & E & M & L). apply (rep_of_float d _ mx (e - 1)); auto.
  - rewrite E. unfold Zminus. rewrite bpow_plus. change (bpow radix2 (- (1))) with (/ 2). unfold Rdiv. ring.
  - assert (P : bpow radix2 0 < bpow radix2 (prec d + e)).
    { change (bpow radix2 0) with 1. eapply Rle_lt_trans; [exact B|]. rewrite E, Rabs_mult, (Rabs_pos_eq (bpow _ _)), <- abs_IZR, bpow_plus by apply bpow_ge_0.
      apply Rmult_lt_compat_r; [apply bpow_gt_0|]. rewrite <- IZR_Zpower by (destruct d; cbn; lia). now apply IZR_lt. }
    apply lt_bpow in P. clear -P. destruct d; unfold prec, emax in *; lia.
  - unfold Rdiv. rewrite Rabs_mult, (Rabs_pos_eq (/ 2)) by lra. pose proof (Rabs_pos r). pose proof (proj2 R). lra.
Qed.

(** bounds by absolute value *)
Lemma mul_abs d (x y : val d) b : finite x -> finite y -> rep d b -> Rabs (real x) * Rabs (real y) <= b -> finite (fmul x y) /\ Rabs (real (fmul x y)) <= b.
Proof.
  intros Fx Fy Rb B. rewrite <- Rabs_mult in B. apply Rabs_le_inv in B. destruct (mul_in d x y (- b) b Fx Fy (rep_opp d b Rb) Rb) as (A & C & _); [lra|]. split; [exact A|now apply Rabs_le].
Qed.
Lemma add_abs d (x y : val d) b : finite x -> finite y -> rep d b -> Rabs (real x) + Rabs (real y) <= b -> finite (fadd x y) /\ Rabs (real (fadd x y)) <= b.
Proof.
  intros Fx Fy Rb B. assert (H : Rabs (real x + real y) <= b) by (eapply Rle_trans; [apply Rabs_triang|exact B]). apply Rabs_le_inv in H.
  destruct (add_in d x y (- b) b Fx Fy (rep_opp d b Rb) Rb) as (A & C & _); [lra|]. split; [exact A|now apply Rabs_le].
Qed.
Lemma div_abs d (x y : val d) b : finite x -> real y <> 0 -> rep d b -> Rabs (real x) <= b * Rabs (real y) -> finite (fdiv x y) /\ Rabs (real (fdiv x y)) <= b.
Proof.
  intros Fx Fy Rb B. assert (H : Rabs (real x / real y) <= b).
  { unfold Rdiv. rewrite Rabs_mult, Rabs_inv. apply Rmult_le_reg_r with (Rabs (real y)); [now apply Rabs_pos_lt|]. rewrite Rmult_assoc, Rinv_l, Rmult_1_r by now apply Rabs_no_R0. exact B. }
  apply Rabs_le_inv in H. destruct (div_in d x y (- b) b Fx Fy (rep_opp d b Rb) Rb) as (A & C & _); [lra|]. split; [exact A|now apply Rabs_le].
Qed.
Lemma conv_abs S D (x : val S) b : finite x -> rep D b -> Rabs (real x) <= b -> finite (conv S D x) /\ Rabs (real (conv S D x)) <= b.
Proof.
  intros F R B. apply Rabs_le_inv in B. destruct (conv_in S D x (- b) b F (rep_opp D b R) R) as (A & C & _); [lra|]. split; [exact A|now apply Rabs_le].
Qed.
Lemma rep_abs d r : rep d r -> rep d (Rabs r).
Proof. intros H. unfold Rabs. destruct (Rcase_abs r); [now apply rep_opp|exact H]. Qed.
Lemma rep_wide d r : rep d r -> rep F64 r.
Proof.
  destruct d; [|auto]. intros (E & L). split.
  - change (round radix2 (FLT_exp (-149) 24) ZnearestE r = r) in E. change (round radix2 (FLT_exp (-1074) 53) ZnearestE r = r).
    apply round_generic; [apply valid_rnd_N|]. apply generic_inclusion_mag with (fexp1 := FLT_exp (-149) 24); [|rewrite <- E; apply generic_format_round; [now apply FLT_exp_valid|apply valid_rnd_N]].
    intros _. unfold FLT_exp. lia.
  - eapply Rlt_le_trans; [exact L|]. rewrite !limit_eq. apply bpow_le. cbn. lia.
Qed.

Section M.
Variable m : libm.
Hypothesis G : go_math m.
Notation F := (fun x : val F64 => finite x).
Notation zero := (fzero : val F64).
Notation one := (fone : val F64).

Lemma exp_nonneg x : is_nan x = false -> nonneg (Exp m x).
Proof.
  intros N. destruct x as [s|s| |s mx ex H] eqn:E; try discriminate.
  - assert (Fx : finite x) by (subst; reflexivity). rewrite <- E. destruct (exp_either m G x Fx) as [A|A]; [left; split; [assumption|now apply (exp_positive m G)]|now right].
  - destruct s; [change (B754_infinity true) with (minus_infinity : val F64); rewrite (exp_minus_infinity m G); left; split; [reflexivity|unfold real; cbn; lra]|].
    change (B754_infinity false) with (infinity : val F64). rewrite (exp_infinity m G). now right.
  - assert (Fx : finite x) by (subst; reflexivity). rewrite <- E. destruct (exp_either m G x Fx) as [A|A]; [left; split; [assumption|now apply (exp_positive m G)]|now right].
Qed.
(** exp of something at most zero, possibly minus infinity *)
Lemma exp_unit x : (x = minus_infinity \/ (finite x /\ real x <= 0)) -> finite (Exp m x) /\ 0 <= real (Exp m x) <= 1.
Proof.
  intros [->|(Fx & L)]; [rewrite (exp_minus_infinity m G); split; [reflexivity|unfold real; cbn; lra]|].
  assert (A : finite (Exp m x)) by (apply (exp_finite m G); auto; lra). split; [exact A|]. split; [now apply (exp_positive m G)|now apply (exp_below_one m G)].
Qed.
Lemma exp_minus_one x : (x = minus_infinity \/ (finite x /\ real x <= 0)) -> finite (fsub (Exp m x) one) /\ Rabs (real (fsub (Exp m x) one)) <= 1.
Proof.
  intros H. destruct (exp_unit x H) as (Fe & B). destruct (one_eq F64) as (Fo & Vo). destruct (sub_in F64 (Exp m x) one (- (1)) 1 Fe Fo (rep_opp _ _ (rep_1 _)) (rep_1 _)) as (A & C & _); [lra|].
  split; [exact A|now apply Rabs_le].
Qed.
(** not above zero *)
Lemma sign_nonneg d (z : val d) : finite z -> Bsign z = false -> 0 <= real z.
Proof. intros Fz Sz. destruct z as [s| | |s mz ez Hz]; try discriminate; [unfold real; cbn; lra|]. cbn in Sz. subst s. unfold real, B2R. apply F2R_ge_0. cbn. lia. Qed.
Lemma sign_nonpos d (z : val d) : finite z -> Bsign z = true -> real z <= 0.
Proof. intros Fz Sz. destruct z as [s| | |s mz ez Hz]; try discriminate; [unfold real; cbn; lra|]. cbn in Sz. subst s. unfold real, B2R. apply F2R_le_0. cbn. lia. Qed.
Lemma div_nonpos (v a : val F64) : finite v -> finite a -> real v <= 0 -> 0 < real a -> fdiv v a = minus_infinity \/ (finite (fdiv v a) /\ real (fdiv v a) <= 0).
Proof.
  intros Fv Fa Lv La. assert (Na : real a <> 0) by lra. pose proof (@Bdiv_correct (prec F64) (emax F64) (prec_pos F64) (prec_emax F64) mode_NE v a Na) as C. fold (fdiv v a) in C.
  rewrite <- nearest_eq, <- limit_eq in C. fold (real v) (real a) in C.
  assert (N : nearest F64 (real v / real a) <= 0).
  { apply Rle_trans with (nearest F64 0); [|rewrite (proj1 (rep_0 F64)); lra]. apply nearest_le. unfold Rdiv. assert (0 < / real a) by now apply Rinv_0_lt_compat. assert (0 <= (- real v) * / real a) by (apply Rmult_le_pos; lra). lra. }
  destruct (Rlt_bool_spec (Rabs (nearest F64 (real v / real a))) (limit F64)) as [L|L].
  - destruct C as (V & Fd & _). right. split; [unfold finite in *; congruence|]. unfold real at 1. rewrite V. exact N.
  - left. apply over_nan in C. rewrite C. assert (Sa : Bsign a = false) by (destruct (Bsign a) eqn:E; [apply sign_nonpos in E; auto; lra|reflexivity]). rewrite Sa.
    destruct (Bsign v) eqn:Sv; [reflexivity|]. exfalso. apply sign_nonneg in Sv; auto. assert (E : real v = 0) by lra. unfold Rdiv in L. rewrite E, Rmult_0_l, (proj1 (rep_0 F64)), Rabs_R0, limit_eq in L.
    pose proof (bpow_gt_0 radix2 (emax F64)). lra.
Qed.
(** a product at most h, possibly minus infinity *)
Lemma mul_below (v b : val F64) h : finite v -> finite b -> rep F64 h -> 0 <= h -> real v * real b <= h -> fmul v b = minus_infinity \/ (finite (fmul v b) /\ real (fmul v b) <= h).
Proof.
  intros Fv Fb Rh Ph B. pose proof (@Bmult_correct (prec F64) (emax F64) (prec_pos F64) (prec_emax F64) mode_NE v b) as C. fold (fmul v b) in C.
  rewrite <- nearest_eq, <- limit_eq in C. fold (real v) (real b) in C.
  assert (N : nearest F64 (real v * real b) <= h) by (rewrite <- (proj1 Rh); now apply nearest_le).
  destruct (Rlt_bool_spec (Rabs (nearest F64 (real v * real b))) (limit F64)) as [L|L].
  - destruct C as (V & Fd & _). right. split; [unfold finite in *; now rewrite Fd, Fv, Fb|]. unfold real at 1. now rewrite V.
  - left. apply over_nan in C. rewrite C. destruct (xorb (Bsign v) (Bsign b)) eqn:X; [reflexivity|]. exfalso.
    assert (P : 0 <= real v * real b).
    { destruct (Bsign v) eqn:Sv, (Bsign b) eqn:Sb; try discriminate.
      - apply sign_nonpos in Sv, Sb; auto. assert (0 <= (- real v) * (- real b)) by (apply Rmult_le_pos; lra). lra.
      - apply sign_nonneg in Sv, Sb; auto. now apply Rmult_le_pos. }
    assert (P' : 0 <= nearest F64 (real v * real b)) by (rewrite <- (proj1 (rep_0 F64)); now apply nearest_le).
    rewrite Rabs_pos_eq in L by exact P'. pose proof (proj2 Rh) as Lh. rewrite Rabs_pos_eq in Lh by exact Ph. lra.
Qed.

(** ** Forward *)
Section D.
Variable d : dtype.
(** w is finite and converts to a finite value of type d *)
Definition fits_in (w : val F64) : Prop := finite w /\ exists b, rep d b /\ Rabs (real w) <= b.
Lemma fits_conv w : fits_in w -> finite (conv F64 d w).
Proof. intros (Fw & b & R & B). now apply (conv_abs F64 d w b). Qed.
Lemma fits_1 w : finite w -> Rabs (real w) <= 1 -> fits_in w.
Proof. intros A B. split; [exact A|]. exists 1. split; [apply rep_1|exact B]. Qed.
Lemma fits_0 : fits_in zero.
Proof. apply fits_1; [reflexivity|]. unfold real. cbn. rewrite Rabs_R0. lra. Qed.
Lemma fits_one : fits_in one.
Proof. destruct (one_eq F64) as (A & B). apply fits_1; [exact A|]. rewrite B, Rabs_R1. lra. Qed.
Lemma rep_100 : rep d (2 ^ 100).
Proof. apply rep_pow2. destruct d; cbn; lia. Qed.

Variable v : val F64.
Hypothesis Fv : finite v.
Hypothesis Rv : rep d (real v).
Lemma fits_v w : finite w -> Rabs (real w) <= Rabs (real v) -> fits_in w.
Proof. intros A B. split; [exact A|]. exists (Rabs (real v)). split; [now apply rep_abs|exact B]. Qed.
Lemma fits_self : fits_in v.
Proof. apply fits_v; [exact Fv|lra]. Qed.
Lemma rep_v64 : rep F64 (Rabs (real v)).
Proof. apply rep_abs, (rep_wide d), Rv. Qed.

Lemma f_tanh : fits_in (go_tanh m v).
Proof. destruct (tanh_range m G v (finite_number _ v Fv)). now apply fits_1. Qed.
Lemma f_hard_sigmoid : fits_in (go_hard_sigmoid v).
Proof.
  unfold go_hard_sigmoid. destruct (lit_eq F64 5 (-1) (5/2)) as (F5 & V5); [cbn; lra|cbn; lia..|]. fold go_2_5 in F5, V5.
  destruct (flt go_2_5 v) eqn:E1; [apply fits_one|]. destruct (flt v (fneg go_2_5)) eqn:E2; [apply fits_0|].
  apply lt_false in E1; auto. apply lt_false in E2; [|auto|now apply neg_finite]. rewrite neg_eq in E2.
  destruct (lit_eq F64 3602879701896397 (-54) (3602879701896397 / 18014398509481984)) as (F2 & V2); [cbn; lra|cbn; lia..|]. fold go_0_2 in F2, V2.
  destruct (mul_abs F64 go_0_2 v 1 F2 Fv (rep_1 _)) as (Fm & Bm); [rewrite V2, (Rabs_pos_eq (_ / _)) by lra; apply Rle_trans with (3602879701896397 / 18014398509481984 * (5 / 2)); [apply Rmult_le_compat_l; [lra|apply Rabs_le; lra]|lra]|].
  destruct (lit_eq F64 1 (-1) (1/2)) as (Fh & Vh); [cbn; lra|cbn; lia..|].
  destruct (add_abs F64 (fmul go_0_2 v) (lit 1 (-1)) 2 Fm Fh (rep_int _ 2 eq_refl)) as (Fa & Ba); [rewrite Vh, (Rabs_pos_eq (1/2)) by lra; lra|].
  split; [exact Fa|]. exists 2. split; [now apply (rep_int d 2)|exact Ba].
Qed.
Lemma f_hard_tanh : fits_in (go_hard_tanh v).
Proof.
  unfold go_hard_tanh. destruct (one_eq F64) as (Fo & Vo). destruct (flt fone v); [apply fits_one|]. destruct (flt v (fneg fone)); [|apply fits_self].
  apply fits_1; [now apply neg_finite|]. rewrite neg_eq, Vo, Rabs_Ropp, Rabs_R1. lra.
Qed.
Lemma f_relu : fits_in (go_relu v).
Proof.
  unfold go_relu, go_max. pose proof fits_self as Q. destruct v as [[]|[]| |s mx ex H] eqn:E; try discriminate; try apply fits_0. cbn [fzero]. destruct (flt _ _); [apply fits_0|exact Q].
Qed.
Lemma softsign_in : finite (go_softsign v) /\ Rabs (real (go_softsign v)) <= 1.
Proof.
  unfold go_softsign. destruct (one_plus F64 (fabs v)) as (A & B & C); [now apply abs_finite|rewrite abs_eq; apply Rabs_pos|]. rewrite abs_eq in C.
  apply div_abs; [exact Fv|lra|apply rep_1|]. rewrite (Rabs_pos_eq (real (fadd _ _))) by lra. lra.
Qed.
Lemma f_softsign : fits_in (go_softsign v).
Proof. destruct softsign_in. now apply fits_1. Qed.
Lemma zero_eq : finite (fzero : val F64) /\ real (fzero : val F64) = 0.
Proof. split; reflexivity. Qed.
Lemma f_celu a : moderate a -> 0 < real a -> fits_in (go_celu m a v).
Proof.
  intros (Fa & Ba) Pa. unfold go_celu. destruct (fle v fzero) eqn:E; [|destruct (flt fzero v); [apply fits_self|apply fits_0]]. apply le_eq in E; [|auto|reflexivity]. change (real fzero) with 0 in E.
  destruct (exp_minus_one (fdiv v a)) as (F1 & B1); [apply div_nonpos; auto|].
  destruct (mul_abs F64 a (fsub (Exp m (fdiv v a)) fone) (2 ^ 100) Fa F1) as (F2 & B2); [apply rep_pow2; cbn; lia| |].
  - rewrite <- (Rmult_1_r (2 ^ 100)). apply Rmult_le_compat; auto using Rabs_pos.
  - split; [exact F2|]. exists (2 ^ 100). split; [apply rep_100|exact B2].
Qed.
Lemma f_elu a : moderate a -> fits_in (go_elu m a v).
Proof.
  intros (Fa & Ba). unfold go_elu. destruct (fle v fzero) eqn:E; [|destruct (flt fzero v); [apply fits_self|apply fits_0]]. apply le_eq in E; [|auto|reflexivity]. change (real fzero) with 0 in E.
  destruct (exp_minus_one v) as (F1 & B1); [now right|].
  destruct (mul_abs F64 a (fsub (Exp m v) fone) (2 ^ 100) Fa F1) as (F2 & B2); [apply rep_pow2; cbn; lia| |].
  - rewrite <- (Rmult_1_r (2 ^ 100)). apply Rmult_le_compat; auto using Rabs_pos.
  - split; [exact F2|]. exists (2 ^ 100). split; [apply rep_100|exact B2].
Qed.
Lemma scaled a : finite a -> Rabs (real a) <= 1 -> fits_in (fmul a v).
Proof.
  intros Fa Ba. destruct (mul_abs F64 a v (Rabs (real v)) Fa Fv rep_v64) as (F2 & B2); [|now apply fits_v].
  rewrite <- (Rmult_1_l (Rabs (real v))) at 2. apply Rmult_le_compat_r; auto using Rabs_pos.
Qed.
Lemma f_leaky a : finite a -> Rabs (real a) <= 1 -> fits_in (go_leaky a v).
Proof. intros Fa Ba. unfold go_leaky. destruct (fle v fzero); [now apply scaled|destruct (flt fzero v); [apply fits_self|apply fits_0]]. Qed.
Lemma f_selu a s : moderate a -> finite s -> Rabs (real s) <= 1 -> fits_in (go_selu m a s v).
Proof.
  intros (Fa & Ba) Fs Bs. unfold go_selu. destruct (fle v fzero) eqn:E; [|destruct (flt fzero v); [now apply scaled|apply fits_0]]. apply le_eq in E; [|auto|reflexivity]. change (real fzero) with 0 in E.
  destruct (exp_minus_one v) as (F1 & B1); [now right|].
  destruct (mul_abs F64 s a (2 ^ 100) Fs Fa) as (F3 & B3); [apply rep_pow2; cbn; lia|rewrite <- (Rmult_1_l (2 ^ 100)); apply Rmult_le_compat; auto using Rabs_pos|].
  destruct (mul_abs F64 (fmul s a) (fsub (Exp m v) fone) (2 ^ 100) F3 F1) as (F2 & B2); [apply rep_pow2; cbn; lia| |].
  - rewrite <- (Rmult_1_r (2 ^ 100)). apply Rmult_le_compat; auto using Rabs_pos.
  - split; [exact F2|]. exists (2 ^ 100). split; [apply rep_100|exact B2].
Qed.
Lemma f_softshrink l : finite l -> 0 <= real l -> fits_in (go_softshrink l v).
Proof.
  intros Fl Pl. unfold go_softshrink. destruct (flt v (fneg l)) eqn:E.
  - apply lt_eq in E; [|auto|now apply neg_finite]. rewrite neg_eq in E. destruct (add_in F64 v l (real v) 0 Fv Fl (rep_real _ v Fv) (rep_0 _)) as (A & B & _); [lra|].
    apply fits_v; [exact A|]. rewrite !Rabs_left1; lra.
  - destruct (flt l v) eqn:E2; [|apply fits_0]. apply lt_eq in E2; auto. destruct (sub_in F64 v l 0 (real v) Fv Fl (rep_0 _) (rep_real _ v Fv)) as (A & B & _); [lra|].
    apply fits_v; [exact A|]. rewrite !Rabs_pos_eq; lra.
Qed.
Lemma f_threshold t k : moderate k -> fits_in (go_threshold t k v).
Proof.
  intros (Fk & Bk). unfold go_threshold. destruct (fle v t); [split; [exact Fk|]; exists (2 ^ 100); split; [apply rep_100|exact Bk]|]. destruct (flt t v); [apply fits_self|apply fits_0].
Qed.
Lemma times_unit x : finite x -> Rabs (real x) <= 1 -> fits_in (fmul v x).
Proof.
  intros Fx Bx. destruct (mul_abs F64 v x (Rabs (real v)) Fv Fx rep_v64) as (F2 & B2); [|now apply fits_v].
  rewrite <- (Rmult_1_r (Rabs (real v))) at 2. apply Rmult_le_compat_l; auto using Rabs_pos.
Qed.
Lemma f_swishb b : finite b -> fits_in (go_swishb m b v).
Proof.
  intros Fb. unfold go_swishb. destruct (recip F64 (Exp m (fmul b (fneg v)))) as (A & B); [apply exp_nonneg, mul_number; [exact Fb|now apply neg_finite]|].
  apply times_unit; [exact A|]. apply Rabs_le. lra.
Qed.
Lemma f_mish : fits_in (go_mish m v).
Proof.
  unfold go_mish. assert (N : is_nan (Log m (fadd fone (Exp m v))) = false).
  { destruct (exp_nonneg v (finite_number _ v Fv)) as [(A & B)|E].
    - destruct (one_plus F64 _ A B) as (C & D & _). apply finite_number, (log_finite m G); [exact C|lra].
    - rewrite E. change (fadd (fone : val F64) infinity) with (infinity : val F64). rewrite (log_infinity m G). reflexivity. }
  destruct (tanh_range m G _ N). now apply times_unit.
Qed.
Lemma add_finite_l (x y : val F64) : finite x -> is_nan y = false -> is_nan (fadd x y) = false.
Proof.
  intros Fx N. destruct y as [s|s| |s my ey H] eqn:E; try discriminate; rewrite <- E.
  - apply add_number; [exact Fx|now subst].
  - subst. destruct x; try discriminate; reflexivity.
  - apply add_number; [exact Fx|now subst].
Qed.
Lemma mul_nonzero_l (x y : val F64) : finite x -> real x <> 0 -> is_nan y = false -> is_nan (fmul x y) = false.
Proof.
  intros Fx Z N. destruct y as [s|s| |s my ey H] eqn:E; try discriminate; rewrite <- E.
  - apply mul_number; [exact Fx|now subst].
  - subst. destruct x; try discriminate; [exfalso; now apply Z|reflexivity].
  - apply mul_number; [exact Fx|now subst].
Qed.
Lemma f_gelu : fits_in (go_gelu m v).
Proof.
  unfold go_gelu. destruct (lit_eq F64 1 (-1) (1/2)) as (Fh & Vh); [cbn; lra|cbn; lia..|].
  destruct (lit_eq F64 7186705221432913 (-53) (7186705221432913 / 9007199254740992)) as (Fa & Va); [cbn; lra|cbn; lia..|].
  destruct (lit_eq F64 6444110634811895 (-57) (6444110634811895 / 144115188075855872)) as (Fb & Vb); [cbn; lra|cbn; lia..|].
  assert (N : is_nan (fmul (lit 7186705221432913 (-53)) (fadd v (fmul (lit 6444110634811895 (-57)) (Pow m v (lit 3 0))))) = false).
  { apply mul_nonzero_l; [exact Fa|rewrite Va; lra|]. apply add_finite_l; [exact Fv|]. apply mul_nonzero_l; [exact Fb|rewrite Vb; lra|]. now apply (cube_number m G). }
  destruct (tanh_range m G _ N) as (Ft & Bt). set (t := Tanh m _) in *. destruct (one_eq F64) as (Fo & Vo).
  destruct (add_in F64 fone t 0 2 Fo Ft (rep_0 _) (rep_int _ 2 eq_refl)) as (F1 & B1 & _); [apply Rabs_le_inv in Bt; lra|].
  destruct (Rle_or_lt 1 (Rabs (real v))) as [L|L].
  - pose proof (rep_halve F64 (real v) (rep_real F64 v Fv) L) as Rh.
    destruct (mul_in F64 (lit 1 (-1)) v (real v / 2) (real v / 2) Fh Fv Rh Rh) as (F2 & B2 & _); [rewrite Vh; lra|].
    assert (V2 : real (fmul (lit 1 (-1)) v) = real v / 2) by lra.
    destruct (mul_abs F64 (fmul (lit 1 (-1)) v) (fadd fone t) (Rabs (real v)) F2 F1 rep_v64) as (F3 & B3); [|now apply fits_v].
    rewrite V2. unfold Rdiv. rewrite Rabs_mult, (Rabs_pos_eq (/ 2)), (Rabs_pos_eq (real (fadd _ _))) by lra. pose proof (Rabs_pos (real v)).
    apply Rle_trans with (Rabs (real v) * / 2 * 2); [apply Rmult_le_compat_l; lra|lra].
  - destruct (mul_abs F64 (lit 1 (-1)) v 1 Fh Fv (rep_1 _)) as (F2 & B2); [rewrite Vh, (Rabs_pos_eq (1/2)) by lra; lra|].
    destruct (mul_abs F64 (fmul (lit 1 (-1)) v) (fadd fone t) 2 F2 F1 (rep_int _ 2 eq_refl)) as (F3 & B3).
    + rewrite (Rabs_pos_eq (real (fadd _ _))) by lra. apply Rle_trans with (1 * 2); [apply Rmult_le_compat; auto using Rabs_pos; lra|lra].
    + split; [exact F3|]. exists 2. split; [now apply (rep_int d 2)|exact B3].
Qed.
End D.
End M.
