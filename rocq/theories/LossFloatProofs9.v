(** * Losses in floating point: how accurate the focal loss, the perplexity and their gradients are *)
From Coq Require Import ZArith Bool Lia Arith Reals Lra Psatz.
From Coquelicot Require Import Coquelicot.
From Coq Require Import List.
From Flocq Require Import Core BinarySingleNaN Relative.
From Verif Require Import DenseModel ArithModel AsmModel AsmCode AsmCalls AsmSpec FloatModel FloatSpec FloatProofs NumModel NumSpec NumLemmas NumProofs NumProofs2 NumMath AsmFloatSpec AsmFloat AsmFloat2 SoftModel SoftSpec SoftProofs SoftFloat SoftFloat2 SoftFloat5 OptFloatNum NormFloatModel NormFloatNum NormFloatBack NormFloatBack5 LossFloatModel LossFloatSpec LossFloatProofs LossFloatProofs2 LossFloatProofs3 LossFloatProofs4 LossFloatProofs5 LossFloatProofs6 LossFloatProofs7 LossFloatProofs8.
Import ListNotations.
Local Open Scope list_scope.
Local Open Scope R_scope.

(** ** Powers *)
Lemma power_pos x y : 0 < x -> power_of x y = Rpower x y.
Proof. intros H. unfold power_of. destruct (Rle_dec x 0); [lra|reflexivity]. Qed.
Lemma power_in x y : 0 <= x <= 1 -> 0 <= y -> 0 <= power_of x y <= 1.
Proof.
  intros Hx Hy. unfold power_of. destruct (Rle_dec x 0); [lra|]. unfold Rpower. split; [left; apply exp_pos|]. rewrite <- exp_0. assert (ln x <= 0) by (rewrite <- ln_1; destruct (proj2 Hx) as [L| ->]; [left; apply ln_increasing; lra|lra]).
  assert (y * ln x <= 0) by nra. destruct (Rle_lt_or_eq_dec _ _ H0) as [Q|Q]; [left; now apply exp_increasing|rewrite Q; lra].
Qed.
Lemma power_le_id x y : 0 <= x <= 1 -> 1 <= y -> power_of x y <= x.
Proof.
  intros Hx Hy. unfold power_of. destruct (Rle_dec x 0); [lra|]. replace y with (1 + (y - 1)) by ring. rewrite Rpower_plus, Rpower_1 by lra. pose proof (power_in x (y - 1) Hx ltac:(lra)) as P. rewrite power_pos in P by lra. nra.
Qed.
Lemma power_lip_pos a b y : 0 < a < b -> b <= 1 -> 1 <= y -> 0 <= power_of b y - power_of a y <= y * (b - a).
Proof.
  intros Hab Hb Hy. rewrite !power_pos by lra.
  destruct (MVT_gen (fun t => Rpower t y) a b (fun t => y * Rpower t (y - 1))) as (m & Hm & E).
  - intros t Ht. rewrite Rmin_left, Rmax_right in Ht by lra. apply is_derive_Reals, derivable_pt_lim_power. lra.
  - intros t Ht. rewrite Rmin_left, Rmax_right in Ht by lra. apply derivable_continuous_pt. exists (y * Rpower t (y - 1)). apply derivable_pt_lim_power. lra.
  - rewrite Rmin_left, Rmax_right in Hm by lra. rewrite E. pose proof (power_in m (y - 1) ltac:(lra) ltac:(lra)) as P. rewrite power_pos in P by lra. split; [apply Rmult_le_pos; [apply Rmult_le_pos|]; lra|]. apply Rmult_le_compat_r; [lra|]. nra.
Qed.
Lemma power_lip a b y : 0 <= a <= 1 -> 0 <= b <= 1 -> 1 <= y -> Rabs (power_of a y - power_of b y) <= y * Rabs (a - b).
Proof.
  assert (Q : forall a b, 0 <= a -> a < b -> b <= 1 -> 1 <= y -> 0 <= power_of b y - power_of a y <= y * (b - a)).
  { clear a b. intros a b Ha Hab Hb Hy. destruct Ha as [Ha| <-]; [now apply power_lip_pos|]. assert (Z : power_of 0 y = 0) by (unfold power_of; destruct (Rle_dec 0 0); [reflexivity|lra]). rewrite Z, !Rminus_0_r. pose proof (power_in b y ltac:(lra) ltac:(lra)). pose proof (power_le_id b y ltac:(lra) Hy). nra. }
  intros Ha Hb Hy. destruct (Rtotal_order a b) as [L|[E|L]].
  - pose proof (Q a b (proj1 Ha) L (proj2 Hb) Hy). rewrite (Rabs_left1 (a - b)), Rabs_left1 by lra. lra.
  - subst. rewrite !Rminus_eq_0, Rabs_R0. lra.
  - pose proof (Q b a (proj1 Hb) L (proj2 Ha) Hy). rewrite (Rabs_right (a - b)), Rabs_right by lra. lra.
Qed.
(** ** The slopes are slopes *)
Lemma focal_derive y l : 0 < l -> derivable_pt_lim (focal_of y) l (focal_slope y l).
Proof.
  intros Hl. apply is_derive_Reals. assert (E1 : 0 < 1 - exp (- l)). { assert (exp (- l) < exp 0) by (apply exp_increasing; lra). rewrite exp_0 in H. lra. }
  apply (is_derive_ext_loc (fun t => Rpower (1 - exp (- t)) y * t)).
  - exists (mkposreal l Hl). intros t Ht. unfold focal_of. rewrite power_pos; [reflexivity|]. apply Rabs_lt_between' in Ht. cbn in Ht. assert (exp (- t) < exp 0) by (apply exp_increasing; lra). rewrite exp_0 in H. lra.
  - unfold focal_slope. rewrite !power_pos by exact E1.
    assert (D : is_derive (fun t => Rpower (1 - exp (- t)) y) l (exp (- l) * (y * Rpower (1 - exp (- l)) (y - 1)))).
    { apply (is_derive_comp (fun s => Rpower s y) (fun t => 1 - exp (- t))); [apply is_derive_Reals, derivable_pt_lim_power, E1|]. auto_derive; [exact I|ring]. }
    assert (D2 : is_derive (fun t => Rpower (1 - exp (- t)) y * t) l (exp (- l) * (y * Rpower (1 - exp (- l)) (y - 1)) * l + Rpower (1 - exp (- l)) y * 1)).
    { apply (is_derive_mult (fun t => Rpower (1 - exp (- t)) y) (fun t => t) l _ 1 D (is_derive_id l) Rmult_comm). }
    evar_last; [exact D2|]. ring.
Qed.
Lemma put_total i t l : (i < length l)%nat -> fold_right Rplus 0 (map exp (put i t l)) = fold_right Rplus 0 (map exp l) - exp (nth i l 0) + exp t.
Proof.
  revert i. induction l as [|v l IH]; intros i H; [cbn in H; lia|]. destruct i as [|i]; cbn [put map fold_right nth]; [ring|]. rewrite IH by (cbn in H; lia). ring.
Qed.
Lemma put_nth i t l c : (i < length l)%nat -> nth c (put i t l) 0 = if (i =? c)%nat then t else nth c l 0.
Proof.
  revert i c. induction l as [|v l IH]; intros i c H; [cbn in H; lia|]. destruct i as [|i]; destruct c as [|c]; cbn [put nth Nat.eqb]; try reflexivity. apply IH. cbn in H; lia.
Qed.
Lemma total_ge l i : (i < length l)%nat -> exp (nth i l 0) <= fold_right Rplus 0 (map exp l).
Proof.
  revert i. induction l as [|v l IH]; intros i H; [cbn in H; lia|]. pose proof (exp_pos v). assert (N : 0 <= fold_right Rplus 0 (map exp l)) by (clear; induction l as [|w l IH]; cbn [map fold_right]; [lra|pose proof (exp_pos w); lra]).
  destruct i as [|i]; cbn [map fold_right nth]; [lra|]. pose proof (IH i ltac:(cbn in H; lia)). lra.
Qed.
Lemma score_loss_eq l c : (c < length l)%nat -> score_loss l c = ln (fold_right Rplus 0 (map exp l)) - nth c l 0.
Proof.
  intros H. unfold score_loss. pose proof (total_ge l c H). pose proof (exp_pos (nth c l 0)). rewrite ln_div, ln_exp by lra. ring.
Qed.
Lemma put_length i t l : length (put i t l) = length l.
Proof. revert i. induction l as [|v l IH]; intros [|i]; cbn; auto. Qed.
Lemma score_derive l c i : (c < length l)%nat -> (i < length l)%nat ->
  derivable_pt_lim (fun t => score_loss (put i t l) c) (nth i l 0) (exp (nth i l 0) / fold_right Rplus 0 (map exp l) - (if (i =? c)%nat then 1 else 0)).
Proof.
  intros Hc Hi. apply is_derive_Reals. set (T := fold_right Rplus 0 (map exp l)). pose proof (total_ge l i Hi) as Ge. fold T in Ge. set (a := nth i l 0) in *. pose proof (exp_pos a) as Pa.
  apply (is_derive_ext (fun t => ln (T - exp a + exp t) - (if (i =? c)%nat then t else nth c l 0))).
  - intros t. rewrite score_loss_eq by (rewrite put_length; exact Hc). rewrite put_total, put_nth by exact Hi. reflexivity.
  - destruct (i =? c)%nat; auto_derive; try (repeat split; lra); field; lra.
Qed.
Lemma exp_total_eq d (l : list (val d)) : fold_right Rplus 0 (map (fun v => exp (real v)) l) = exp_total l.
Proof. induction l as [|v l IH]; [reflexivity|]. unfold exp_total in *. cbn [map fold_right]. now rewrite IH. Qed.
Lemma cross_entropy_scores d (l : list (val d)) c : cross_entropy_of l c = score_loss (map real l) c.
Proof.
  assert (E : nth c (map real l) 0 = real (nth c l fzero)) by (change 0 with (real (fzero : val d)); apply map_nth). unfold cross_entropy_of, score_loss, softmax_of. rewrite E, map_map, exp_total_eq. reflexivity.
Qed.
Lemma slope_scores d (l : list (val d)) c i : (c < length l)%nat -> (i < length l)%nat -> derivable_pt_lim (fun t => score_loss (put i t (map real l)) c) (real (nth i l fzero)) (cross_entropy_slope l c i).
Proof.
  intros Hc Hi. pose proof (score_derive (map real l) c i) as D. rewrite map_length in D. specialize (D Hc Hi). assert (E : nth i (map real l) 0 = real (nth i l fzero)) by (change 0 with (real (fzero : val d)); apply map_nth). rewrite E in D.
  unfold cross_entropy_slope, softmax_of. rewrite map_map, exp_total_eq in D. exact D.
Qed.

(** ** Roundings *)
Lemma fifty d : / 2 ^ 50 <= 8 * u d.
Proof. assert (E : 8 * / 2 ^ 53 = / 2 ^ 50) by (rewrite <- (Rinv_involutive 8), <- Rinv_mult_distr; [f_equal| |apply pow_nonzero|]; lra || (cbn; lra)). unfold u. destruct d; [|lra]. apply Rle_trans with (/ 2 ^ 24); [apply inv_le; lia|]. pose proof (inv_pos 24). lra. Qed.
Lemma tiny_u d : half_tiny d <= u d / 1000 /\ / 2 ^ 1074 <= u d / 1000.
Proof.
  assert (Q : forall a b, (a + 10 <= b)%nat -> / 2 ^ b <= / 2 ^ a / 1000). { intros a b H. unfold Rdiv. apply Rle_trans with (/ 2 ^ (a + 10)); [apply inv_le; lia|]. rewrite inv_split. apply Rmult_le_compat_l; [left; apply inv_pos|]. cbn. lra. }
  unfold half_tiny, u. destruct d; split; apply Q; lia.
Qed.
Lemma conv_error d (v : val F64) l h : finite v -> rep d l -> rep d h -> l <= real v <= h -> finite (conv F64 d v) /\ l <= real (conv F64 d v) <= h /\ Rabs (real (conv F64 d v) - real v) <= u d * Rabs (real v) + half_tiny d.
Proof. intros Fv Rl Rh B. destruct (conv_in F64 d v l h Fv Rl Rh B) as (A & C & E). split; [exact A|]. split; [exact C|]. rewrite E. apply round_error. Qed.
(** the exponential of a number below 0 *)
Lemma exp_below g d (t : val d) : go_math g -> finite t -> real t <= 0 -> finite (exp_elem g d t) /\ 0 <= real (exp_elem g d t) <= 1 /\ Rabs (real (exp_elem g d t) - exp (real t)) <= 10 * u d.
Proof.
  intros G Ft Bt. unfold exp_elem. destruct (conv_up d t Ft) as (Fu & Vu). rewrite <- Vu in *. set (y := conv d F64 t) in *. assert (Fe : finite (Exp g y)) by (apply (exp_finite g G); auto; lra).
  pose proof (exp_positive g G y Fu Fe) as P0. pose proof (exp_below_one g G y Fu Bt) as P1. pose proof (NumSpec.exp_value g G y Fu Fe) as E. destruct (conv_error d (Exp g y) 0 1 Fe (rep_0 d) (rep_1 d) ltac:(lra)) as (A & B & C). split; [exact A|]. split; [exact B|].
  assert (X : 0 < exp (real y) <= 1) by (split; [apply exp_pos|]; rewrite <- exp_0; destruct Bt as [L| ->]; [left; now apply exp_increasing|lra]). destruct (tiny_u d) as (T1 & T2). pose proof (fifty d) as T3. pose proof (u_pos d) as U. rewrite (Rabs_right (real (Exp g y))) in C by lra.
  assert (exp (real y) / 2 ^ 50 <= 8 * u d). { unfold Rdiv. apply Rle_trans with (1 * / 2 ^ 50); [apply Rmult_le_compat_r; [left; apply inv_pos|lra]|lra]. }
  assert (u d * real (Exp g y) <= u d * 1) by (apply Rmult_le_compat_l; lra). pose proof (Rabs_triang (real (conv F64 d (Exp g y)) - real (Exp g y)) (real (Exp g y) - exp (real y))) as T. replace (real (conv F64 d (Exp g y)) - real (Exp g y) + (real (Exp g y) - exp (real y))) with (real (conv F64 d (Exp g y)) - exp (real y)) in T by ring. lra.
Qed.
Lemma one_minus_near d (p : val d) q : finite p -> 0 <= real p <= 1 -> Rabs (real p - q) <= 10 * u d -> finite (one_minus d p) /\ 0 <= real (one_minus d p) <= 1 /\ Rabs (real (one_minus d p) - (1 - q)) <= 11 * u d.
Proof.
  intros Fp Bp E. destruct (one_minus_in d p Fp Bp) as (A & B). split; [exact A|]. split; [exact B|]. destruct (minus_eq d p Fp) as (Fm & Vm). destruct (unit_eq d) as (Fo & Vo). unfold one_minus in *. set (o := conv F64 d (conv d F64 (conv F64 d fone))) in *.
  destruct (@add_op d (minus d p) o 1 Fm Fo (rep_1 d)) as (_ & _ & C); [rewrite Vm, Vo; apply Rabs_le; lra|]. rewrite Vm, Vo in C. pose proof (u_pos d) as U. assert (Rabs (- real p + 1) <= 1) by (apply Rabs_le; lra). assert (u d * Rabs (- real p + 1) <= u d * 1) by (apply Rmult_le_compat_l; lra).
  pose proof (Rabs_triang (real (fadd (minus d p) o) - (- real p + 1)) (- (real p - q))) as T. rewrite Rabs_Ropp in T. replace (real (fadd (minus d p) o) - (- real p + 1) + - (real p - q)) with (real (fadd (minus d p) o) - (1 - q)) in T by ring. lra.
Qed.
(** a power of something near w *)
Lemma power_near g d (a : val d) (y : val F64) w : go_power g -> power_accurate g -> finite a -> 0 <= real a <= 1 -> 0 <= w <= 1 -> Rabs (real a - w) <= 11 * u d -> finite y -> 1 <= real y <= 2 ^ 20 ->
  let f := conv F64 d (Pow g (conv d F64 a) y) in finite f /\ 0 <= real f <= 1 /\ Rabs (real f - power_of w (real y)) <= 21 * real y * u d.
Proof.
  intros W P Fa Ba Bw E Fy By f. destruct (conv_up d a Fa) as (Fu & Vu). rewrite <- Vu in Ba, E. destruct (power_range g W _ y Fu Ba Fy ltac:(lra)) as (Fp & Bp). destruct (conv_error d _ 0 1 Fp (rep_0 d) (rep_1 d) Bp) as (A & B & C). fold f in A, B, C. split; [exact A|]. split; [exact B|].
  pose proof (P _ y Fu Ba Fy By) as P1. pose proof (power_lip _ w (real y) Ba Bw (proj1 By)) as P2. set (a' := real (conv d F64 a)) in *. set (v := real (Pow g (conv d F64 a) y)) in *. destruct (tiny_u d) as (T1 & _). pose proof (fifty d) as T3. pose proof (u_pos d) as U. rewrite (Rabs_right v) in C by lra.
  assert (X1 : u d * v <= u d * 1) by (apply Rmult_le_compat_l; lra). assert (X2 : real y / 2 ^ 50 <= real y * (8 * u d)) by (unfold Rdiv; apply Rmult_le_compat_l; lra). assert (X3 : real y * Rabs (a' - w) <= real y * (11 * u d)) by (apply Rmult_le_compat_l; lra). assert (X4 : u d * 1 <= u d * real y) by (apply Rmult_le_compat_l; lra).
  pose proof (Rabs_triang (real f - v) (v - power_of a' (real y))) as T. pose proof (Rabs_triang (real f - power_of a' (real y)) (power_of a' (real y) - power_of w (real y))) as T2. replace (real f - v + (v - power_of a' (real y))) with (real f - power_of a' (real y)) in T by ring. replace (real f - power_of a' (real y) + (power_of a' (real y) - power_of w (real y))) with (real f - power_of w (real y)) in T2 by ring.
  set (U1 := real y * u d) in *. replace (real y * (8 * u d)) with (8 * U1) in X2 by (unfold U1; ring). replace (real y * (11 * u d)) with (11 * U1) in X3 by (unfold U1; ring). replace (u d * real y) with U1 in X4 by (unfold U1; ring). replace (21 * real y * u d) with (21 * U1) by (unfold U1; ring). lra.
Qed.
(** one less than a parameter is exact *)
Lemma less_one (y : val F64) : finite y -> 2 <= real y <= 2 ^ 20 -> finite (fsub y fone) /\ real (fsub y fone) = real y - 1.
Proof.
  intros Fy By. destruct (one_eq F64) as (F1 & V1). assert (R : rep F64 (real y - 1)).
  { split; [|rewrite limit_eq, Rabs_right by lra; apply Rle_lt_trans with (2 ^ 20); [lra|]; apply Rlt_le_trans with (bpow radix2 100); [cbn; lra|apply bpow_le; cbn; lia]].
    rewrite nearest_eq. apply round_generic; [apply valid_rnd_round_mode|]. pose proof (generic_format_B2R (prec F64) (emax F64) y) as R. fold (real y) in R. apply FLT_format_generic in R; [|reflexivity]. destruct R as [[mm e] E1 E2 E3]. cbn [Fnum Fexp] in *. unfold F2R in E1. cbn [Fnum Fexp] in E1.
    apply generic_format_FLT. destruct (Z_le_gt_dec e 0) as [Le|Gt].
    - assert (P : IZR (2 ^ (- e)) * bpow radix2 e = 1). { change 2%Z with (radix_val radix2). rewrite IZR_Zpower by lia. rewrite <- bpow_plus. replace (- e + e)%Z with 0%Z by lia. reflexivity. }
      pose proof (bpow_gt_0 radix2 e) as Pb. assert (M : (2 ^ (- e) <= mm)%Z). { apply le_IZR, Rmult_le_reg_r with (bpow radix2 e); [exact Pb|]. rewrite P, <- E1. lra. }
      assert (P2 : (0 < 2 ^ (- e))%Z) by (apply Z.pow_pos_nonneg; lia). exists (Float radix2 (mm - 2 ^ (- e)) e); cbn [Fnum Fexp]; [unfold F2R; cbn [Fnum Fexp]; rewrite minus_IZR, Rmult_minus_distr_r, P, <- E1; reflexivity|lia|exact E3].
    - assert (P : IZR (2 ^ e) = bpow radix2 e) by (change 2%Z with (radix_val radix2); apply IZR_Zpower; lia). exists (Float radix2 (mm * 2 ^ e - 1) 0); cbn [Fnum Fexp]; [unfold F2R; cbn [Fnum Fexp]; rewrite minus_IZR, mult_IZR, P, <- E1; cbn; ring| |cbn; lia].
      assert (Q : IZR (mm * 2 ^ e) = real y) by (rewrite mult_IZR, P; symmetry; exact E1). assert ((2 <= mm * 2 ^ e <= 2 ^ 20)%Z). { split; apply le_IZR; rewrite Q; [lra|]. change (IZR (2 ^ 20)) with 1048576. lra. } cbn in H |- *. lia. }
  destruct (sub_in F64 y fone (real y - 1) (real y - 1) Fy F1 R R) as (A & B & _); [rewrite V1; lra|]. split; [exact A|lra].
Qed.

(** ** The focal loss *)
Section Loss.
Variable g : libm.
Hypothesis G : go_math g.
Hypothesis W : go_power g.
Hypothesis P : power_accurate g.
Variable d : dtype.
Variable c : cpu.
Variable sum : nat -> list (val d) -> val d.
Variable vexp : list (val d) -> list (val d).
Hypothesis Hsum : forall k l, sum_of (floats d) (sum k l) l.
Hypothesis Hexp : forall l, exps g d c l (vexp l).
Variable x : list (val d).
Hypothesis F : Forall finite x.
Variable k : nat.
Hypothesis K : (k < length x)%nat.
Notation n := (INR (length x)).
Hypothesis Hn : n * u d <= / 8.
Notation ce := (cross_entropy g d sum vexp x k).
Hypothesis Fc : finite ce.
Notation p := (focal_p g d sum vexp x k).
Notation w := (1 - exp (- real ce)).
Lemma ce_pos : 0 <= real ce.
Proof. destruct (ce_sign g G d c sum vexp Hsum Hexp x F k K Hn) as [E|(_ & Pc)]; [exfalso; rewrite E in Fc; discriminate|exact Pc]. Qed.
Lemma p_near : finite p /\ 0 <= real p <= 1 /\ Rabs (real p - exp (- real ce)) <= 10 * u d.
Proof.
  pose proof ce_pos as Pc. unfold focal_p, neg_op. rewrite conv_neg. assert (Fn : finite (fneg ce)) by (now apply neg_finite). rewrite <- neg_eq. apply exp_below; [exact G|exact Fn|]. rewrite neg_eq. lra.
Qed.
Lemma w_in : 0 <= w <= 1.
Proof. pose proof ce_pos as Pc. pose proof (exp_pos (- real ce)). assert (exp (- real ce) <= 1) by (rewrite <- exp_0; destruct Pc as [L|E]; [left; apply exp_increasing; lra|rewrite <- E, Ropp_0; lra]). lra. Qed.
Lemma factor_near gamma : finite gamma -> 1 <= real gamma <= 2 ^ 20 -> let f := focal_factor g d sum vexp x k gamma in finite f /\ 0 <= real f <= 1 /\ Rabs (real f - power_of w (real gamma)) <= 21 * real gamma * u d.
Proof.
  intros Fg Bg. destruct p_near as (Fp & Bp & Ep). destruct (one_minus_near d p _ Fp Bp Ep) as (Fo & Bo & Eo). exact (power_near g d (one_minus d p) gamma w W P Fo Bo w_in Eo Fg Bg).
Qed.
Lemma focal_value gamma : finite gamma -> 1 <= real gamma <= 2 ^ 20 -> let v := focal g d sum vexp x k gamma in
  Rabs (real v - focal_of (real gamma) (real ce)) <= 22 * real gamma * u d * real ce + half_tiny d.
Proof.
  intros Fg Bg v. destruct (factor_near gamma Fg Bg) as (Ff & Bf & Ef). pose proof ce_pos as Pc. unfold v, focal. set (f := focal_factor g d sum vexp x k gamma) in *. pose proof (u_pos d) as U.
  assert (M : Rabs (real f * real ce) <= real ce). { rewrite Rabs_right by (apply Rle_ge, Rmult_le_pos; lra). rewrite <- (Rmult_1_l (real ce)) at 2. apply Rmult_le_compat_r; lra. }
  destruct (@mul_op d f ce (real ce) Ff Fc (rep_real d _ Fc) M) as (_ & _ & E). unfold near_to in E. unfold focal_of. set (Q := power_of w (real gamma)) in *.
  assert (X : Rabs ((real f - Q) * real ce) <= 21 * real gamma * u d * real ce) by (rewrite Rabs_mult, (Rabs_right (real ce)) by lra; apply Rmult_le_compat_r; lra). assert (Y : u d * Rabs (real f * real ce) <= u d * real ce) by (apply Rmult_le_compat_l; lra).
  assert (Z : u d * real ce <= real gamma * u d * real ce) by (apply Rmult_le_compat_r; [lra|]; rewrite <- (Rmult_1_l (u d)) at 1; apply Rmult_le_compat_r; lra).
  pose proof (Rabs_triang (real (fmul f ce) - real f * real ce) ((real f - Q) * real ce)) as T. replace (real (fmul f ce) - real f * real ce + (real f - Q) * real ce) with (real (fmul f ce) - Q * real ce) in T by ring.
  replace (21 * real gamma * u d * real ce) with (21 * (real gamma * u d * real ce)) in X by ring. replace (22 * real gamma * u d * real ce) with (22 * (real gamma * u d * real ce)) by ring. lra.
Qed.
End Loss.
(** the errors of the factor of the gradient, in the order of the code *)
Lemma factor_error U h y F0 Q0 f q gd c gy t1 t2 gs t3 t4 r p p0 :
  0 < U <= / 1000 -> 0 < h <= U / 1000 -> 2 <= y -> 0 <= F0 <= 1 -> 0 <= Q0 <= 1 -> 0 <= f <= 1 -> 0 <= q <= 1 -> 0 <= p <= 1 -> 0 <= p0 <= 1 -> 0 <= c ->
  Rabs (f - F0) <= 21 * y * U -> Rabs (q - Q0) <= 21 * y * U -> Rabs (gd - y) <= U * y + h -> Rabs (p - p0) <= 10 * U ->
  Rabs (t1 - q * gd) <= U * Rabs (q * gd) + h -> Rabs (t2 - c * gy) <= U * Rabs (c * gy) + h -> Rabs (gs - t1 * t2) <= U * Rabs (t1 * t2) + h ->
  Rabs (t3 - p * gs) <= U * Rabs (p * gs) + h -> Rabs (t4 - f * gy) <= U * Rabs (f * gy) + h -> Rabs (r - (t4 + t3)) <= U * Rabs (t4 + t3) ->
  Rabs (r - gy * (F0 + y * Q0 * p0 * c)) <= 50 * y * y * U * (1 + c) * Rabs gy + 12 * y * h.
Proof.
  intros HU Hh Hy HF HQ Hf Hq Hp Hp0 Hc Ef Eq Egd Ep E1 E2 E3 E4 E5 E6.
  set (Y := Rabs gy). set (Z := c * Y). assert (PY : 0 <= Y) by apply Rabs_pos. assert (PZ : 0 <= Z) by (apply Rmult_le_pos; assumption). assert (Ec : Rabs (c * gy) = Z) by (unfold Z, Y; rewrite Rabs_mult, (Rabs_right c) by lra; reflexivity). rewrite Ec in E2.
  assert (Yu : 2 * U <= y * U) by (apply Rmult_le_compat_r; lra). assert (Yu2 : y * U <= y / 1000) by (unfold Rdiv; apply Rmult_le_compat_l; lra). assert (YYu : 2 * (y * U) <= y * (y * U)) by (apply Rmult_le_compat_r; [apply Rmult_le_pos|]; lra).
  assert (Bgd : 0 <= gd <= 1.01 * y) by (apply Rabs_le_inv in Egd; lra). assert (Bq : 0 <= q * gd <= 1.01 * y) by (split; [apply Rmult_le_pos; lra|]; apply Rle_trans with (1 * (1.01 * y)); [apply Rmult_le_compat; lra|lra]).
  rewrite (Rabs_right (q * gd)) in E1 by lra. assert (U1 : U * (q * gd) <= U * (1.01 * y)) by (apply Rmult_le_compat_l; lra).
  assert (B1 : Rabs t1 <= 1.02 * y) by (apply Rabs_le; apply Rabs_le_inv in E1; lra).
  assert (D1 : Rabs (t1 - Q0 * y) <= 23 * (y * (y * U))).
  { assert (A1 : Rabs (q * (gd - y)) <= U * y + h) by (rewrite Rabs_mult, (Rabs_right q) by lra; pose proof (Rabs_pos (gd - y)); apply Rle_trans with (1 * Rabs (gd - y)); [apply Rmult_le_compat_r; lra|lra]).
    assert (A2 : Rabs ((q - Q0) * y) <= 21 * y * U * y) by (rewrite Rabs_mult, (Rabs_right y) by lra; apply Rmult_le_compat_r; lra).
    pose proof (Rabs_triang (t1 - q * gd) (q * (gd - y))) as T. pose proof (Rabs_triang (t1 - q * gd + q * (gd - y)) ((q - Q0) * y)) as T2. replace (t1 - q * gd + q * (gd - y) + (q - Q0) * y) with (t1 - Q0 * y) in T2 by ring. replace (21 * y * U * y) with (21 * (y * (y * U))) in A2 by ring. lra. }
  assert (B2 : Rabs t2 <= 1.001 * Z + h) by (pose proof (Rabs_triang (t2 - c * gy) (c * gy)) as T; replace (t2 - c * gy + c * gy) with t2 in T by ring; rewrite Ec in T; assert (U * Z <= / 1000 * Z) by (apply Rmult_le_compat_r; lra); lra).
  assert (B12 : Rabs (t1 * t2) <= 1.03 * (y * Z) + 1.02 * (y * h)). { rewrite Rabs_mult. apply Rle_trans with ((1.02 * y) * (1.001 * Z + h)); [apply Rmult_le_compat; auto; apply Rabs_pos|]. assert (0 <= y * Z) by (apply Rmult_le_pos; lra). replace (1.02 * y * (1.001 * Z + h)) with (1.02102 * (y * Z) + 1.02 * (y * h)) by lra. lra. }
  assert (PyZ : 0 <= y * Z) by (apply Rmult_le_pos; lra). assert (Pyh : 2 * h <= y * h) by (apply Rmult_le_compat_r; lra). set (YZ := y * Z) in *. set (Yh := y * h) in *.
  assert (U12 : U * Rabs (t1 * t2) <= U * (1.03 * YZ + 1.02 * Yh)) by (apply Rmult_le_compat_l; lra). assert (UYh : U * Yh <= / 1000 * Yh) by (apply Rmult_le_compat_r; lra). assert (UYZ : U * YZ <= / 1000 * YZ) by (apply Rmult_le_compat_r; lra).
  assert (Bgs : Rabs gs <= 1.04 * YZ + 1.6 * Yh). { pose proof (Rabs_triang (gs - t1 * t2) (t1 * t2)) as T. replace (gs - t1 * t2 + t1 * t2) with gs in T by ring. lra. }
  assert (PUYZ : 0 <= U * YZ) by (apply Rmult_le_pos; lra). set (V := y * (y * U) * Z). assert (VU : 2 * (U * YZ) <= V). { unfold V, YZ. replace (U * (y * Z)) with (y * U * Z) by ring. apply Rle_trans with (2 * (y * U) * Z); [lra|]. apply Rmult_le_compat_r; lra. }
  assert (Dgs : Rabs (gs - Q0 * y * (c * gy)) <= 25 * V + 2 * Yh).
  { assert (A1 : Rabs (t1 * (t2 - c * gy)) <= 1.02 * y * (U * Z + h)) by (rewrite Rabs_mult; apply Rmult_le_compat; auto; apply Rabs_pos). assert (A2 : Rabs ((t1 - Q0 * y) * (c * gy)) <= 23 * (y * (y * U)) * Z) by (rewrite Rabs_mult, Ec; apply Rmult_le_compat_r; lra).
    pose proof (Rabs_triang (gs - t1 * t2) (t1 * (t2 - c * gy))) as T. pose proof (Rabs_triang (gs - t1 * t2 + t1 * (t2 - c * gy)) ((t1 - Q0 * y) * (c * gy))) as T2. replace (gs - t1 * t2 + t1 * (t2 - c * gy) + (t1 - Q0 * y) * (c * gy)) with (gs - Q0 * y * (c * gy)) in T2 by ring.
    replace (1.02 * y * (U * Z + h)) with (1.02 * (U * YZ) + 1.02 * Yh) in A1 by (unfold YZ, Yh; lra). replace (23 * (y * (y * U)) * Z) with (23 * V) in A2 by (unfold V; ring). replace (U * (1.03 * YZ + 1.02 * Yh)) with (1.03 * (U * YZ) + 1.02 * (U * Yh)) in U12 by lra. lra. }
  assert (Pgs : 0 <= Rabs gs) by apply Rabs_pos. assert (Bp : Rabs (p * gs) <= Rabs gs) by (rewrite Rabs_mult, (Rabs_right p) by lra; rewrite <- (Rmult_1_l (Rabs gs)) at 2; apply Rmult_le_compat_r; lra).
  assert (UP : U * Rabs (p * gs) <= U * (1.04 * YZ + 1.6 * Yh)) by (apply Rmult_le_compat_l; lra).
  assert (D3 : Rabs (t3 - p0 * (Q0 * y * (c * gy))) <= 33 * V + 3 * Yh).
  { assert (A1 : Rabs ((p - p0) * gs) <= 10 * U * (1.04 * YZ + 1.6 * Yh)) by (rewrite Rabs_mult; apply Rmult_le_compat; auto; apply Rabs_pos). assert (A2 : Rabs (p0 * (gs - Q0 * y * (c * gy))) <= 25 * V + 2 * Yh) by (rewrite Rabs_mult, (Rabs_right p0) by lra; pose proof (Rabs_pos (gs - Q0 * y * (c * gy))); apply Rle_trans with (1 * Rabs (gs - Q0 * y * (c * gy))); [apply Rmult_le_compat_r; lra|lra]).
    pose proof (Rabs_triang (t3 - p * gs) ((p - p0) * gs)) as T. pose proof (Rabs_triang (t3 - p * gs + (p - p0) * gs) (p0 * (gs - Q0 * y * (c * gy)))) as T2. replace (t3 - p * gs + (p - p0) * gs + p0 * (gs - Q0 * y * (c * gy))) with (t3 - p0 * (Q0 * y * (c * gy))) in T2 by ring.
    replace (10 * U * (1.04 * YZ + 1.6 * Yh)) with (10.4 * (U * YZ) + 16 * (U * Yh)) in A1 by lra. replace (U * (1.04 * YZ + 1.6 * Yh)) with (1.04 * (U * YZ) + 1.6 * (U * Yh)) in UP by lra. lra. }
  assert (B3 : Rabs t3 <= 1.05 * YZ + 3 * Yh). { pose proof (Rabs_triang (t3 - p * gs) (p * gs)) as T. replace (t3 - p * gs + p * gs) with t3 in T by ring. replace (U * (1.04 * YZ + 1.6 * Yh)) with (1.04 * (U * YZ) + 1.6 * (U * Yh)) in UP by lra. lra. }
  assert (Bf : Rabs (f * gy) <= Y) by (unfold Y; rewrite Rabs_mult, (Rabs_right f) by lra; rewrite <- (Rmult_1_l (Rabs gy)) at 2; apply Rmult_le_compat_r; [exact PY|lra]). assert (UF : U * Rabs (f * gy) <= U * Y) by (apply Rmult_le_compat_l; lra). assert (UY : U * Y <= / 1000 * Y) by (apply Rmult_le_compat_r; lra).
  assert (PUY : 0 <= U * Y) by (apply Rmult_le_pos; lra). set (V4 := y * (y * U) * Y). assert (VY : 4 * (U * Y) <= V4). { unfold V4. apply Rle_trans with (4 * U * Y); [lra|]. apply Rmult_le_compat_r; lra. }
  assert (VY2 : 2 * (y * U * Y) <= V4). { unfold V4. apply Rle_trans with (2 * (y * U) * Y); [lra|]. apply Rmult_le_compat_r; lra. }
  assert (D4 : Rabs (t4 - F0 * gy) <= 11 * V4 + h). { assert (A1 : Rabs ((f - F0) * gy) <= 21 * y * U * Y) by (rewrite Rabs_mult; apply Rmult_le_compat_r; auto). pose proof (Rabs_triang (t4 - f * gy) ((f - F0) * gy)) as T. replace (t4 - f * gy + (f - F0) * gy) with (t4 - F0 * gy) in T by ring. replace (21 * y * U * Y) with (21 * (y * U * Y)) in A1 by ring. lra. }
  assert (B4 : Rabs t4 <= 1.001 * Y + h). { pose proof (Rabs_triang (t4 - f * gy) (f * gy)) as T. replace (t4 - f * gy + f * gy) with t4 in T by ring. lra. }
  assert (U6 : U * Rabs (t4 + t3) <= U * (1.001 * Y + h + (1.05 * YZ + 3 * Yh))) by (apply Rmult_le_compat_l; [lra|]; eapply Rle_trans; [apply Rabs_triang|]; lra). assert (Uh : U * h <= / 1000 * h) by (apply Rmult_le_compat_r; lra).
  pose proof (Rabs_triang (r - (t4 + t3)) (t4 - F0 * gy)) as T. pose proof (Rabs_triang (r - (t4 + t3) + (t4 - F0 * gy)) (t3 - p0 * (Q0 * y * (c * gy)))) as T2. replace (r - (t4 + t3) + (t4 - F0 * gy) + (t3 - p0 * (Q0 * y * (c * gy)))) with (r - gy * (F0 + y * Q0 * p0 * c)) in T2 by ring.
  replace (U * (1.001 * Y + h + (1.05 * YZ + 3 * Yh))) with (1.001 * (U * Y) + U * h + 1.05 * (U * YZ) + 3 * (U * Yh)) in U6 by lra. replace (50 * y * y * U * (1 + c) * Y + 12 * y * h) with (50 * V4 + 50 * V + 12 * Yh) by (unfold V4, V, Z, Yh; ring). assert (0 <= V4) by lra. assert (0 <= U * YZ) by (apply Rmult_le_pos; lra). assert (0 <= V) by lra. lra.
Qed.
