(** * Further losses in floating point *)
From Coq Require Import ZArith Bool Lia List Arith Reals Lra Psatz Permutation.
From Flocq Require Import Core BinarySingleNaN Relative Plus_error.
From Verif Require Import DenseModel ArithModel AsmModel AsmCode AsmCalls AsmSpec AsmWords AsmWordsSpec AsmExp FloatModel FloatSpec FloatProofs NumModel NumSpec NumLemmas NumProofs NumProofs2 NumProofs4 NumMath AsmFloatSpec AsmFloat AsmFloat2 SoftModel SoftSpec SoftProofs SoftFloat SoftFloat2 SoftFloat5 OptFloatNum NormFloatModel NormFloatNum NormFloatBack NormFloatBack5 LossFloatModel LossFloatSpec LossFloatProofs LossFloatProofs2 LossFloatProofs3 LossFloatProofs4 LossFloatProofs5.
Import ListNotations.
Local Open Scope list_scope.
Local Open Scope R_scope.

(** ** The exponentials of a vector *)
Lemma vector_exp_from_eq g c n l : forall i, length (vector_exp_from g c i n l) = length l /\ forall j t e, nth_error l j = Some t -> nth_error (vector_exp_from g c i n l) j = Some e ->
  exists w, decode w = t /\ e = decode (if (i + j <? whole (width c) n)%nat then lane_function (ExpKernel32 c) w else scalar (Exp g) w).
Proof.
  induction l as [|v l IH]; intros i; [split; [reflexivity|intros [|j]; discriminate]|]. destruct (IH (S i)) as (L & H). cbn [vector_exp_from length]. split; [now rewrite L|]. intros [|j] t e Et Ee; cbn [nth_error] in Et, Ee.
  - injection Et as <-. injection Ee as <-. exists (encode v). split; [apply decode_encode|]. rewrite Nat.add_0_r. reflexivity.
  - replace (i + S j)%nat with (S i + j)%nat by lia. exact (H j t e Et Ee).
Qed.
Lemma vector_exp_ok g d c (l : list (val d)) : exps g d c l (vector_exp g d c l).
Proof.
  destruct d.
  - destruct (vector_exp_from_eq g c (length l) l 0) as (L & H). split; [exact L|]. intros i t e Et Ee. exact (H i t e Et Ee).
  - split; [apply map_length|]. intros i t e Et Ee. cbn [vector_exp] in Ee. rewrite nth_error_map, Et in Ee. cbn in Ee. cbn [SoftProofs.exp_value]. congruence.
Qed.

(** ** Single operations *)
Lemma conv_ge_1 S D (x : val S) : finite x -> 1 <= real x -> conv S D x = NumSpec.infinity \/ finite (conv S D x) /\ 1 <= real (conv S D x).
Proof.
  intros Fx P. destruct x as [s|s| |s m e H]; try discriminate; [unfold real in P; cbn in P; lra|]. pose proof (conv_finite S D s m e H) as C. cbv zeta in C.
  pose proof (nearest_le D 1 _ P) as L. rewrite (proj1 (rep_1 D)) in L. unfold real in L. destruct (Rlt_bool _ _).
  - destruct C as (Fc & V & _). right. split; [exact Fc|]. unfold real. rewrite V. exact L.
  - left. rewrite C. destruct s; [|reflexivity]. exfalso. unfold real in P. cbn in P. pose proof (F2R_lt_0 radix2 (Float radix2 (Z.neg m) e) eq_refl) as Q. lra.
Qed.
Lemma exp_ge_1 m d (x : val d) : go_math m -> finite x -> 0 <= real x -> exp_elem m d x = NumSpec.infinity \/ finite (exp_elem m d x) /\ 1 <= real (exp_elem m d x).
Proof.
  intros G Fx Px. unfold exp_elem. destruct (conv_up d x Fx) as (Fu & Vu). destruct (exp_either m G (conv d F64 x) Fu) as [Fe|Ee].
  - pose proof (exp_above_one m G (conv d F64 x) Fu Fe ltac:(lra)) as P1. apply conv_ge_1; assumption.
  - left. rewrite Ee. destruct d; reflexivity.
Qed.
Lemma one_inj d (v : val d) : finite v -> real v = 1 -> v = fone.
Proof. intros Fv V. destruct (one_eq d) as (F1 & V1). apply B2R_Bsign_inj; [exact Fv|exact F1|unfold real in *; congruence|].
  assert (P : forall w : val d, finite w -> real w = 1 -> Bsign w = false). { intros w Fw Vw. destruct (Bsign w) eqn:E; [|reflexivity]. pose proof (sign_nonpos d w Fw E). lra. }
  rewrite !P; auto. Qed.
Lemma one_minus_one d : one_minus d fone = B754_zero false.
Proof. destruct d; vm_compute; reflexivity. Qed.
Lemma unit_eq d : let o := conv F64 d (conv d F64 (conv F64 d fone)) : val d in finite o /\ real o = 1.
Proof. destruct d; (split; [reflexivity|]); unfold real; vm_compute; lra. Qed.
Lemma one_minus_in d (p : val d) : finite p -> 0 <= real p <= 1 -> finite (one_minus d p) /\ 0 <= real (one_minus d p) <= 1.
Proof.
  intros Fp Bp. destruct (minus_eq d p Fp) as (Fm & Vm). destruct (unit_eq d) as (Fo & Vo). unfold one_minus. set (o := conv F64 d (conv d F64 (conv F64 d fone))) in *.
  destruct (add_in d (minus d p) o 0 1 Fm Fo (rep_0 d) (rep_1 d)) as (A & B & _); [rewrite Vm, Vo; lra|]. auto.
Qed.
Lemma diff_zero d (a b : val d) : nearest d (real a - real b) = 0 -> real a = real b.
Proof.
  intros Z. destruct (Req_dec (real a + - real b) 0) as [E|E]; [lra|]. exfalso. rewrite nearest_eq in Z.
  pose proof (fexp_correct (prec d) (emax d) (prec_pos d)) as Vd. assert (Fz : Exp_not_FTZ (SpecFloat.fexp (prec d) (emax d))) by (change (SpecFloat.fexp (prec d) (emax d)) with (FLT_exp (SpecFloat.emin (prec d) (emax d)) (prec d)); apply monotone_exp_not_FTZ; [exact Vd|apply FLT_exp_monotone]).
  exact (round_plus_neq_0 radix2 (SpecFloat.fexp (prec d) (emax d)) (round_mode mode_NE) (real a) (- real b) (generic_format_B2R _ _ _) (generic_format_opp _ _ _ (generic_format_B2R _ _ _)) E Z).
Qed.
Lemma sub_sign d (a b : val d) : finite a -> finite b -> 0 <= real a -> real a < real b -> finite (fsub a b) /\ real (fsub a b) < 0.
Proof.
  intros Fa Fb P L. destruct (sub_op a b (real b) Fa Fb (rep_real d b Fb) ltac:(apply Rabs_le; lra)) as (Fs & _ & _ & V). split; [exact Fs|]. rewrite V.
  assert (L0 : nearest d (real a - real b) <= 0) by (rewrite <- (nearest_0 d); apply nearest_le; lra). destruct L0 as [L0|L0]; [exact L0|]. apply diff_zero in L0. lra.
Qed.
Lemma mul_nan d (a b : val d) : a = B754_nan \/ b = B754_nan -> fmul a b = B754_nan.
Proof. intros [-> | ->]; [reflexivity|]. destruct a; reflexivity. Qed.
(** an infinity or NaN, times a zero or NaN *)
Lemma mul_undefined d (a b : val d) : is_finite a = false -> (finite b -> real b = 0) -> (finite b \/ b = B754_nan) -> fmul a b = B754_nan.
Proof.
  intros Na Zb Cb. destruct a as [s|s| |s m e H]; try discriminate; [|apply mul_nan; now left]. destruct Cb as [Fb| ->]; [|reflexivity].
  specialize (Zb Fb). destruct b as [s'|s'| |s' m' e' H']; try discriminate; [reflexivity|]. exfalso. unfold real in Zb. cbn in Zb. apply eq_0_F2R in Zb. destruct s'; discriminate.
Qed.

Section Loss.
Variable g : libm.
Hypothesis G : go_math g.
Variable d : dtype.
Variable c : cpu.
Variable sum : nat -> list (val d) -> val d.
Variable vexp : list (val d) -> list (val d).
Hypothesis Hsum : forall k l, sum_of (floats d) (sum k l) l.
Hypothesis Hexp : forall l, exps g d c l (vexp l).
Variable x : list (val d).
Hypothesis F : Forall finite x.
Variable k : nat.
Hypothesis K : (k < length x)%nat.
Notation n := (INR (length x)).
Hypothesis Hn : n * u d <= / 8.
Notation mx := (top d x).
Notation ce := (cross_entropy g d sum vexp x k).
Lemma perplexity_sign : perplexity g d sum vexp x k = NumSpec.infinity \/ finite (perplexity g d sum vexp x k) /\ 1 <= real (perplexity g d sum vexp x k).
Proof.
  unfold perplexity. destruct (ce_sign g G d c sum vexp Hsum Hexp x F k K Hn) as [E|(Fc & Pc)]; [|now apply exp_ge_1]. left. rewrite E. unfold exp_elem. change (conv d F64 NumSpec.infinity) with (NumSpec.infinity : val F64). rewrite (exp_infinity g G). reflexivity.
Qed.
Lemma weighted_sign w : finite ce -> finite (nth k w fzero) -> 0 <= real (nth k w fzero) <= 1 -> let v := weighted g d sum vexp w x k in finite v /\ 0 <= real v <= real ce.
Proof.
  intros Fc Fw Bw v. destruct (ce_sign g G d c sum vexp Hsum Hexp x F k K Hn) as [E|(_ & Pc)]; [exfalso; rewrite E in Fc; discriminate|]. unfold v, weighted. rewrite (FloatProofs.conv_back d F64) by (destruct d; exact I).
  destruct (mul_in d ce (nth k w fzero) 0 (real ce) Fc Fw (rep_0 d) (rep_real d _ Fc)) as (A & B & _); [|auto]. split; [apply Rmult_le_pos; lra|]. rewrite <- (Rmult_1_r (real ce)) at 2. apply Rmult_le_compat_l; lra.
Qed.
Lemma focal_p_in : finite ce -> finite (focal_p g d sum vexp x k) /\ 0 <= real (focal_p g d sum vexp x k) <= 1.
Proof.
  intros Fc. destruct (ce_sign g G d c sum vexp Hsum Hexp x F k K Hn) as [E|(_ & Pc)]; [exfalso; rewrite E in Fc; discriminate|]. unfold focal_p, neg_op. rewrite conv_neg.
  assert (Fn : finite (fneg ce)) by (now apply neg_finite). apply (exp_elem_le g G d); [now apply finite_number| |now right]. intros _. rewrite neg_eq. lra.
Qed.
Lemma focal_sign gamma : go_power g -> finite ce -> finite gamma -> 0 <= real gamma -> let v := focal g d sum vexp x k gamma in finite v /\ 0 <= real v <= real ce.
Proof.
  intros W Fc Fg Pg v. destruct (focal_p_in Fc) as (Fp & Bp). destruct (ce_sign g G d c sum vexp Hsum Hexp x F k K Hn) as [E|(_ & Pc)]; [exfalso; rewrite E in Fc; discriminate|].
  destruct (one_minus_in d _ Fp Bp) as (Fo & Bo). destruct (conv_up d _ Fo) as (Fu & Vu). rewrite <- Vu in Bo. destruct (power_range g W _ gamma Fu Bo Fg Pg) as (Fw & Bw).
  destruct (conv_in F64 d _ 0 1 Fw (rep_0 d) (rep_1 d) Bw) as (Ff & Bf & _). fold (focal_factor g d sum vexp x k gamma) in Ff, Bf. unfold v, focal.
  destruct (mul_in d (focal_factor g d sum vexp x k gamma) ce 0 (real ce) Ff Fc (rep_0 d) (rep_real d _ Fc)) as (A & B & _); [|auto]. split; [apply Rmult_le_pos; lra|]. rewrite <- (Rmult_1_l (real ce)) at 2. apply Rmult_le_compat_r; lra.
Qed.
Lemma focal_ce_nan gamma gy : go_power g -> finite ce -> real ce = 0 -> finite gamma -> 0 <= real gamma < 1 -> focal_ce_grad g d sum vexp x k gamma gy = B754_nan.
Proof.
  intros W Fc Zc Fg Bg. assert (Ep : focal_p g d sum vexp x k = fone).
  { destruct (focal_p_in Fc) as (Fp & _). apply one_inj; [exact Fp|]. unfold focal_p, neg_op. rewrite conv_neg. apply (exp_elem_zero g G d); [now apply neg_finite|rewrite neg_eq; lra]. }
  unfold focal_ce_grad. rewrite Ep, one_minus_one. change (conv d F64 (B754_zero false)) with (B754_zero false : val F64). destruct (one_eq F64) as (F1 & V1). destruct (sub_sign F64 gamma fone Fg F1 ltac:(lra) ltac:(lra)) as (Fs & Ns). rewrite (power_zero g W _ Fs Ns).
  change (conv F64 d NumSpec.infinity) with (NumSpec.infinity : val d). destruct (conv_in F64 d gamma 0 1 Fg (rep_0 d) (rep_1 d) ltac:(lra)) as (Fv & _).
  assert (Q : fmul (fmul NumSpec.infinity (conv F64 d gamma)) (fmul ce gy) = B754_nan).
  { assert (Cz : exists s, ce = B754_zero s). { revert Fc Zc. generalize ce. intros [s|s| |s m e H] Fc Zc; try discriminate; [now exists s|]. exfalso. unfold real in Zc. cbn in Zc. apply eq_0_F2R in Zc. destruct s; discriminate. }
    destruct Cz as (s & ->). apply mul_undefined.
    - revert Fv. generalize (conv F64 d gamma : val d). intros [s'|s'| |s' m' e' H'] Fv; try discriminate; reflexivity.
    - destruct gy; try discriminate; reflexivity.
    - destruct gy; cbn; auto. }
  rewrite Q. unfold minus, neg_back. rewrite (mul_nan d B754_nan) by (now left). rewrite (mul_nan d fone) by (now right). rewrite (mul_nan d (conv F64 d (fneg fone))) by (now right). apply add_nan. now right.
Qed.
Lemma back_nan first : exists gx, cross_entropy_back d sum vexp first x k B754_nan = Some gx /\ length gx = length x /\ forall i, (i < length x)%nat -> nth i gx fzero = B754_nan.
Proof.
  pose proof (not_empty d x k K) as N. destruct (sums g G d c sum vexp Hsum Hexp x F N Hn 0) as (Fs & Bs & _). fold (partition d sum vexp x) in Fs, Bs. destruct (inverse_rel d _ Fs Bs) as (r0 & Er & _). unfold cross_entropy_back. rewrite Er.
  rewrite (mul_nan d (conv F64 d r0)) by (now right). change (reduce_sum_back d B754_nan) with (B754_nan : val d). destruct (powers_near g G d c vexp Hexp x F N) as (Le & _). set (qs := map (fun e => fmul e B754_nan) (powers d vexp x)).
  assert (Lq : length qs = length x) by (unfold qs; rewrite map_length; exact Le).
  assert (Q : forall i, (i < length x)%nat -> nth i qs fzero = B754_nan). { intros i Hi. unfold qs. rewrite (nth_indep _ fzero (fmul fzero B754_nan)) by (rewrite map_length, Le; exact Hi). rewrite (map_nth (fun e => fmul e B754_nan)). apply mul_nan. now right. }
  set (gm := fadd B754_nan (sub_scalar_back2 d sum 1 qs)). eexists. split; [reflexivity|].
  assert (L1 : length (zip fadd (spot d (length x) k (neg_back d B754_nan)) qs) = length x) by (rewrite zip_length; rewrite spot_length; auto).
  assert (L2 : length (zip fadd qs (spot d (length x) (arg d x) gm)) = length x) by (rewrite zip_length; [exact Lq|rewrite spot_length; exact Lq]).
  split; [destruct first; (rewrite zip_length; [assumption|rewrite spot_length; assumption])|]. intros i Hi. destruct first; rewrite !nth_zip, !nth_spot by (rewrite ?L1, ?L2, ?spot_length, ?Lq; exact Hi); rewrite Q by exact Hi.
  - apply add_nan. left. rewrite add_nan; [reflexivity|now right].
  - apply add_nan. left. reflexivity.
Qed.
(** ** Two classes, with a score at which the logarithm is lost *)
Lemma absorb : length x = 2%nat -> real mx = cap d -> real (lse g d sum vexp x) = cap d.
Proof.
  intros L2 Em. pose proof (not_empty d x k K) as N. destruct (lse_ok g G d c sum vexp Hsum Hexp x F k K Hn) as (Fs & Bs & FL & BL & EL & Fl & Ml). destruct (arg_ok d x F N) as (_ & Fm & _ & M).
  destruct (sum_near_exact g G d c sum vexp Hsum Hexp x F N Hn 0) as (En & _). change (sum 0%nat (powers d vexp x)) with (partition d sum vexp x) in En. set (s := partition d sum vexp x) in *. unfold sum_rel in En.
  assert (X2 : exact mx x <= 2). { destruct x as [|a [|b [|]]]; try discriminate L2. unfold exact. cbn [map fold_right]. pose proof (exp_le_1 (real a - real (top d [a; b])) ltac:(specialize (M a (or_introl eq_refl)); lra)). pose proof (exp_le_1 (real b - real (top d [a; b])) ltac:(specialize (M b (or_intror (or_introl eq_refl))); lra)). lra. }
  pose proof (exact_ge d x F N) as X1. destruct (eta_tau d) as (Eh & _). pose proof (u_small d) as (U1 & U2). assert (Us : / 2 ^ 24 <= / 1000) by (apply inv_small; lia). rewrite L2 in En. cbn [INR] in En.
  assert (Sb : real s <= 2.1). { apply Rabs_le_inv in En. assert ((9 / 7 * eta d + 8 / 7 * ((1 + 1) * u d)) * exact mx x <= 0.01 * 2) by (apply Rmult_le_compat; lra). lra. }
  assert (Lb : ln (real s) <= 0.9). { rewrite <- (ln_exp 0.9). assert (E9 : 2.1 <= exp 0.9). { replace 0.9 with (0.45 + 0.45) by lra. rewrite exp_plus. pose proof (exp_ineq1_le 0.45) as Q. assert (1.45 * 1.45 <= exp 0.45 * exp 0.45) by (apply Rmult_le_compat; lra). lra. }
    destruct (Rle_lt_or_eq_dec (real s) (exp 0.9) ltac:(lra)) as [Q|Q]; [left; apply ln_increasing; lra|right; now rewrite Q]. }
  apply Rabs_le_inv in EL. set (L := log_elem g d s) in *. change (lse g d sum vexp x) with (fadd mx L) in *.
  assert (C1 : 1 <= cap d) by (destruct Bs; lra). assert (R2 : rep d (2 * cap d)) by (unfold cap; replace 2 with (bpow radix2 1) by reflexivity; rewrite <- bpow_plus; apply rep_pow; destruct d; cbn; lia).
  destruct (add_in d mx L (real mx) (2 * cap d) Fm FL (rep_real d mx Fm) R2 ltac:(lra)) as (_ & Bl & V). apply Rle_antisym; [|lra]. rewrite V, <- (cap_saturates d). apply nearest_le. lra.
Qed.
Lemma lost : length x = 2%nat -> real mx = cap d -> real (nth k x fzero) = cap d -> finite ce /\ real ce = 0.
Proof.
  intros L2 Em Ek. pose proof (absorb L2 Em) as A. destruct (lse_ok g G d c sum vexp Hsum Hexp x F k K Hn) as (_ & _ & _ & _ & _ & Fl & _). destruct (class_finite d x F k K) as (Fx & _). unfold cross_entropy, neg_op. rewrite conv_neg.
  destruct (add_in d (fneg (nth k x fzero)) (lse g d sum vexp x) 0 0 (neg_finite d _ Fx) Fl (rep_0 d) (rep_0 d)) as (Fc & B & _); [rewrite neg_eq; lra|]. split; [exact Fc|lra].
Qed.
End Loss.
