(** * Losses in floating point: how accurate MAE and MSE are *)
From Coq Require Import ZArith Bool Lia List Arith Reals Lra.
From Flocq Require Import Core BinarySingleNaN Relative.
From Verif Require Import DenseModel ArithModel AsmModel AsmCode AsmCalls AsmSpec FloatModel FloatSpec FloatProofs NumModel NumSpec NumLemmas AsmFloatSpec AsmFloat AsmFloat2 SoftFloat OptFloatNum NormFloatModel NormFloatNum LossFloatModel LossFloatSpec LossFloatProofs LossFloatProofs7 LossFloatProofs9.
Import ListNotations.
Local Open Scope list_scope.
Local Open Scope R_scope.

Section Sums.
Variable d : dtype.
(** a sum of elements near the terms *)
Lemma sum_pairs_near (f : R -> R -> R) (e : val d -> val d -> val d) r h :
  (forall a b, finite (e a b) -> 0 <= f (real a) (real b) /\ Rabs (real (e a b) - f (real a) (real b)) <= r * f (real a) (real b) + h) -> 0 <= r -> 0 <= h ->
  forall x y v, length x = length y -> sum_of (floats d) v (zip e x y) -> finite v ->
  Rabs (real v - sum_pairs f x y) <= (gamma d (length x - 1) * (1 + r) + r) * sum_pairs f x y + (1 + gamma d (length x - 1)) * (INR (length x) * h).
Proof.
  intros Q Hr Hh x y v L Hs Fv. destruct (sum_error d v _ Hs Fv) as (Fl & E). assert (Le : length (zip e x y) = length x). { clear - L. revert y L. induction x as [|a x IH]; intros [|b y] L; cbn in *; try lia. now rewrite IH by lia. }
  assert (E' : Rabs (real v - total (zip e x y)) <= gamma d (length x - 1) * total_abs (zip e x y)) by (rewrite <- Le; exact E). clear E. rename E' into E.
  assert (N : 0 <= sum_pairs f x y /\ Rabs (total (zip e x y) - sum_pairs f x y) <= r * sum_pairs f x y + INR (length x) * h /\ total_abs (zip e x y) <= (1 + r) * sum_pairs f x y + INR (length x) * h).
  { clear - Q Hr Hh L Fl. revert y L Fl. induction x as [|a x IH]; intros [|b y] L Fl; cbn in L; try lia; [cbn; rewrite Rminus_eq_0, Rabs_R0; lra|]. cbn [zip] in Fl |- *. pose proof (Forall_inv Fl) as Fa. destruct (IH y ltac:(lia) (Forall_inv_tail Fl)) as (I1 & I2 & I3). destruct (Q a b Fa) as (Q1 & Q2). unfold total, total_abs in *. cbn [fold_right sum_pairs].
    change (length (a :: x)) with (S (length x)). rewrite S_INR. set (t := f (real a) (real b)) in *. set (T := sum_pairs f x y) in *. split; [lra|]. pose proof (Rabs_triang (real (e a b) - t) (fold_right (fun (x : val d) s => real x + s) 0 (zip e x y) - T)) as Tr. pose proof (Rabs_triang (real (e a b) - t) t) as T2. replace (real (e a b) - t + t) with (real (e a b)) in T2 by ring. rewrite (Rabs_right t) in T2 by lra.
    replace (real (e a b) - t + (fold_right (fun (x : val d) s => real x + s) 0 (zip e x y) - T)) with (real (e a b) + fold_right (fun (x : val d) s => real x + s) 0 (zip e x y) - (t + T)) in Tr by ring. split; [eapply Rle_trans; [exact Tr|]; lra|lra]. }
  destruct N as (N1 & N2 & N3). pose proof (gamma_pos d (length x - 1)) as Pg. set (ga := gamma d (length x - 1)) in *. set (T := sum_pairs f x y) in *. set (H := INR (length x) * h) in *. assert (A : ga * total_abs (zip e x y) <= ga * ((1 + r) * T + H)) by (apply Rmult_le_compat_l; lra).
  pose proof (Rabs_triang (real v - total (zip e x y)) (total (zip e x y) - T)) as Tr. replace (real v - total (zip e x y) + (total (zip e x y) - T)) with (real v - T) in Tr by ring. replace ((ga * (1 + r) + r) * T + (1 + ga) * H) with (ga * ((1 + r) * T + H) + (r * T + H)) by ring. lra.
Qed.
Lemma zip_map2 (h : val d -> val d) (x y : list (val d)) : map h (zip fsub x y) = zip (fun a b => h (fsub a b)) x y.
Proof. revert y. induction x as [|a x IH]; intros [|b y]; cbn; f_equal; auto. Qed.
Lemma sub_back (x y : val d) : finite (fsub x y) -> finite x /\ finite y /\ real (fsub x y) = nearest d (real x - real y).
Proof.
  intros F. assert (Fx : finite x /\ finite y).
  { unfold finite, fsub in *. destruct x as [s|s| |s m e B], y as [s'|s'| |s' m' e' B']; cbn in F |- *; auto; try discriminate. now destruct (eqb s (negb s')). }
  destruct Fx as (Fx & Fy). split; [exact Fx|]. split; [exact Fy|].
  pose proof (@Bminus_correct (prec d) (emax d) (prec_pos d) (prec_emax d) mode_NE x y Fx Fy) as C. rewrite <- nearest_eq, <- limit_eq in C. fold (fsub x y) in C.
  destruct (Rlt_bool _ _); [exact (proj1 C)|]. exfalso. destruct C as (C & _). unfold finite in F. rewrite <- finite_SF, C, overflow_infinite in F. discriminate.
Qed.
Lemma sub_rounds (a b : val d) : finite (fsub a b) -> Rabs (real (fsub a b) - (real a - real b)) <= u d * Rabs (real a - real b).
Proof. intros Fs. destruct (sub_back a b Fs) as (Fa & Fb & V). rewrite V. pose proof (plus_error_rel d a (fneg b)) as P. rewrite neg_eq in P. exact P. Qed.
Lemma abs_rounds (v : val d) : finite (conv F64 d (fabs (conv d F64 v))) -> finite v /\ real (conv F64 d (fabs (conv d F64 v))) = Rabs (real v).
Proof.
  intros Fv. assert (E : conv F64 d (fabs (conv d F64 v)) = fabs v). { assert (E : fabs (conv d F64 v) = conv d F64 (fabs v)); [|rewrite E; apply FloatProofs.conv_back; destruct d; exact I]. destruct d; [|now rewrite !conv_same]. destruct v as [s|s| |s m e H]; try reflexivity.
    set (w := B754_finite s m e H : val F32). destruct (conv_wide F32 F64 w I eq_refl) as (F1 & V1 & S1). destruct (conv_wide F32 F64 (fabs w) I eq_refl) as (F2 & V2 & S2). apply B2R_Bsign_inj; [now apply abs_finite|exact F2| |].
    - change (real (fabs (conv F32 F64 w)) = real (conv F32 F64 (fabs w))). rewrite abs_eq. unfold real in *. rewrite V1, V2. symmetry. apply (abs_eq F32 w).
    - rewrite S2. unfold finite in F1. destruct (conv F32 F64 w); try reflexivity; discriminate. } rewrite E in *. split; [destruct v; try discriminate; reflexivity|apply abs_eq].
Qed.
Variable sum : nat -> list (val d) -> val d.
Hypothesis Hsum : forall k l, sum_of (floats d) (sum k l) l.
Lemma mae_value (x y : list (val d)) : length x = length y -> finite (mae d sum x y) ->
  Rabs (real (mae d sum x y) - absolute_errors x y) <= gamma d (length x) * absolute_errors x y.
Proof.
  intros L Fm. unfold mae, differences in *. rewrite (zip_map2 (fun v => conv F64 d (fabs (conv d F64 v)))) in *. pose proof (u_pos d) as U.
  assert (Q : forall a b : val d, finite (conv F64 d (fabs (conv d F64 (fsub a b)))) -> 0 <= Rabs (real a - real b) /\ Rabs (real (conv F64 d (fabs (conv d F64 (fsub a b)))) - Rabs (real a - real b)) <= u d * Rabs (real a - real b) + 0).
  { intros a b Fv. split; [apply Rabs_pos|]. destruct (abs_rounds (fsub a b) Fv) as (Fs & ->). pose proof (sub_rounds a b Fs) as E. pose proof (Rabs_triang_inv2 (real (fsub a b)) (real a - real b)). lra. }
  pose proof (sum_pairs_near (fun a b => Rabs (a - b)) (fun a b => conv F64 d (fabs (conv d F64 (fsub a b)))) (u d) 0 Q ltac:(lra) ltac:(lra) x y _ L (Hsum 4%nat _) Fm) as E. fold (absolute_errors x y) in E. rewrite !Rmult_0_r, Rplus_0_r in E. destruct x as [|a x].
  - destruct y; [|discriminate]. cbn [length Nat.sub] in *. change (absolute_errors [] []) with 0 in *. rewrite Rmult_0_r in *. exact E.
  - change (length (a :: x)) with (S (length x)) in *. replace (S (length x) - 1)%nat with (length x) in E by lia. rewrite gamma_S. eapply Rle_trans; [exact E|]. right. ring.
Qed.
Lemma half_one : finite (conv F64 d (conv d F64 (conv F64 d (lit 1 (-1)))) : val d) /\ real (conv F64 d (conv d F64 (conv F64 d (lit 1 (-1)))) : val d) = / 2.
Proof. destruct d; (split; [reflexivity|]); unfold real; vm_compute; lra. Qed.
Lemma mse_value (x y : list (val d)) : length x = length y -> finite (mse d sum x y) ->
  Rabs (real (mse d sum x y) - squared_errors x y) <= (gamma d (length x - 1) * (1 + 5 * u d) + 5 * u d) * squared_errors x y + (1 + gamma d (length x - 1)) * (INR (length x) * (2 * half_tiny d)).
Proof.
  intros L Fm. unfold mse, differences, square in *. set (half := conv F64 d (conv d F64 (conv F64 d (lit 1 (-1))))) in *. destruct half_one as (Fh & Vh). fold half in Fh, Vh.
  assert (Z : map (fun v => fmul v half) (zip fmul (zip fsub x y) (zip fsub x y)) = zip (fun a b => fmul (fmul (fsub a b) (fsub a b)) half) x y).
  { clear. revert y. induction x as [|a x IH]; intros [|b y]; cbn; f_equal; auto. } rewrite Z in *. pose proof (u_small d) as (U1 & U2). assert (Us : / 2 ^ 24 <= / 1000) by (apply inv_small; lia). pose proof (half_tiny_pos d) as Hp.
  apply (sum_pairs_near (fun a b => (a - b) * (a - b) / 2) (fun a b => fmul (fmul (fsub a b) (fsub a b)) half) (5 * u d) (2 * half_tiny d)); auto; try lra.
  intros a b Fe. destruct (mul_back d _ _ Fe) as (Fq & _ & Ve). destruct (mul_back d _ _ Fq) as (Fs & _ & Vq). pose proof (sub_rounds a b Fs) as Es. set (s := real (fsub a b)) in *. set (t := real a - real b) in *. rewrite Vh in Ve. set (q := real (fmul (fsub a b) (fsub a b))) in *. rewrite Ve.
  pose proof (round_error d (q * / 2)) as E2. pose proof (round_error d (s * s)) as E1. rewrite <- Vq in E1. set (e := nearest d (q * / 2)) in *. assert (P0 : 0 <= t * t) by apply Rle_0_sqr. assert (Ps : 0 <= s * s) by apply Rle_0_sqr. rewrite (Rabs_right (s * s)) in E1 by lra.
  assert (UT : u d * (t * t) <= / 1000 * (t * t)) by (apply Rmult_le_compat_r; lra). assert (PUT : 0 <= u d * (t * t)) by (apply Rmult_le_pos; lra).
  assert (D : Rabs (s * s - t * t) <= 2.01 * (u d * (t * t))).
  { replace (s * s - t * t) with ((s - t) * (s - t) + 2 * (t * (s - t))) by ring. eapply Rle_trans; [apply Rabs_triang|]. rewrite !Rabs_mult, (Rabs_right 2) by lra. pose proof (Rabs_pos (s - t)) as P1. pose proof (Rabs_pos t) as P2. assert (TT : Rabs t * Rabs t = t * t) by (rewrite <- Rabs_mult; apply Rabs_right; lra).
    assert (A1 : Rabs (s - t) * Rabs (s - t) <= u d * Rabs t * (u d * Rabs t)) by (apply Rmult_le_compat; assumption). assert (A2 : Rabs t * Rabs (s - t) <= Rabs t * (u d * Rabs t)) by (apply Rmult_le_compat_l; assumption). replace (u d * Rabs t * (u d * Rabs t)) with (u d * (u d * (Rabs t * Rabs t))) in A1 by ring. replace (Rabs t * (u d * Rabs t)) with (u d * (Rabs t * Rabs t)) in A2 by ring. rewrite TT in A1, A2.
    assert (u d * (u d * (t * t)) <= / 1000 * (u d * (t * t))) by (apply Rmult_le_compat_r; lra). lra. }
  assert (Bs : s * s <= 1.01 * (t * t)) by (apply Rabs_le_inv in D; lra). assert (US : u d * (s * s) <= u d * (1.01 * (t * t))) by (apply Rmult_le_compat_l; lra).
  assert (Dq : Rabs (q - t * t) <= 3.1 * (u d * (t * t)) + half_tiny d). { pose proof (Rabs_triang (q - s * s) (s * s - t * t)) as T. replace (q - s * s + (s * s - t * t)) with (q - t * t) in T by ring. lra. }
  assert (Bq : Rabs (q * / 2) <= 0.51 * (t * t) + half_tiny d). { rewrite Rabs_mult, (Rabs_right (/ 2)) by lra. pose proof (Rabs_triang (q - t * t) (t * t)) as T. replace (q - t * t + t * t) with q in T by ring. rewrite (Rabs_right (t * t)) in T by lra. lra. }
  assert (UQ : u d * Rabs (q * / 2) <= u d * (0.51 * (t * t) + half_tiny d)) by (apply Rmult_le_compat_l; lra). assert (UH : u d * half_tiny d <= / 1000 * half_tiny d) by (apply Rmult_le_compat_r; lra).
  split; [lra|]. assert (Dh : Rabs ((q - t * t) * / 2) <= (3.1 * (u d * (t * t)) + half_tiny d) * / 2) by (rewrite Rabs_mult, (Rabs_right (/ 2)) by lra; apply Rmult_le_compat_r; lra).
  pose proof (Rabs_triang (e - q * / 2) ((q - t * t) * / 2)) as T. replace (e - q * / 2 + (q - t * t) * / 2) with (e - t * t / 2) in T by field. replace (5 * u d * (t * t / 2)) with (2.5 * (u d * (t * t))) by lra. replace (u d * (0.51 * (t * t) + half_tiny d)) with (0.51 * (u d * (t * t)) + u d * half_tiny d) in UQ by lra. lra.
Qed.
End Sums.
