(** * Losses in floating point: NLL, MAE, MSE, and a library that meets the contracts *)
From Coq Require Import ZArith Bool Lia List Arith Reals Lra Psatz Permutation.
From Flocq Require Import Core BinarySingleNaN Relative Plus_error.
From Verif Require Import DenseModel ArithModel AsmModel AsmCode AsmCalls AsmSpec AsmWords AsmWordsSpec AsmExp FloatModel FloatSpec FloatProofs NumModel NumSpec NumLemmas NumProofs NumProofs2 NumProofs4 NumMath AsmFloatSpec AsmFloat AsmFloat2 SoftModel SoftSpec SoftProofs SoftFloat SoftFloat2 SoftFloat5 OptFloatNum NormFloatModel NormFloatNum NormFloatBack NormFloatBack5 LossFloatModel LossFloatSpec LossFloatProofs LossFloatProofs2 LossFloatProofs3 LossFloatProofs4 LossFloatProofs5 LossFloatProofs6.
Import ListNotations.
Local Open Scope list_scope.
Local Open Scope R_scope.

Lemma zero_form d (v : val d) : finite v -> real v = 0 -> exists s, v = B754_zero s.
Proof. intros Fv Z. destruct v as [s|s| |s m e H]; try discriminate; [now exists s|]. exfalso. unfold real in Z. cbn in Z. apply eq_0_F2R in Z. destruct s; discriminate. Qed.
Section Losses.
Variable d : dtype.
Variable sum : nat -> list (val d) -> val d.
Hypothesis Hsum : forall k l, sum_of (floats d) (sum k l) l.

Lemma nll_nan vlog (x y : list (val d)) i : length (vlog x) = length y -> nth_error (vlog x) i = Some minus_infinity -> (exists v, nth_error y i = Some v /\ finite v /\ real v = 0) -> nll d sum vlog x y = B754_nan.
Proof.
  intros L E (v & Ey & Fv & Zv). destruct (zero_form d v Fv Zv) as (s & ->). unfold nll, neg_op. rewrite (sum_nan d (sum 2%nat (zip fmul y (vlog x))) (zip fmul y (vlog x)) (Hsum 2%nat _)); [destruct d; reflexivity|].
  assert (I : nth_error (zip fmul y (vlog x)) i = Some (fmul (B754_zero s) minus_infinity)).
  { revert i L E Ey. generalize (vlog x). induction y as [|a y IH]; intros [|b l] i L E Ey; cbn in L; try lia; try (destruct i; discriminate). destruct i; cbn [nth_error zip] in *; [congruence|apply IH; auto]. }
  apply nth_error_In in I. exact I.
Qed.

(** the elements of MAE *)
Lemma abs_diff (a b : val d) : finite a -> finite b -> let v := conv F64 d (fabs (conv d F64 (fsub a b))) in
  (v = NumSpec.infinity /\ real a <> real b) \/ finite v /\ 0 <= real v /\ (real v = 0 <-> real a = real b).
Proof.
  intros Fa Fb v. assert (Ev : v = fabs (fsub a b)).
  { unfold v. assert (E : fabs (conv d F64 (fsub a b)) = conv d F64 (fabs (fsub a b))); [|rewrite E; apply FloatProofs.conv_back; destruct d; exact I]. destruct d; [|now rewrite !conv_same]. destruct (fsub a b) as [s|s| |s m e H]; try reflexivity.
    set (w := B754_finite s m e H : val F32). destruct (conv_wide F32 F64 w I eq_refl) as (F1 & V1 & S1). destruct (conv_wide F32 F64 (fabs w) I eq_refl) as (F2 & V2 & S2). apply B2R_Bsign_inj; [now apply abs_finite|exact F2| |].
    - change (real (fabs (conv F32 F64 w)) = real (conv F32 F64 (fabs w))). rewrite abs_eq. unfold real in *. rewrite V1, V2. symmetry. apply (abs_eq F32 w).
    - rewrite S2. unfold finite in F1. destruct (conv F32 F64 w); try reflexivity; discriminate. }
  rewrite Ev. pose proof (@Bminus_correct (prec d) (emax d) (prec_pos d) (prec_emax d) mode_NE a b Fa Fb) as C. fold (fsub a b) in C. rewrite <- nearest_eq, <- limit_eq in C.
  destruct (Rlt_bool_spec (Rabs (nearest d (B2R a - B2R b))) (limit d)) as [L|L].
  - destruct C as (V & Fc & _). right. split; [now apply abs_finite|]. rewrite abs_eq. split; [apply Rabs_pos|]. unfold real at 1. rewrite V. split.
    + intros Z. apply diff_zero. change (B2R a) with (real a) in Z. change (B2R b) with (real b) in Z. destruct (Req_dec (nearest d (real a - real b)) 0) as [Q|Q]; [exact Q|]. exfalso. now apply (Rabs_no_R0 _ Q).
    + intros E. unfold real in E. rewrite E, Rminus_eq_0, nearest_0, Rabs_R0. reflexivity.
  - destruct C as (O & _). left. apply over_nan in O. rewrite O. split; [reflexivity|]. intros E. unfold real in E. rewrite E, Rminus_eq_0, nearest_0, Rabs_R0, limit_eq in L. pose proof (bpow_gt_0 radix2 (emax d)). lra.
Qed.
Lemma sum_finite_back v l : sum_of (floats d) v l -> finite v -> Forall finite l.
Proof. intros H Fv. exact (proj1 (sum_error d v l H Fv)). Qed.
Lemma mae_zero (x y : list (val d)) : length x = length y -> Forall finite x -> Forall finite y ->
  (finite (mae d sum x y) /\ real (mae d sum x y) = 0 <-> map real x = map real y).
Proof.
  intros L Fx Fy. unfold mae, differences. set (l := map (fun v => conv F64 d (fabs (conv d F64 v))) (zip fsub x y)).
  assert (Q : (Forall finite l -> Forall (fun v => 0 <= real v) l) /\ (Forall finite l /\ Forall (fun v => real v <= 0) l <-> map real x = map real y)).
  { unfold l. clear l. revert y L Fy. induction x as [|a x IH]; intros [|b y] L Fy; cbn in L; try lia; [cbn; repeat split; auto|]. inversion_clear Fx as [|? ? Fa Fx']. inversion_clear Fy as [|? ? Fb Fy']. cbn [zip map].
    destruct (IH Fx' y ltac:(lia) Fy') as (I1 & I2). destruct (abs_diff a b Fa Fb) as [(E & Ne)|(Fv & Pv & Zv)].
    - rewrite E. split; [intros H; apply Forall_inv in H; discriminate|]. split; [intros (H & _); apply Forall_inv in H; discriminate|]. intros H. exfalso. apply Ne. congruence.
    - split; [intros H; constructor; [exact Pv|apply I1; exact (Forall_inv_tail H)]|]. split.
      + intros (H1 & H2). f_equal; [apply Zv; apply Rle_antisym; [exact (Forall_inv H2)|exact Pv]|]. apply I2. split; [exact (Forall_inv_tail H1)|exact (Forall_inv_tail H2)].
      + intros H. assert (E1 : real a = real b) by congruence. assert (E2 : map real x = map real y) by congruence. apply I2 in E2. destruct E2 as (A & B). apply Zv in E1. split; constructor; auto. right. exact E1. }
  destruct Q as (Q1 & Q2). rewrite <- Q2. split.
  - intros (Fs & Z). pose proof (sum_finite_back _ l (Hsum 4%nat l) Fs) as Fl. split; [exact Fl|]. destruct (sum_above d _ l (Hsum 4%nat l) Fs (Q1 Fl)) as (_ & As). rewrite Z in As. exact As.
  - intros (Fl & Zl). specialize (Q1 Fl). assert (T : total_abs l = 0). { clear - Q1 Zl. unfold total_abs. induction l as [|v l IH]; [reflexivity|]. cbn [fold_right]. rewrite IH by (eapply Forall_inv_tail; eassumption). pose proof (Forall_inv Q1). pose proof (Forall_inv Zl). cbv beta in *. assert (Z : real v = 0) by lra. rewrite Z, Rabs_R0. lra. }
    assert (Fs : finite (sum 4%nat l)). { apply (sum_finite d _ l (Hsum 4%nat l) Fl). rewrite T, Rmult_0_r. pose proof (safe_largest d). assert (0 <= safe d) by (unfold safe; destruct d; apply pow_le; lra). lra. }
    split; [exact Fs|]. pose proof (sum_size d _ l (Hsum 4%nat l) Fs) as Sz. rewrite T, Rmult_0_r in Sz. pose proof (Rabs_pos (real (sum 4%nat l))). destruct (Req_dec (real (sum 4%nat l)) 0) as [Q|Q]; [exact Q|]. exfalso. pose proof (Rabs_pos_lt _ Q). lra.
Qed.
End Losses.

(** ** A library for which Pow has the documented special case at 0 *)
Definition powered : libm := {| Exp := Exp rounded; Log := Log rounded; Tanh := Tanh rounded; Cosh := Cosh rounded;
  Pow x y := match x with B754_zero _ => if Rlt_bool (B2R y) 0 then infinity else Pow rounded x y | _ => Pow rounded x y end |}.
Lemma lit_not_neg k : (0 <= k < 2 ^ 24)%Z -> Rlt_bool (B2R (lit k 0 : val F64)) 0 = false.
Proof. intros H. apply Rlt_bool_false. destruct (lit_eq F64 k 0 (IZR k)) as (_ & V); [cbn; lra|cbn; lia..|]. unfold real in V. rewrite V. apply IZR_le. lia. Qed.
Lemma powered_same x k : (0 <= k < 2 ^ 24)%Z -> Pow powered x (lit k 0) = Pow rounded x (lit k 0).
Proof. intros H. cbn [powered Pow]. rewrite lit_not_neg by exact H. destruct x; reflexivity. Qed.
Lemma powered_go_math : go_math powered.
Proof.
  pose proof rounded_go_math as R. destruct R. split; auto; intros; rewrite ?powered_same by lia; auto.
Qed.
Lemma powered_go_power : go_power powered.
Proof.
  assert (Rp : forall x y, finite x -> 0 <= real x <= 1 -> finite y -> 0 <= real y -> finite (Pow rounded x y) /\ 0 <= real (Pow rounded x y) <= 1).
  { intros x y Fx Bx Fy Py. assert (Z : (0 <= Ztrunc (B2R y))%Z) by (rewrite <- (Ztrunc_IZR 0); apply Ztrunc_le; exact Py). assert (E : exists k, powerRZ (B2R x) (Ztrunc (B2R y)) = B2R x ^ k) by (exists (Z.to_nat (Ztrunc (B2R y))); rewrite <- (Z2Nat.id _ Z) at 1; symmetry; apply pow_powerRZ).
    destruct E as (k & E). assert (B : 0 <= B2R x ^ k <= 1) by (split; [apply pow_le; apply Bx|rewrite <- (pow1 k); apply pow_incr; exact Bx]).
    assert (D : Pow rounded x y = of_real (B2R x ^ k)) by (rewrite <- E; destruct x; try discriminate; reflexivity). rewrite D. destruct (of_real_in (B2R x ^ k) 0 1 (rep_0 F64) (rep_1 F64) B) as (A & C & _). auto. }
  split.
  - intros x y Fx Bx Fy Py. assert (E : Pow powered x y = Pow rounded x y) by (cbn [powered Pow]; rewrite Rlt_bool_false by exact Py; destruct x; reflexivity). rewrite E. now apply Rp.
  - intros y Fy. destruct (one_eq F64) as (F1 & V1). assert (E : Pow powered fone y = of_real (powerRZ (B2R (fone : val F64)) (Ztrunc (B2R y)))) by reflexivity. rewrite E. unfold real in V1. rewrite V1.
    assert (P1 : powerRZ 1 (Ztrunc (B2R y)) = 1) by (destruct (Ztrunc (B2R y)); cbn [powerRZ]; rewrite ?pow1, ?Rinv_1; reflexivity). rewrite P1. destruct (of_real_in 1 1 1 (rep_1 F64) (rep_1 F64) ltac:(lra)) as (A & B & _). apply one_inj; [exact A|lra].
  - intros y Fy Ny. cbn [powered Pow]. rewrite Rlt_bool_true by exact Ny. reflexivity.
Qed.
