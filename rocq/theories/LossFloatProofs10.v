(** * Losses in floating point: the gradients of the focal loss and the perplexity, and an accurate library *)
From Coq Require Import ZArith Bool Lia Arith Reals Lra Psatz.
From Coq Require Import List.
From Flocq Require Import Core BinarySingleNaN Relative.
From Verif Require Import DenseModel ArithModel AsmModel AsmCode AsmCalls AsmSpec FloatModel FloatSpec FloatProofs NumModel NumSpec NumLemmas NumProofs NumProofs2 NumMath AsmFloatSpec AsmFloat AsmFloat2 SoftModel SoftSpec SoftProofs SoftFloat SoftFloat2 SoftFloat5 OptFloatNum NormFloatModel NormFloatNum NormFloatBack NormFloatBack5 LossFloatModel LossFloatSpec LossFloatProofs LossFloatProofs2 LossFloatProofs3 LossFloatProofs4 LossFloatProofs5 LossFloatProofs6 LossFloatProofs7 LossFloatProofs8 LossFloatProofs9.
Import ListNotations.
Local Open Scope list_scope.
Local Open Scope R_scope.

Lemma mul_near d (a b : val d) A B C : finite a -> finite b -> Rabs (real a) <= A -> Rabs (real b) <= B -> rep d C -> A * B <= C ->
  finite (fmul a b) /\ Rabs (real (fmul a b)) <= C /\ Rabs (real (fmul a b) - real a * real b) <= u d * Rabs (real a * real b) + half_tiny d.
Proof.
  intros Fa Fb Ha Hb RC H. apply (@mul_op d a b C Fa Fb RC). rewrite Rabs_mult. eapply Rle_trans; [|exact H]. apply Rmult_le_compat; auto; apply Rabs_pos.
Qed.
Lemma conv_rounds d (v : val F64) : finite v -> finite (conv F64 d v) -> Rabs (real (conv F64 d v) - real v) <= u d * Rabs (real v) + half_tiny d.
Proof.
  intros Fv Fd. destruct v as [s|s| |s m e H]; try discriminate.
  - change (conv F64 d (B754_zero s)) with (B754_zero s : val d). unfold real. cbn [B2R]. rewrite Rminus_0_r, Rabs_R0. pose proof (half_tiny_pos d). lra.
  - pose proof (FloatProofs.conv_finite F64 d s m e H) as C. cbv zeta in C. destruct (Rlt_bool _ _); [destruct C as (_ & V & _); unfold real; rewrite V; apply round_error|rewrite C in Fd; discriminate].
Qed.
Section Loss.
Variable g : libm.
Hypothesis G : go_math g.
Variable d : dtype.
Variable c : cpu.
Variable sum : nat -> list (val d) -> val d.
Variable vexp : list (val d) -> list (val d).
Hypothesis Hsum : forall k l, sum_of (floats d) (sum k l) l.
Hypothesis Hexp : forall l, exps g d c l (vexp l).
Variable x : list (val d).
Hypothesis F : Forall finite x.
Variable k : nat.
Hypothesis K : (k < length x)%nat.
Notation n := (INR (length x)).
Hypothesis Hn : n * u d <= / 8.
Notation ce := (cross_entropy g d sum vexp x k).
Hypothesis Fc : finite ce.
Lemma focal_ce_near gamma gy : go_power g -> power_accurate g -> real ce <= 2 ^ 30 -> finite gamma -> 2 <= real gamma <= 2 ^ 20 -> finite gy -> Rabs (real gy) <= 2 ^ 20 ->
  Rabs (real (focal_ce_grad g d sum vexp x k gamma gy) - real gy * focal_slope (real gamma) (real ce)) <= 50 * real gamma * real gamma * u d * (1 + real ce) * Rabs (real gy) + 12 * real gamma * half_tiny d.
Proof.
  intros W P Bc Fg Bg Fy By. pose proof (ce_pos g G d c sum vexp Hsum Hexp x F k K Hn Fc) as Pc. destruct (p_near g G d c sum vexp Hsum Hexp x F k K Hn Fc) as (Fp & Bp & Ep). pose proof (w_in g G d c sum vexp Hsum Hexp x F k K Hn Fc) as Bw.
  destruct (factor_near g G W P d c sum vexp Hsum Hexp x F k K Hn Fc gamma Fg ltac:(lra)) as (Ff & Bf & Ef). unfold focal_ce_grad. set (p := focal_p g d sum vexp x k) in *. set (f := focal_factor g d sum vexp x k gamma) in *.
  destruct (one_minus_near d p _ Fp Bp Ep) as (Fo & Bo & Eo). destruct (less_one gamma Fg Bg) as (Fs & Vs). destruct (power_near g d (one_minus d p) (fsub gamma fone) _ W P Fo Bo Bw Eo Fs ltac:(lra)) as (Fq & Bq & Eq). rewrite Vs in Eq. set (q := conv F64 d (Pow g (conv d F64 (one_minus d p)) (fsub gamma fone))) in *.
  destruct (conv_error d gamma 0 (2 ^ 20) Fg (rep_0 d) (rep_two d 20 ltac:(lia)) ltac:(lra)) as (Fgd & Bgd & Egd). set (gd := conv F64 d gamma) in *. rewrite (Rabs_right (real gamma)) in Egd by lra.
  assert (Two : forall i j, 2 ^ (i + j) = 2 ^ i * 2 ^ j) by (intros; apply pow_add). assert (Ac : Rabs (real ce) <= 2 ^ 30) by (rewrite Rabs_right; lra). assert (Ap : Rabs (real p) <= 1) by (rewrite Rabs_right; lra).
  destruct (mul_near d q gd 1 (2 ^ 20) (2 ^ 20) Fq Fgd ltac:(rewrite Rabs_right; lra) ltac:(rewrite Rabs_right; lra) (rep_two d 20 ltac:(lia)) ltac:(lra)) as (F2 & B2 & E2).
  destruct (mul_near d ce gy (2 ^ 30) (2 ^ 20) (2 ^ 50) Fc Fy Ac By (rep_two d 50 ltac:(lia)) ltac:(rewrite <- Two; apply Rle_refl)) as (F3 & B3 & E3).
  destruct (mul_near d (fmul q gd) (fmul ce gy) (2 ^ 20) (2 ^ 50) (2 ^ 70) F2 F3 B2 B3 (rep_two d 70 ltac:(lia)) ltac:(rewrite <- Two; apply Rle_refl)) as (F4 & B4 & E4). set (gs := fmul (fmul q gd) (fmul ce gy)) in *.
  destruct (minus_eq d gs F4) as (F5 & V5). assert (B5 : Rabs (real (minus d gs)) <= 2 ^ 70) by (rewrite V5, Rabs_Ropp; exact B4).
  destruct (mul_near d p (minus d gs) 1 (2 ^ 70) (2 ^ 70) Fp F5 Ap B5 (rep_two d 70 ltac:(lia)) ltac:(lra)) as (F6 & B6 & E6). destruct (neg_back_eq d _ F6) as (F7 & V7). rewrite V5 in E6. set (t := neg_back d (fmul p (minus d gs))) in *.
  assert (E7 : Rabs (real t - real p * real gs) <= u d * Rabs (real p * real gs) + half_tiny d). { rewrite V7. replace (real p * - real gs) with (- (real p * real gs)) in E6 by ring. rewrite (Rabs_Ropp (real p * real gs)) in E6. rewrite <- Rabs_Ropp. replace (- (- real (fmul p (minus d gs)) - real p * real gs)) with (real (fmul p (minus d gs)) - - (real p * real gs)) by ring. exact E6. }
  assert (B7 : Rabs (real t) <= 2 ^ 70) by (rewrite V7, Rabs_Ropp; exact B6).
  destruct (mul_near d f gy 1 (2 ^ 20) (2 ^ 20) Ff Fy ltac:(rewrite Rabs_right; lra) By (rep_two d 20 ltac:(lia)) ltac:(lra)) as (F8 & B8 & E8).
  assert (L1 : 2 ^ 20 <= 2 ^ 70) by (apply Rle_pow; [lra|lia]). assert (L2 : 2 * 2 ^ 70 = 2 ^ 71) by reflexivity.
  destruct (@add_op d (fmul f gy) t (2 ^ 71) F8 F7 (rep_two d 71 ltac:(lia))) as (_ & _ & E9). { eapply Rle_trans; [apply Rabs_triang|]. rewrite <- L2. lra. }
  destruct (tiny_u d) as (T1 & _). pose proof (half_tiny_pos d) as Hp. pose proof (u_small d) as (U1 & U2). assert (Us : / 2 ^ 24 <= / 1000) by (apply inv_small; lia). pose proof (exp_pos (- real ce)) as Px. unfold focal_slope.
  assert (Eq' : Rabs (real q - power_of (1 - exp (- real ce)) (real gamma - 1)) <= 21 * real gamma * u d). { eapply Rle_trans; [exact Eq|]. apply Rmult_le_compat_r; lra. }
  apply (factor_error (u d) (half_tiny d) (real gamma) (power_of (1 - exp (- real ce)) (real gamma)) (power_of (1 - exp (- real ce)) (real gamma - 1)) (real f) (real q) (real gd) (real ce) (real gy) (real (fmul q gd)) (real (fmul ce gy)) (real gs) (real t) (real (fmul f gy)) _ (real p) (exp (- real ce))); auto; try lra; apply power_in; lra.
Qed.
(** ** The perplexity *)
Lemma perplexity_value : let v := perplexity g d sum vexp x k in finite v -> Rabs (real v - exp (real ce)) <= 10 * u d * exp (real ce).
Proof.
  intros v Fv. pose proof (ce_pos g G d c sum vexp Hsum Hexp x F k K Hn Fc) as Pc. unfold v, perplexity, exp_elem in *. destruct (conv_up d ce Fc) as (Fu & Vu). set (y := conv d F64 ce) in *. rewrite <- Vu in *.
  destruct (exp_either g G y Fu) as [Fe|E]; [|exfalso; rewrite E in Fv; destruct d; discriminate]. pose proof (NumSpec.exp_value g G y Fu Fe) as E. pose proof (exp_above_one g G y Fu Fe Pc) as E1. assert (X : 1 <= exp (real y)) by (rewrite <- exp_0; destruct Pc as [L|<-]; [left; now apply exp_increasing|lra]).
  assert (C : Rabs (real (conv F64 d (Exp g y)) - real (Exp g y)) <= u d * Rabs (real (Exp g y)) + half_tiny d).
  { now apply conv_rounds. }
  rewrite (Rabs_right (real (Exp g y))) in C by lra. destruct (tiny_u d) as (T1 & T2). pose proof (fifty d) as T3. pose proof (u_small d) as (U1 & U2). assert (Us : / 2 ^ 24 <= / 1000) by (apply inv_small; lia).
  set (X0 := exp (real y)) in *. assert (A1 : X0 / 2 ^ 50 <= 8 * (u d * X0)) by (unfold Rdiv; rewrite Rmult_comm; apply Rle_trans with (8 * u d * X0); [apply Rmult_le_compat_r; lra|lra]). assert (A2 : u d <= u d * X0) by (rewrite <- (Rmult_1_r (u d)) at 1; apply Rmult_le_compat_l; lra).
  assert (A3 : u d * X0 <= / 1000 * X0) by (apply Rmult_le_compat_r; lra). assert (B : real (Exp g y) <= 1.01 * X0) by (apply Rabs_le_inv in E; lra). assert (A4 : u d * real (Exp g y) <= u d * (1.01 * X0)) by (apply Rmult_le_compat_l; lra).
  pose proof (Rabs_triang (real (conv F64 d (Exp g y)) - real (Exp g y)) (real (Exp g y) - X0)) as T. replace (real (conv F64 d (Exp g y)) - real (Exp g y) + (real (Exp g y) - X0)) with (real (conv F64 d (Exp g y)) - X0) in T by ring. replace (u d * (1.01 * X0)) with (1.01 * (u d * X0)) in A4 by lra. replace (10 * u d * X0) with (10 * (u d * X0)) by ring. lra.
Qed.
Lemma slope_in i : (i < length x)%nat -> Rabs (cross_entropy_slope x k i) <= 1.
Proof.
  intros Hi. assert (Ix : In (nth i x fzero) x) by (now apply nth_In). unfold cross_entropy_slope. rewrite (softmax_pos d x F k K _ Ix). pose proof (exact_in d (top d x) (nth i x fzero) x Ix) as X. pose proof (exact_ge d x F (not_empty d x k K)) as X1. pose proof (exp_pos (real (nth i x fzero) - real (top d x))) as Xp.
  assert (Q : 0 <= exp (real (nth i x fzero) - real (top d x)) / exact (top d x) x <= 1). { unfold Rdiv. split; [apply Rmult_le_pos; [lra|left; apply Rinv_0_lt_compat; lra]|]. apply Rmult_le_reg_r with (exact (top d x) x); [lra|]. rewrite Rmult_assoc, Rinv_l by lra. lra. }
  apply Rabs_le. destruct (i =? k)%nat; lra.
Qed.
(** the gradient of any function of the cross entropy *)
Lemma back_chain h r e first : finite h -> Rabs (real h) <= safe d -> Rabs (real h - r) <= e ->
  exists gx, cross_entropy_back d sum vexp first x k h = Some gx /\ length gx = length x /\ forall i, (i < length x)%nat -> finite (nth i gx fzero) /\
    Rabs (real (nth i gx fzero) - r * cross_entropy_slope x k i) <= 3 * soft_rel d (length x) * Rabs r + soft_abs d + 2 * e.
Proof.
  intros Fh Bh Eh. destruct (back_value g G d c sum _ Hsum Hexp x F k K Hn h Fh Bh first) as (gx & E & L & H). exists gx. split; [exact E|]. split; [exact L|]. intros i Hi. destruct (H i Hi) as (Fi & Ei). split; [exact Fi|].
  pose proof (slope_in i Hi) as Sl. set (s := cross_entropy_slope x k i) in *. assert (Pe : 0 <= e) by (eapply Rle_trans; [apply Rabs_pos|exact Eh]). assert (X1 : Rabs ((real h - r) * s) <= e) by (rewrite Rabs_mult; rewrite <- (Rmult_1_r e); apply Rmult_le_compat; auto; apply Rabs_pos).
  assert (R1 : 0 <= 3 * soft_rel d (length x) <= 1). { rewrite soft_rel_eq. destruct (eta_tau d) as (He & _). pose proof (pos_INR (length x)) as Pn. pose proof (u_pos d) as U. assert (0 <= n * u d) by (apply Rmult_le_pos; lra). lra. } set (R := 3 * soft_rel d (length x)) in *.
  assert (Hh : Rabs (real h) <= Rabs r + e) by (pose proof (Rabs_triang (real h - r) r) as T; replace (real h - r + r) with (real h) in T by ring; lra). assert (X2 : R * Rabs (real h) <= R * (Rabs r + e)) by (apply Rmult_le_compat_l; lra). assert (X3 : R * e <= 1 * e) by (apply Rmult_le_compat_r; lra).
  pose proof (Rabs_triang (real (nth i gx fzero) - real h * s) ((real h - r) * s)) as T. replace (real (nth i gx fzero) - real h * s + (real h - r) * s) with (real (nth i gx fzero) - r * s) in T by ring. rewrite Rmult_plus_distr_l in X2. lra.
Qed.
Lemma perplexity_back_value gy first : let v := perplexity g d sum vexp x k in finite v -> finite gy -> Rabs (real v * real gy) <= safe d ->
  exists gx, perplexity_back g d sum vexp first x k gy = Some gx /\ length gx = length x /\ forall i, (i < length x)%nat -> finite (nth i gx fzero) /\
    Rabs (real (nth i gx fzero) - real gy * exp (real ce) * cross_entropy_slope x k i) <= 4 * soft_rel d (length x) * Rabs (real gy * exp (real ce)) + 2 * soft_abs d.
Proof.
  intros v Fv Fg B. pose proof (perplexity_value Fv) as Ev. fold v in Ev. assert (RS : rep d (safe d)) by (unfold safe; destruct d; apply rep_big; cbn; lia). destruct (@mul_op d v gy (safe d) Fv Fg RS B) as (Fh & Bh & Eh). unfold near_to in Eh. set (h := fmul v gy) in *. pose proof (exp_pos (real ce)) as PX. set (X := exp (real ce)) in *. set (r := real gy * X) in *.
  pose proof (u_small d) as (U1 & U2). assert (Us : / 2 ^ 24 <= / 1000) by (apply inv_small; lia). set (Y := Rabs r). assert (PY : 0 <= Y) by apply Rabs_pos.
  assert (X1 : Rabs ((real v - X) * real gy) <= 10 * (u d * Y)). { rewrite Rabs_mult. unfold Y, r. rewrite Rabs_mult, (Rabs_right X) by lra. pose proof (Rabs_pos (real gy)). replace (10 * (u d * (Rabs (real gy) * X))) with (10 * u d * X * Rabs (real gy)) by ring. apply Rmult_le_compat_r; assumption. }
  assert (UY : u d * Y <= / 1000 * Y) by (apply Rmult_le_compat_r; lra). assert (X2 : Rabs (real v * real gy) <= 1.01 * Y). { pose proof (Rabs_triang ((real v - X) * real gy) r) as T. replace ((real v - X) * real gy + r) with (real v * real gy) in T by (unfold r; ring). fold Y in T. lra. }
  assert (X3 : u d * Rabs (real v * real gy) <= 1.01 * (u d * Y)) by (apply Rle_trans with (u d * (1.01 * Y)); [apply Rmult_le_compat_l; lra|lra]).
  assert (E : Rabs (real h - r) <= 12 * (u d * Y) + half_tiny d). { pose proof (Rabs_triang (real h - real v * real gy) ((real v - X) * real gy)) as T. replace (real h - real v * real gy + (real v - X) * real gy) with (real h - r) in T by (unfold r; ring). assert (0 <= u d * Y) by (apply Rmult_le_pos; lra). lra. }
  destruct (back_chain h r _ first Fh Bh E) as (gx & Ex & L & H). exists gx. split; [exact Ex|]. split; [exact L|]. intros i Hi. destruct (H i Hi) as (Fi & Ei). split; [exact Fi|]. fold Y in Ei |- *. eapply Rle_trans; [exact Ei|].
  rewrite soft_rel_eq, soft_abs_eq. pose proof (u_eta d) as Ue. pose proof (tiny_tau d) as Tt. destruct (eta_tau d) as (He & Ht & _). pose proof (pos_INR (length x)) as Pn. assert (NU : 0 <= n * u d) by (apply Rmult_le_pos; lra).
  assert (Q : 24 * (u d * Y) <= (4 * eta d + 2 * (n * u d)) * Y). { replace (24 * (u d * Y)) with (24 * u d * Y) by ring. apply Rmult_le_compat_r; lra. } replace (3 * (4 * eta d + 2 * (n * u d)) * Y) with (3 * ((4 * eta d + 2 * (n * u d)) * Y)) by ring. replace (4 * (4 * eta d + 2 * (n * u d)) * Y) with (4 * ((4 * eta d + 2 * (n * u d)) * Y)) by ring. lra.
Qed.
End Loss.

(** ** A library with accurate powers *)
Definition between_powers (x y : val F64) : bool := Rle_bool 0 (B2R x) && Rle_bool (B2R x) 1 && Rle_bool 1 (B2R y) && Rle_bool (B2R y) (2 ^ 20) && is_finite x && is_finite y.
Definition accurate : libm := {| Exp := Exp powered; Log := Log powered; Tanh := Tanh powered; Cosh := Cosh powered;
  Pow x y := if between_powers x y then of_real (power_of (B2R x) (B2R y)) else Pow powered x y |}.
Lemma between_spec x y : between_powers x y = true <-> finite x /\ 0 <= real x <= 1 /\ finite y /\ 1 <= real y <= 2 ^ 20.
Proof.
  unfold between_powers. rewrite !andb_true_iff. split.
  - intros (((((A & B) & C) & D) & E) & F). repeat apply conj; auto; match goal with H : Rle_bool ?a ?b = true |- ?a <= ?b => destruct (Rle_bool_spec a b) as [L|L]; [exact L|discriminate H] end.
  - intros (A & (B & C) & D & E & F). repeat split; auto; now apply Rle_bool_true.
Qed.
Lemma power_nat x k : 0 <= x -> (0 < k)%nat -> power_of x (INR k) = x ^ k.
Proof.
  intros Hx Hk. unfold power_of. destruct (Rle_dec x 0) as [L|L]; [assert (x = 0) by lra; subst; rewrite pow_i by exact Hk; reflexivity|]. apply Rpower_pow. lra.
Qed.
Lemma accurate_same x k : (1 <= k < 2 ^ 20)%Z -> Pow accurate x (lit k 0) = Pow powered x (lit k 0).
Proof.
  intros Hk. cbn [accurate Pow]. destruct (between_powers x (lit k 0)) eqn:E; [|reflexivity]. apply between_spec in E. destruct E as (Fx & Bx & Fy & By). destruct (lit_eq F64 k 0 (IZR k)) as (_ & V); [cbn; lra|cbn; lia..|]. unfold real in V, Bx. rewrite V.
  rewrite powered_same by (cbn in *; lia). assert (Q : Pow rounded x (lit k 0) = of_real (powerRZ (B2R x) (Ztrunc (B2R (lit k 0 : val F64))))) by (destruct x; try discriminate; reflexivity). rewrite Q, V, Ztrunc_IZR. f_equal.
  rewrite <- (Z2Nat.id k) by lia. rewrite <- INR_IZR_INZ, <- pow_powerRZ. apply power_nat; [apply Bx|]. apply (Z2Nat.inj_lt 0); lia.
Qed.
Lemma accurate_go_math : go_math accurate.
Proof.
  pose proof powered_go_math as R. destruct R. split; auto; intros; rewrite ?accurate_same by lia; auto.
Qed.
Lemma of_real_unit r : 0 <= r <= 1 -> finite (of_real r) /\ 0 <= real (of_real r) <= 1 /\ real (of_real r) = nearest F64 r.
Proof. intros B. exact (of_real_in r 0 1 (rep_0 F64) (rep_1 F64) B). Qed.
Lemma accurate_go_power : go_power accurate.
Proof.
  destruct powered_go_power as [P1 P2 P3]. split.
  - intros x y Fx Bx Fy Py. cbn [accurate Pow]. destruct (between_powers x y); [|now apply P1]. destruct (of_real_unit (power_of (B2R x) (B2R y))) as (A & B & _); [apply power_in; assumption|auto].
  - intros y Fy. cbn [accurate Pow]. destruct (between_powers fone y); [|now apply P2]. destruct (one_eq F64) as (F1 & V1). unfold real in V1. rewrite V1, power_pos by lra. unfold Rpower. rewrite ln_1, Rmult_0_r, exp_0. destruct (of_real_in 1 1 1 (rep_1 F64) (rep_1 F64) ltac:(lra)) as (A & B & _). apply one_inj; [exact A|lra].
  - intros y Fy Ny. cbn [accurate Pow]. destruct (between_powers (B754_zero false) y) eqn:E; [|now apply P3]. apply between_spec in E. lra.
Qed.
Lemma accurate_accurate : power_accurate accurate.
Proof.
  intros x y Fx Bx Fy By. assert (E : between_powers x y = true) by (apply between_spec; auto). cbn [accurate Pow]. rewrite E. pose proof (power_in (real x) (real y) Bx ltac:(lra)) as Q. unfold real in Q, Bx, By |- *. set (r := power_of (B2R x) (B2R y)) in *. destruct (of_real_unit r Q) as (_ & _ & V). unfold real in V. rewrite V.
  pose proof (round_error F64 r) as T. rewrite (Rabs_right r) in T by lra. destruct (tiny_u F64) as (T1 & _). pose proof (u_pos F64) as U. assert (u F64 * r <= u F64 * 1) by (apply Rmult_le_compat_l; lra). assert (E8 : 8 * u F64 = / 2 ^ 50) by (unfold u; rewrite <- (Rinv_involutive 8), <- Rinv_mult_distr; [f_equal| |apply pow_nonzero|]; lra || (cbn; lra)).
  assert (1 * / 2 ^ 50 <= B2R y * / 2 ^ 50) by (apply Rmult_le_compat_r; [left; apply inv_pos|lra]). unfold Rdiv. lra.
Qed.
