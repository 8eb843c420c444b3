(** * Proofs: SoftPlus with a large threshold, and LogSoftmax *)
From Coq Require Import List ZArith Bool Reals Lia Lra.
From Flocq Require Import Core BinarySingleNaN Relative.
From Verif Require Import DenseModel DenseLemmas ArithModel ArithProofs FloatModel FloatSpec FloatProofs NumModel NumSpec NumLemmas NumProofs NumProofs2 NumProofs3 NumProofs4.
Import ListNotations.
Open Scope R_scope.

Lemma conv_over S D (x : val S) : finite x -> limit D <= real x -> conv S D x = infinity.
Proof.
  intros F B. assert (P : 0 < limit D) by (rewrite limit_eq; apply bpow_gt_0). pose proof (pos_sign S x F ltac:(lra)) as Sx.
  assert (O : limit D <= nearest D (real x)).
  { rewrite limit_eq in *. rewrite nearest_eq. apply round_ge_generic; auto; [apply FLT_exp_valid; destruct D; reflexivity|apply valid_rnd_round_mode|].
    apply generic_format_bpow. destruct D; cbn; lia. }
  destruct x as [s|s| |s mx e H]; try discriminate; [unfold real in B; cbn in B; lra|]. pose proof (conv_finite S D s mx e H) as C. cbv zeta in C.
  rewrite Rlt_bool_false in C; [rewrite C, Sx; reflexivity|]. eapply Rle_trans; [exact O|apply Rle_abs].
Qed.
Lemma add_le d (x y : val d) b : finite x -> finite y -> finite (fadd x y) -> real x + real y <= b -> rep d b -> real (fadd x y) <= b.
Proof.
  intros Fx Fy Fs B Rb. pose proof (@Bplus_correct (prec d) (emax d) (prec_pos d) (prec_emax d) mode_NE x y Fx Fy) as C. fold (fadd x y) in C. rewrite <- nearest_eq in C. fold (real x) (real y) in C.
  destruct (Rlt_bool_spec (Rabs (nearest d (real x + real y))) (bpow radix2 (emax d))) as [L|L].
  - destruct C as (V & F & _). unfold real at 1. rewrite V. rewrite <- (proj1 Rb). now apply nearest_le.
  - destruct C as (C & S). apply over_nan in C. rewrite C in Fs. discriminate.
Qed.

Section M.
Variable m : libm.
Hypothesis G : go_math m.
Lemma softplus_over (beta t v : val F64) : finite beta -> / 2 ^ 20 <= real beta <= 2 ^ 20 -> finite t -> finite v -> real v <= real t -> 710 <= real beta * real v ->
  go_softplus m beta t v = infinity /\ go_softplus_deriv m beta t v = B754_nan.
Proof.
  intros Fb Bb Ft Fv L B. assert (P : 0 < / 2 ^ 20) by (apply Rinv_0_lt_compat, pow2_pos).
  assert (Pv : 0 < real v). { destruct (Rle_or_lt (real v) 0) as [Q|Q]; [|exact Q]. assert (real beta * real v <= real beta * 0) by (apply Rmult_le_compat_l; lra). lra. }
  assert (E : forall x : val F64, ge 710 x -> Exp m x = infinity) by (intros x [->|(A & C)]; [apply (exp_infinity m G)|now apply (exp_overflow m G)]).
  assert (O : ge 0 (fone : val F64)) by (eapply ge_le; [apply one_ge|lra]).
  unfold go_softplus, go_softplus_deriv. cbv zeta. rewrite (proj2 (le_eq F64 v t Fv Ft) L). split.
  - rewrite E by (apply (mul_ge F64 beta v (real beta) (real v)); [right; split; [exact Fb|lra]|right; split; [exact Fv|lra]|lra..|apply (rep_i 710); lia]).
    rewrite add_inf by exact O. rewrite (log_infinity m G). apply (mul_inf F64 _ (/ 2 ^ 20)); [exact P|]. right. destruct (one_eq F64) as (Fo & Vo).
    destruct (div_in F64 fone beta (/ 2 ^ 20) (2 ^ 20) Fo) as (A & C & _); [lra|rewrite pow2, <- bpow_opp; apply rep_pow; cbn; lia|apply rep_pow2; cbn; lia| |split; [exact A|lra]].
    rewrite Vo. unfold Rdiv. rewrite Rmult_1_l. split; [apply Rinv_le_contravar; lra|]. rewrite <- (Rinv_inv (2 ^ 20)). apply Rinv_le_contravar; lra.
  - rewrite E by (apply (mul_ge F64 v beta (real v) (real beta)); [right; split; [exact Fv|lra]|right; split; [exact Fb|lra]|lra..|apply (rep_i 710); lia]).
    rewrite inf_add by exact O. apply inf_div.
Qed.

Lemma log_softmax_low d (x : dense (val d)) v w : is_vector x = true -> all_finite x -> In v (data x) -> In w (data x) -> real v <= real w - 746 ->
  exists y, log_softmax m d x = Some y /\ In minus_infinity (data y).
Proof.
  intros V F Hv Hw B. destruct (data x) as [|v0 vs] eqn:D; [destruct Hv|]. destruct (softmax_data m d x v0 vs V D) as (s & Es & _ & _ & Ds). cbv zeta in Ds. unfold log_softmax. rewrite Es. cbn [option_map].
  eexists. split; [reflexivity|]. rewrite unary_data, Ds, !map_map. apply in_map_iff. exists v. split; [|exact Hv].
  unfold all_finite in F. rewrite D in F. destruct (inverse_bounds m G d v0 vs F) as (Fi & Bi). set (inv := conv F64 d (conv d F64 _)) in *. destruct (max_finite d vs v0 F) as (Im & Mm). set (mx := max_loop flt v0 vs) in *.
  rewrite Forall_forall in F. pose proof (F v Hv) as Fv. pose proof (F mx Im) as Fm. pose proof (Mm w Hw) as Lw.
  assert (Z : exp_elem m d (fadd v (fneg mx)) = B754_zero false).
  { unfold exp_elem. destruct (shifted d v mx Fv Fm (Mm v Hv)) as (_ & _ & [->|Fs]).
    - change (conv d F64 minus_infinity) with (minus_infinity : val F64). rewrite (exp_minus_infinity m G). reflexivity.
    - assert (L : real (fadd v (fneg mx)) <= -746) by (apply add_le; auto; [now apply neg_finite|rewrite neg_eq; lra|apply (rep_int d (-746)); lia]).
      destruct (conv_up d _ Fs) as (A & C). rewrite (exp_underflow m G) by (auto; lra). reflexivity. }
  rewrite Z. assert (Z2 : exists sg, fmul (B754_zero false) inv = B754_zero sg) by (destruct inv; try discriminate; eexists; reflexivity). destruct Z2 as (sg & ->).
  unfold log_elem. change (conv d F64 (B754_zero sg)) with (B754_zero sg : val F64). rewrite (log_zero m G). reflexivity.
Qed.

(** ** The float32 gradient of LogSoftmax at [0; -100] *)
Definition low : dense (val F32) := mkDense 2 1 [lit 0 0; lit (-100) 0].
Definition pick : dense (val F32) := mkDense 2 1 [lit 0 0; lit 1 0].
Lemma pb n : / 2 ^ n = bpow radix2 (- Z.of_nat n).
Proof. now rewrite pow2, bpow_opp. Qed.
Lemma rep_small n : (n <= 149)%nat -> rep F32 (/ 2 ^ n).
Proof. intros. rewrite pb. apply rep_pow; cbn; lia. Qed.
Lemma exp_100 (x : val F64) : finite x -> real x = -100 -> finite (Exp m x) /\ / 2 ^ 147 <= real (Exp m x) <= / 2 ^ 143.
Proof.
  intros F E. assert (Fe : finite (Exp m x)) by (apply (exp_finite m G); auto; lra). split; [exact Fe|]. pose proof (exp_value m G x F Fe) as V. apply Rabs_le_inv in V. rewrite E in V.
  pose proof (exp_at_most 146 100) as U. pose proof (exp_at_least 144 100) as L. change (Z.of_nat 146) with 146%Z in U. change (Z.of_nat 144) with 144%Z in L. specialize (U ltac:(lra)). specialize (L ltac:(lra)).
  assert (I : exp (-100) = / exp 100) by apply exp_Ropp. rewrite I in V.
  assert (A : / 2 ^ 146 <= / exp 100) by (apply Rinv_le_contravar; [apply exp_pos|exact U]). assert (B : / exp 100 <= / 2 ^ 144) by (apply Rinv_le_contravar; [apply pow2_pos|exact L]).
  assert (H : forall n, / 2 ^ n = 2 * / 2 ^ (S n)) by (intros n; cbn [pow]; field; apply pow_nonzero; lra).
  assert (Q : / exp 100 / 2 ^ 50 <= / exp 100 * / 4).
  { unfold Rdiv. apply Rmult_le_compat_l; [left; apply Rinv_0_lt_compat, exp_pos|]. apply Rinv_le_contravar; [lra|]. replace 4 with (2 ^ 2) by (cbn; lra). apply Rle_pow; [lra|lia]. }
  assert (T : / 2 ^ 1074 <= / 2 ^ 148) by (apply Rinv_le_contravar; [apply pow2_pos|apply Rle_pow; [lra|lia]]).
  assert (P0 : 0 < / 2 ^ 148) by apply Rinv_0_lt_compat, pow2_pos.
  rewrite (H 143%nat), (H 144%nat), (H 145%nat), (H 146%nat), (H 147%nat) in *. set (p := / 2 ^ 148) in *. lra.
Qed.
Lemma int32 k : (Z.abs k < 2 ^ 24)%Z -> finite (lit k 0 : val F32) /\ real (lit k 0 : val F32) = IZR k.
Proof. intros H. apply lit_eq; [cbn; lra|cbn; lia..]. Qed.
Lemma low_softmax : exists y0 y1, softmax m F32 low = Some (mkDense 2 1 [y0; y1]) /\ finite y0 /\ finite y1 /\ / 2 <= real y0 <= 1 /\ / 2 ^ 148 <= real y1 <= / 2 ^ 143.
Proof.
  destruct (softmax_data m F32 low (lit 0 0) [lit (-100) 0] eq_refl eq_refl) as (s & Es & Rs & Cs & Ds). cbv zeta in Ds. destruct s as [r c l]. cbn in Rs, Cs. subst r c.
  assert (MX : max_loop flt (lit 0 0 : val F32) [lit (-100) 0] = lit 0 0) by reflexivity. rewrite MX in Ds. cbn [map fold_left data] in Ds. rewrite conv_back in Ds by exact I.
  destruct (int32 0 ltac:(cbn; lia)) as (F0 & V0). destruct (int32 (-100) ltac:(cbn; lia)) as (Fm & Vm). destruct (shifted_zero F32 (lit 0 0) F0) as (A0 & B0).
  pose proof (exp_elem_zero m G F32 _ A0 B0) as E0. destruct (exp_elem_le m G F32 _ (finite_number _ _ A0)) as (Fe0 & _); [intros; lra|now right|].
  destruct (add_in F32 (lit (-100) 0) (fneg (lit 0 0)) (-100) (-100) Fm (neg_finite _ _ F0)) as (A1 & B1 & _); [apply (rep_int F32 (-100)); cbn; lia..|rewrite neg_eq, Vm, V0; lra|].
  destruct (conv_up F32 _ A1) as (A1' & B1'). destruct (exp_100 _ A1' ltac:(lra)) as (FE & BE).
  destruct (conv_in F64 F32 _ (/ 2 ^ 147) (/ 2 ^ 143) FE (rep_small 147 ltac:(lia)) (rep_small 143 ltac:(lia)) BE) as (Fe1 & Be1 & _). fold (exp_elem m F32 (fadd (lit (-100) 0) (fneg (lit 0 0)))) in Fe1, Be1.
  set (e0 := exp_elem m F32 (fadd (lit 0 0) (fneg (lit 0 0)))) in *. set (e1 := exp_elem m F32 (fadd (lit (-100) 0) (fneg (lit 0 0)))) in *.
  assert (P : 0 < / 2 ^ 147) by apply Rinv_0_lt_compat, pow2_pos. assert (T : / 2 ^ 143 <= / 2 ^ 1) by (apply Rinv_le_contravar; [cbn; lra|apply Rle_pow; [lra|lia]]). cbn [pow] in T.
  destruct (add_in F32 fzero e0 1 1 eq_refl Fe0 (rep_1 _) (rep_1 _)) as (G1 & H1 & _); [change (real (fzero : val F32)) with 0; lra|].
  destruct (add_in F32 (fadd fzero e0) e1 1 2 G1 Fe1 (rep_1 _)) as (G2 & H2 & _); [apply (rep_int F32 2); cbn; lia|lra|].
  destruct (one_eq F32) as (Fo & Vo). assert (R2 : rep F32 (/ 2)) by (replace (/ 2) with (/ 2 ^ 1) by (cbn; lra); apply rep_small; lia).
  destruct (div_in F32 fone (fadd (fadd fzero e0) e1) (/ 2) 1 Fo) as (G3 & H3 & _); [lra|exact R2|apply rep_1| |].
  { rewrite Vo. unfold Rdiv. rewrite Rmult_1_l. split; [apply Rinv_le_contravar; lra|]. rewrite <- Rinv_1. apply Rinv_le_contravar; lra. }
  set (inv := fdiv fone (fadd (fadd fzero e0) e1)) in *.
  destruct (mul_in F32 e0 inv (/ 2) 1 Fe0 G3 R2 (rep_1 _)) as (G4 & H4 & _); [rewrite E0; lra|].
  assert (Hh : / 2 ^ 148 = / 2 ^ 147 * / 2) by (replace 148%nat with (147 + 1)%nat by lia; rewrite pow_add; change (2 ^ 1) with (2 * 1); rewrite Rmult_1_r, Rinv_mult; reflexivity).
  destruct (mul_in F32 e1 inv (/ 2 ^ 148) (/ 2 ^ 143) Fe1 G3) as (G5 & H5 & _); [apply rep_small; lia|apply rep_small; lia| |].
  { rewrite Hh. split; [apply Rmult_le_compat; lra|]. rewrite <- (Rmult_1_r (/ 2 ^ 143)). apply Rmult_le_compat; lra. }
  exists (fmul e0 inv), (fmul e1 inv). rewrite Es, Ds. repeat split; auto; lra.
Qed.
Lemma low_finite : exists y z, softmax m F32 low = Some y /\ log_softmax m F32 low = Some z /\ all_finite z.
Proof.
  destruct low_softmax as (y0 & y1 & E & F0 & F1 & B0 & B1). eexists. eexists. unfold log_softmax. rewrite E. split; [reflexivity|]. split; [reflexivity|].
  unfold all_finite. rewrite unary_data. assert (P : 0 < / 2 ^ 148) by apply Rinv_0_lt_compat, pow2_pos.
  assert (L : forall v : val F32, finite v -> / 2 ^ 148 <= real v <= 1 -> finite (log_elem m F32 v)).
  { intros v Fv Bv. unfold log_elem. destruct (conv_up F32 v Fv) as (A & V). rewrite <- V in Bv. pose proof (log_finite m G _ A ltac:(lra)) as Fl. pose proof (log_value m G _ A ltac:(lra)) as Vl.
    set (r := real (conv F32 F64 v)) in *.
    assert (Q : Rabs (ln r) <= 148).
    { assert (Lr : ln r <= 0) by (rewrite <- ln_1; destruct (Rle_lt_or_eq_dec r 1 (proj2 Bv)) as [H|H]; [left; apply ln_increasing; lra|rewrite H; lra]).
      rewrite Rabs_left1 by exact Lr. rewrite <- ln_Rinv by lra.
      assert (Ri : / r <= 2 ^ 148) by (rewrite <- (Rinv_inv (2 ^ 148)); apply Rinv_le_contravar; lra).
      assert (Pr : 0 < / r) by (apply Rinv_0_lt_compat; lra).
      assert (Ex : 2 ^ 148 <= exp 148) by (apply exp_at_least; change (Z.of_nat 148) with 148%Z; lra). rewrite <- (ln_exp 148). destruct (Rle_lt_or_eq_dec (/ r) (exp 148)) as [H|H]; [lra|left; now apply ln_increasing|rewrite H; lra]. }
    assert (K : Rabs (real (Log m (conv F32 F64 v))) <= 1024).
    { replace (real (Log m (conv F32 F64 v))) with ((real (Log m (conv F32 F64 v)) - ln r) + ln r) by ring. eapply Rle_trans; [apply Rabs_triang|].
      assert (Rabs (ln r) / 2 ^ 50 <= Rabs (ln r)). { unfold Rdiv. rewrite <- (Rmult_1_r (Rabs (ln r))) at 2. apply Rmult_le_compat_l; [apply Rabs_pos|]. rewrite <- Rinv_1. apply Rinv_le_contravar; [lra|]. apply pow_R1_Rle. lra. }
      assert (/ 2 ^ 1074 <= 1) by (rewrite <- Rinv_1; apply Rinv_le_contravar; [lra|apply pow_R1_Rle; lra]). lra. }
    apply Rabs_le_inv in K. destruct (conv_in F64 F32 _ (-1024) 1024 Fl) as (Z & _); [apply (rep_int F32 (-1024)); cbn; lia|apply (rep_int F32 1024); cbn; lia|exact K|exact Z]. }
  assert (T : / 2 ^ 148 <= / 2 ^ 1) by (apply Rinv_le_contravar; [cbn; lra|apply Rle_pow; [lra|lia]]). cbn [pow] in T. assert (T' : / 2 ^ 143 <= / 2 ^ 1) by (apply Rinv_le_contravar; [cbn; lra|apply Rle_pow; [lra|lia]]). cbn [pow] in T'.
  cbn [data map]. constructor; [apply L; auto; lra|]. constructor; [apply L; auto; lra|constructor].
Qed.
Lemma low_gradient : exists y, softmax m F32 low = Some y /\ log_softmax_grad F32 y pick = Some (mkDense 2 1 [minus_infinity; infinity]).
Proof.
  destruct low_softmax as (y0 & y1 & E & F0 & F1 & B0 & B1). eexists. split; [exact E|].
  assert (P148 : 0 < / 2 ^ 148) by apply Rinv_0_lt_compat, pow2_pos. assert (P143 : / 2 ^ 143 <= / 2 ^ 1) by (apply Rinv_le_contravar; [cbn; lra|apply Rle_pow; [lra|lia]]). cbn [pow] in P143.
  destruct (one_eq F64) as (Fo & Vo). destruct (conv_up F32 y0 F0) as (A0 & V0). destruct (conv_up F32 y1 F1) as (A1 & V1).
  set (u0 := conv F32 F64 y0) in *. set (u1 := conv F32 F64 y1) in *. rewrite <- V0 in B0. rewrite <- V1 in B1.
  unfold log_softmax_grad. cbn [data pick log_grads]. fold u0 u1. unfold go_log_deriv.
  assert (L0 : flt fzero u0 = true) by (apply lt_eq; auto; change (real (fzero : val F64)) with 0; lra). assert (L1 : flt fzero u1 = true) by (apply lt_eq; auto; change (real (fzero : val F64)) with 0; lra). rewrite L0, L1.
  (* 1 / y1 is infinite in float32 *)
  assert (I1 : conv F64 F32 (fdiv fone u1) = infinity).
  { destruct (div_in F64 fone u1 (2 ^ 143) (2 ^ 148) Fo) as (A & B & _); [lra|apply rep_pow2; cbn; lia..| |].
    - rewrite Vo. unfold Rdiv. rewrite Rmult_1_l. rewrite <- (Rinv_inv (2 ^ 143)), <- (Rinv_inv (2 ^ 148)). split; apply Rinv_le_contravar; lra.
    - apply conv_over; [exact A|]. eapply Rle_trans; [|exact (proj1 B)]. rewrite limit_eq, pow2. apply bpow_le. cbn. lia. }
  destruct (div_in F64 fone u0 1 2 Fo) as (A2 & B2 & _); [lra|apply rep_1|apply (rep_int F64 2); cbn; lia| |].
  { rewrite Vo. unfold Rdiv. rewrite Rmult_1_l. split; [rewrite <- Rinv_1 at 1; apply Rinv_le_contravar; lra|]. rewrite <- (Rinv_inv 2). apply Rinv_le_contravar; lra. }
  destruct (conv_in F64 F32 _ 1 2 A2 (rep_1 _) (rep_int F32 2 ltac:(cbn; lia)) B2) as (A3 & B3 & _).
  destruct (int32 0 ltac:(cbn; lia)) as (Fz & Vz). destruct (mul_in F32 _ (lit 0 0) 0 0 A3 Fz (rep_0 _) (rep_0 _)) as (A4 & B4 & _); [rewrite Vz; lra|].
  rewrite I1. set (g0 := fmul (conv F64 F32 (fdiv fone u0)) (lit 0 0)) in *. rewrite (inf_mul F32 (lit 1 0) 1) by (first [lra|right; destruct (int32 1 ltac:(cbn; lia)) as (A & ->); split; [exact A|lra]]).
  unfold softmax_grad. cbn [data length rows cols]. unfold softmax_jacobian, mat_mul. cbn -[fmul fadd fsub fneg fone fzero conv infinity]. fold u0 u1.
  (* the entries of the Jacobian *)
  destruct (sub_in F64 fone u0 0 1 Fo A0 (rep_0 _) (rep_1 _)) as (C0 & D0 & _); [lra|]. destruct (mul_in F64 u0 _ 0 1 A0 C0 (rep_0 _) (rep_1 _)) as (C1 & D1 & _); [split; [apply Rmult_le_pos; lra|rewrite <- (Rmult_1_r 1); apply Rmult_le_compat; lra]|].
  destruct (conv_in F64 F32 _ 0 1 C1 (rep_0 _) (rep_1 _) D1) as (J00 & K00 & _). set (j00 := conv F64 F32 (fmul u0 (fsub fone u0))) in *.
  assert (Hh : / 2 ^ 149 = / 2 ^ 148 * / 2) by (replace 149%nat with (148 + 1)%nat by lia; rewrite pow_add; change (2 ^ 1) with (2 * 1); rewrite Rmult_1_r, Rinv_mult; reflexivity).
  assert (R149 : rep F64 (/ 2 ^ 149)) by (rewrite pb; apply rep_pow; cbn; lia). assert (R143 : rep F64 (/ 2 ^ 143)) by (rewrite pb; apply rep_pow; cbn; lia).
  destruct (sub_in F64 fone u1 (/ 2) 1 Fo A1) as (C2 & D2 & _); [apply (rep_pow F64 (-1)); cbn; lia|apply rep_1|lra|].
  destruct (mul_in F64 u1 _ (/ 2 ^ 149) (/ 2 ^ 143) A1 C2 R149 R143) as (C3 & D3 & _); [rewrite Hh; split; [apply Rmult_le_compat; lra|rewrite <- (Rmult_1_r (/ 2 ^ 143)); apply Rmult_le_compat; lra]|].
  destruct (conv_in F64 F32 _ (/ 2 ^ 149) (/ 2 ^ 143) C3 (rep_small 149 ltac:(lia)) (rep_small 143 ltac:(lia)) D3) as (J11 & K11 & _). set (j11 := conv F64 F32 (fmul u1 (fsub fone u1))) in *.
  destruct (mul_in F64 u0 u1 (/ 2 ^ 149) (/ 2 ^ 143) A0 A1 R149 R143) as (C4 & D4 & _); [rewrite Hh; split; [rewrite Rmult_comm; apply Rmult_le_compat; lra|rewrite <- (Rmult_1_l (/ 2 ^ 143)); apply Rmult_le_compat; lra]|].
  destruct (mul_in F64 u1 u0 (/ 2 ^ 149) (/ 2 ^ 143) A1 A0 R149 R143) as (C5 & D5 & _); [rewrite Hh; split; [apply Rmult_le_compat; lra|rewrite <- (Rmult_1_r (/ 2 ^ 143)); apply Rmult_le_compat; lra]|].
  destruct (conv_in F64 F32 (fneg (fmul u0 u1)) (- / 2 ^ 143) (- / 2 ^ 149) (neg_finite _ _ C4)) as (J01 & K01 & _); [apply rep_opp, rep_small; lia..|rewrite neg_eq; lra|].
  destruct (conv_in F64 F32 (fneg (fmul u1 u0)) (- / 2 ^ 143) (- / 2 ^ 149) (neg_finite _ _ C5)) as (J10 & K10 & _); [apply rep_opp, rep_small; lia..|rewrite neg_eq; lra|].
  set (j01 := conv F64 F32 (fneg (fmul u0 u1))) in *. set (j10 := conv F64 F32 (fneg (fmul u1 u0))) in *.
  unfold dot_kernel. cbn [dot_loop].
  assert (Sm : forall j : val F32, finite j -> Rabs (real j) <= 1 -> finite (fadd fzero (fmul j g0))).
  { intros j Fj Bj. destruct (mul_in F32 j g0 0 0 Fj A4 (rep_0 _) (rep_0 _)) as (X & Y & _); [replace (real g0) with 0 by lra; lra|].
    destruct (add_in F32 fzero _ 0 0 eq_refl X (rep_0 _) (rep_0 _)) as (X' & _); [change (real (fzero : val F32)) with 0; lra|exact X']. }
  assert (P149 : 0 < / 2 ^ 149) by (rewrite Hh; lra).
  assert (N : fmul j01 infinity = minus_infinity).
  { assert (Sg : Bsign j01 = true) by (destruct (Bsign j01) eqn:S; [reflexivity|apply sign_nonneg in S; auto; lra]). destruct j01 as [s|s| |s mx e H]; try discriminate; [change (real (B754_zero s : val F32)) with 0 in K01; lra|]. cbn in Sg. subst s. reflexivity. }
  rewrite N. rewrite (mul_inf F32 j11 (/ 2 ^ 149)) by (first [exact P149|right; split; [exact J11|lra]]).
  assert (X0 : finite (fadd fzero (fmul j00 g0))) by (apply Sm; auto; apply Rabs_le; lra). assert (X1 : finite (fadd fzero (fmul j10 g0))) by (apply Sm; auto; apply Rabs_le; lra).
  destruct (fadd fzero (fmul j00 g0)); try discriminate; destruct (fadd fzero (fmul j10 g0)); try discriminate; reflexivity.
Qed.
End M.
