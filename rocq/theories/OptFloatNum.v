(** * Optimizers in floating point: one element *)
From Coq Require Import ZArith Bool Lia List Arith Reals Lra Psatz.
From Flocq Require Import Core BinarySingleNaN Relative.
From Verif Require Import FloatModel FloatSpec FloatProofs NumModel NumSpec NumLemmas AsmFloatSpec AsmFloat OptFloatModel.
Import ListNotations.
Local Open Scope R_scope.

(** ** Operations with a bound *)
Lemma rabs_le x B : Rabs x <= B -> - B <= x <= B.
Proof. apply Rabs_le_inv. Qed.
Lemma le_rabs x B : - B <= x <= B -> Rabs x <= B.
Proof. apply Rabs_le. Qed.
Section Ops.
Context {d : dtype}.
Implicit Types x y : val d.
Definition near_to (v r : R) : Prop := Rabs (v - r) <= u d * Rabs r + half_tiny d.
Lemma mul_op x y B : finite x -> finite y -> rep d B -> Rabs (real x * real y) <= B ->
  finite (fmul x y) /\ Rabs (real (fmul x y)) <= B /\ near_to (real (fmul x y)) (real x * real y).
Proof.
  intros Fx Fy R H. destruct (mul_in d x y (- B) B Fx Fy (rep_opp d B R) R (rabs_le _ _ H)) as (F & Q & E).
  split; [exact F|]. split; [now apply le_rabs|]. unfold near_to. rewrite E. apply round_error.
Qed.
Lemma add_op x y B : finite x -> finite y -> rep d B -> Rabs (real x + real y) <= B ->
  finite (fadd x y) /\ Rabs (real (fadd x y)) <= B /\ Rabs (real (fadd x y) - (real x + real y)) <= u d * Rabs (real x + real y).
Proof.
  intros Fx Fy R H. destruct (add_in d x y (- B) B Fx Fy (rep_opp d B R) R (rabs_le _ _ H)) as (F & Q & E).
  split; [exact F|]. split; [now apply le_rabs|]. rewrite E. apply plus_error_rel.
Qed.
Lemma div_op x y B : finite x -> real y <> 0 -> rep d B -> Rabs (real x / real y) <= B ->
  finite (fdiv x y) /\ Rabs (real (fdiv x y)) <= B /\ near_to (real (fdiv x y)) (real x / real y).
Proof.
  intros Fx Fy R H. destruct (div_in d x y (- B) B Fx Fy (rep_opp d B R) R (rabs_le _ _ H)) as (F & Q & E).
  split; [exact F|]. split; [now apply le_rabs|]. unfold near_to. rewrite E. apply round_error.
Qed.
Lemma sub_op x y B : finite x -> finite y -> rep d B -> Rabs (real x - real y) <= B ->
  finite (fsub x y) /\ Rabs (real (fsub x y)) <= B /\ Rabs (real (fsub x y) - (real x - real y)) <= u d * Rabs (real x - real y) /\
  real (fsub x y) = nearest d (real x - real y).
Proof.
  intros Fx Fy R H. destruct (sub_in d x y (- B) B Fx Fy (rep_opp d B R) R (rabs_le _ _ H)) as (F & Q & E).
  split; [exact F|]. split; [now apply le_rabs|]. split; [|exact E]. rewrite E. pose proof (plus_error_rel d x (fneg y)) as P. rewrite neg_eq in P.
  replace (real x - real y) with (real x + - real y) by ring. exact P.
Qed.
Lemma conv_op (x : val F64) B : finite x -> rep d B -> Rabs (real x) <= B ->
  finite (conv F64 d x) /\ Rabs (real (conv F64 d x)) <= B /\ near_to (real (conv F64 d x)) (real x).
Proof.
  intros Fx R H. destruct (conv_in F64 d x (- B) B Fx (rep_opp d B R) R (rabs_le _ _ H)) as (F & Q & E).
  split; [exact F|]. split; [now apply le_rabs|]. unfold near_to. rewrite E. apply round_error.
Qed.
(** what an operation gives lies within a relative and an absolute error *)
Lemma near_le v r : near_to v r -> Rabs v <= (1 + u d) * Rabs r + half_tiny d.
Proof. unfold near_to. intros H. pose proof (Rabs_triang (v - r) r) as T. replace (v - r + r) with v in T by ring. lra. Qed.
Lemma near_ge v r : near_to v r -> 0 <= r -> (1 - u d) * r - half_tiny d <= v.
Proof. unfold near_to. intros H P. rewrite (Rabs_right r) in H by lra. apply rabs_le in H. lra. Qed.
End Ops.
Arguments near_to d v r : clear implicits.

(** the constants *)
Lemma u_small d : 0 < u d <= / 2 ^ 24.
Proof. split; [apply u_pos|]. destruct d; [right; reflexivity|]. unfold u. apply Rinv_le_contravar; [apply pow_lt; lra|]. apply Rle_pow; [lra|lia]. Qed.
Lemma tiny_small d : 0 < half_tiny d <= / 2 ^ 150.
Proof. split; [apply half_tiny_pos|]. destruct d; [right; reflexivity|]. unfold half_tiny. apply Rinv_le_contravar; [apply pow_lt; lra|]. apply Rle_pow; [lra|lia]. Qed.

(** the square root *)
Lemma sqrt64_spec (x : val F64) : finite x -> 0 <= real x -> finite (sqrt64 x) /\ real (sqrt64 x) = nearest F64 (sqrt (real x)).
Proof.
  intros F P. unfold finite, real, sqrt64 in *. pose proof (@Bsqrt_correct (prec F64) (emax F64) (prec_pos F64) (prec_emax F64) mode_NE x) as (V & Fs & _).
  rewrite <- nearest_eq in V. split; [|exact V]. rewrite Fs. destruct x as [s|s| |[] m e H]; try reflexivity; try discriminate. exfalso.
  cbn in P. pose proof (F2R_lt_0 radix2 (Float radix2 (Zneg m) e) eq_refl). cbn in H0. lra.
Qed.
Lemma sqrt_le_1_plus r : 0 <= r -> sqrt r <= 1 + r.
Proof. intros H. pose proof (sqrt_pos r). pose proof (sqrt_sqrt r H). nra. Qed.
Lemma nearest_0 d : nearest d 0 = 0. Proof. apply rep_0. Qed.
Lemma nearest_pos d r : 0 <= r -> 0 <= nearest d r.
Proof. intros H. rewrite <- (nearest_0 d). now apply nearest_le. Qed.
Lemma sqrt_op d (m : val d) B : finite m -> 0 <= real m <= B * B -> 0 <= B -> rep d B -> rep F64 B ->
  finite (elem_sqrt d m) /\ 0 <= real (elem_sqrt d m) <= B /\ (1 - 2 * u d) * sqrt (real m) - 2 * half_tiny d <= real (elem_sqrt d m).
Proof.
  intros F (P & L) HB R R64. unfold elem_sqrt. destruct (conv_up d m F) as (F1 & E1).
  destruct (sqrt64_spec (conv d F64 m) F1) as (F2 & E2); [rewrite E1; exact P|]. rewrite E1 in E2.
  assert (SB : 0 <= sqrt (real m) <= B). { split; [apply sqrt_pos|]. rewrite <- (sqrt_square B HB). apply sqrt_le_1_alt, L. }
  assert (S2 : 0 <= real (sqrt64 (conv d F64 m)) <= B). { rewrite E2. destruct (between F64 0 _ B (rep_0 F64) R64 SB) as (_ & Q). exact Q. }
  destruct (conv_in F64 d _ 0 B F2 (rep_0 d) R S2) as (F3 & Q3 & E3). split; [exact F3|]. split; [exact Q3|]. rewrite E3, E2.
  pose proof (round_error F64 (sqrt (real m))) as A. pose proof (round_error d (nearest F64 (sqrt (real m)))) as C.
  rewrite <- E2 in *. set (s1 := real (sqrt64 (conv d F64 m))) in *. clearbody s1. set (s := sqrt (real m)) in *. clearbody s.
  rewrite (Rabs_right s) in A by lra. rewrite (Rabs_right s1) in C by lra. apply rabs_le in A, C.
  assert (U : 0 < u F64 <= u d) by (split; [apply u_pos|]; destruct d; [|lra]; unfold u; apply Rinv_le_contravar; [apply pow_lt; lra|apply Rle_pow; [lra|lia]]).
  assert (T : 0 < half_tiny F64 <= half_tiny d) by (split; [apply half_tiny_pos|]; destruct d; [|lra]; unfold half_tiny; apply Rinv_le_contravar; [apply pow_lt; lra|apply Rle_pow; [lra|lia]]).
  assert (U1 : u d <= / 2 ^ 24) by apply u_small. set (ud := u d) in *. set (u6 := u F64) in *. set (td := half_tiny d) in *. set (t6 := half_tiny F64) in *. clearbody ud u6 td t6.
  assert (U2 : ud <= / 2) by lra. clear U1.
  assert (s1 >= (1 - ud) * s - td) by nra. assert (nearest d s1 >= (1 - ud) * s1 - td) by lra. clear A C. nra.
Qed.

(** ** The bound on the quotient of the averages *)
Lemma cauchy K b1 c1 b2 c2 k r g : 0 <= K -> 0 <= b1 -> 0 <= c1 -> 0 < b2 -> 0 < c2 -> 0 <= r -> 0 <= g ->
  b1 ^ 2 * K ^ 2 * c2 + c1 ^ 2 * b2 <= k * (K ^ 2 * b2 * c2) -> (b1 * (K * r) + c1 * g) ^ 2 <= k * K ^ 2 * (b2 * r ^ 2 + c2 * g ^ 2).
Proof.
  intros HK H1 H2 H3 H4 Hr Hg H.
  (* (b1 K r + c1 g)^2 b2 c2 <= (b1^2 K^2 c2 + c1^2 b2) (b2 r^2 + c2 g^2) *)
  assert (E : (b1 * (K * r) + c1 * g) ^ 2 * (b2 * c2) <= (b1 ^ 2 * K ^ 2 * c2 + c1 ^ 2 * b2) * (b2 * r ^ 2 + c2 * g ^ 2)).
  { assert (X : 0 <= (b1 * K * c2 * g - c1 * b2 * r) ^ 2) by apply pow2_ge_0.
    replace ((b1 ^ 2 * K ^ 2 * c2 + c1 ^ 2 * b2) * (b2 * r ^ 2 + c2 * g ^ 2)) with ((b1 * (K * r) + c1 * g) ^ 2 * (b2 * c2) + (b1 * K * c2 * g - c1 * b2 * r) ^ 2) by ring. lra. }
  assert (P : 0 < b2 * c2) by (apply Rmult_lt_0_compat; assumption).
  assert (A : 0 <= b2 * r ^ 2 + c2 * g ^ 2). { pose proof (pow2_ge_0 r). pose proof (pow2_ge_0 g). nra. }
  apply Rmult_le_reg_r with (b2 * c2); [exact P|]. eapply Rle_trans; [exact E|].
  replace (k * K ^ 2 * (b2 * r ^ 2 + c2 * g ^ 2) * (b2 * c2)) with (k * (K ^ 2 * b2 * c2) * (b2 * r ^ 2 + c2 * g ^ 2)) by ring.
  apply Rmult_le_compat_r; assumption.
Qed.
Lemma sqrt_plus a b : 0 <= a -> 0 <= b -> sqrt (a + b) <= sqrt a + sqrt b.
Proof.
  intros Ha Hb. pose proof (sqrt_pos a). pose proof (sqrt_pos b). rewrite <- (sqrt_square (sqrt a + sqrt b)) by lra. apply sqrt_le_1_alt.
  pose proof (sqrt_sqrt a Ha). pose proof (sqrt_sqrt b Hb). nra.
Qed.
(** U is u, h is half_tiny, s bounds sqrt (3 h), w is the absolute error of the first average divided by K *)
Lemma quotient_step U h s w K b1 c1 b2 c2 v m g v' m' : 0 < U <= / 2 ^ 24 -> 0 < h -> 3 * h <= s * s -> 0 <= s -> 3 * h <= s -> 2 ^ 14 * s <= w ->
  1 <= K -> 0 <= b1 -> (1 + U) ^ 2 * b1 <= 1 - / 2 ^ 12 -> 0 <= c1 -> 0 < b2 -> 0 < c2 <= 1 ->
  b1 ^ 2 * K ^ 2 * c2 + c1 ^ 2 * b2 <= (1 - / 2 ^ 17) * (K ^ 2 * b2 * c2) ->
  0 <= m -> 0 <= m' -> Rabs v <= K * sqrt m + K * w ->
  Rabs v' <= (1 + U) ^ 2 * (b1 * Rabs v + c1 * Rabs g) + 3 * h -> (1 - U) ^ 3 * (b2 * m + c2 * g ^ 2) - 3 * h <= m' ->
  Rabs v' <= K * sqrt m' + K * w.
Proof.
  intros HU Hh H3 Hs H3s Hw HK Hb1 Hb1' Hc1 Hb2 Hc2 HC Hm Hm' HV HV' HM'.
  set (r := sqrt m) in *. assert (Hr : 0 <= r) by apply sqrt_pos. assert (Er : r ^ 2 = m) by (unfold r; apply pow2_sqrt; exact Hm).
  set (A := b2 * m + c2 * g ^ 2) in *.
  assert (HA : 0 <= A). { unfold A. pose proof (pow2_ge_0 g). nra. }
  pose proof (Rabs_pos g) as Pg. pose proof (Rabs_pos v) as Pv.
  pose proof (cauchy K b1 c1 b2 c2 (1 - / 2 ^ 17) r (Rabs g) ltac:(lra) Hb1 Hc1 Hb2 (proj1 Hc2) Hr Pg HC) as C.
  rewrite Er, pow2_abs in C. fold A in C.
  set (X := b1 * (K * r) + c1 * Rabs g) in *. assert (HX : 0 <= X). { unfold X. apply Rplus_le_le_0_compat; apply Rmult_le_pos; auto. apply Rmult_le_pos; lra. }
  (* (1+U)^2 X <= K sqrt (m' + 3h) *)
  assert (S1 : (1 + U) ^ 2 * X <= K * sqrt (m' + 3 * h)).
  { rewrite <- (sqrt_square K) by lra. rewrite <- sqrt_mult_alt by (apply Rmult_le_pos; lra).
    rewrite <- (sqrt_square ((1 + U) ^ 2 * X)) by (apply Rmult_le_pos; [apply pow2_ge_0|exact HX]). apply sqrt_le_1_alt.
    replace ((1 + U) ^ 2 * X * ((1 + U) ^ 2 * X)) with ((1 + U) ^ 4 * X ^ 2) by ring.
    apply Rle_trans with ((1 + U) ^ 4 * ((1 - / 2 ^ 17) * K ^ 2 * A)); [apply Rmult_le_compat_l; [|exact C]; apply pow_le; lra|].
    apply Rle_trans with (K * K * ((1 - U) ^ 3 * A)); [|apply Rmult_le_compat_l; [apply Rmult_le_pos; lra|lra]].
    assert (Q : (1 + U) ^ 4 * (1 - / 2 ^ 17) <= (1 - U) ^ 3).
    { assert (Z1 : (1 + U) ^ 4 <= 1 + 5 * U). { assert (U <= / 1000) by lra. assert (0 <= U) by lra. clear - H H0. nra. }
      assert (Z2 : 1 - 3 * U <= (1 - U) ^ 3). { assert (U <= / 1000) by lra. assert (0 <= U) by lra. clear - H H0. nra. }
      apply Rle_trans with ((1 + 5 * U) * (1 - / 2 ^ 17)); [apply Rmult_le_compat_r; lra|]. lra. }
    replace ((1 + U) ^ 4 * ((1 - / 2 ^ 17) * K ^ 2 * A)) with ((1 + U) ^ 4 * (1 - / 2 ^ 17) * (K ^ 2 * A)) by ring.
    replace (K * K * ((1 - U) ^ 3 * A)) with ((1 - U) ^ 3 * (K ^ 2 * A)) by ring.
    apply Rmult_le_compat_r; [apply Rmult_le_pos; [apply pow2_ge_0|exact HA]|exact Q]. }
  assert (S2 : sqrt (m' + 3 * h) <= sqrt m' + s).
  { eapply Rle_trans; [apply sqrt_plus; lra|]. apply Rplus_le_compat_l. rewrite <- (sqrt_square s Hs). apply sqrt_le_1_alt, H3. }
  assert (S3 : (1 + U) ^ 2 * (b1 * Rabs v + c1 * Rabs g) <= (1 + U) ^ 2 * X + (1 - / 2 ^ 12) * (K * w)).
  { apply Rle_trans with ((1 + U) ^ 2 * (X + b1 * (K * w))).
    - apply Rmult_le_compat_l; [apply pow2_ge_0|]. unfold X. assert (b1 * Rabs v <= b1 * (K * r + K * w)) by (apply Rmult_le_compat_l; assumption). lra.
    - rewrite Rmult_plus_distr_l. apply Rplus_le_compat_l. rewrite <- Rmult_assoc. apply Rmult_le_compat_r; [|exact Hb1']. apply Rmult_le_pos; lra. }
  assert (S4 : K * sqrt (m' + 3 * h) <= K * sqrt m' + K * s). { rewrite <- Rmult_plus_distr_l. apply Rmult_le_compat_l; lra. }
  assert (S5 : K * s + 3 * h <= / 2 ^ 12 * (K * w)).
  { assert (s <= K * s) by nra. assert (K * (2 ^ 14 * s) <= K * w) by (apply Rmult_le_compat_l; lra). lra. }
  lra.
Qed.
