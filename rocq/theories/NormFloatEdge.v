(** * Vanishing and overflowing squares *)
From Coq Require Import ZArith Bool Lia List Arith Reals Lra Psatz Permutation.
From Flocq Require Import Core BinarySingleNaN.
From Verif Require Import FloatModel FloatSpec NumModel NumSpec FloatProofs NumLemmas AsmFloatSpec AsmFloat AsmFloat2 AsmModel AsmCalls AsmSpec OptFloatModel OptFloatNum NormFloatModel NormFloatSpec NormFloatNum NormFloatProofs NormFloatProofs2 NormFloatBack.
Import ListNotations.
Local Open Scope R_scope.

(** ** math.Pow(x, -0.5) as Go computes it *)
Definition go_root (x : val F64) : val F64 := match x with B754_zero _ => B754_infinity false | _ => fdiv fone (sqrt64 x) end.
Definition root_libm : libm := mkLibm (fun x => x) (fun x => x) (fun x => x) (fun x => x) (fun x _ => go_root x).
Lemma go_root_ok : inverse_root root_libm.
Proof.
  split; [reflexivity|]. intros x F P. change (B2R x) with (real x) in *. change (finite x) in F. change (Pow root_libm x (lit (-1) (-1))) with (go_root x).
  assert (E : go_root x = fdiv fone (sqrt64 x)) by (destruct x; try reflexivity; cbn in P; lra). rewrite E. destruct (sqrt64_spec x F ltac:(lra)) as (Fs & Es). destruct (one_eq F64) as (F1 & E1).
  pose proof (smallest F64 x F P) as Sm. assert (Hi : real x <= 2 ^ 1024). { pose proof (abs_B2R_lt_emax (prec F64) (emax F64) x) as A. change (B2R x) with (real x) in A. rewrite Rabs_right in A by lra. rewrite pow2. change (Z.of_nat 1024) with (emax F64). lra. }
  set (q := sqrt (real x)) in *. assert (Pq : 0 < q) by now apply sqrt_lt_R0. assert (T : 2 * half_tiny F64 = / 2 ^ 537 * / 2 ^ 537). { unfold half_tiny. rewrite <- Rinv_mult, <- pow_add. change (537 + 537)%nat with 1074%nat. change (2 ^ 1075) with (2 * 2 ^ 1074). rewrite Rinv_mult, <- Rmult_assoc, Rinv_r, Rmult_1_l by lra. reflexivity. }
  assert (Q1 : / 2 ^ 537 <= q). { unfold q. rewrite <- (sqrt_square (/ 2 ^ 537)) by (left; apply Rinv_0_lt_compat, pow_lt; lra). apply sqrt_le_1_alt. lra. }
  assert (Q2 : q <= 2 ^ 512). { unfold q. rewrite <- (sqrt_square (2 ^ 512)) by (apply pow_le; lra). apply sqrt_le_1_alt. rewrite <- pow_add. exact Hi. }
  pose proof (round_error F64 q) as Nq. rewrite <- Es in Nq. pose proof (u_small F64) as (U0 & U1). pose proof (half_tiny_pos F64) as Hh.
  assert (Hq : half_tiny F64 <= u F64 * / 2 ^ 537). { unfold half_tiny, u. rewrite <- Rinv_mult, <- pow_add. apply Rinv_le_contravar; [apply pow_lt; lra|apply Rle_pow; [lra|lia]]. }
  apply near_rel in Nq; [|rewrite Rabs_right by lra; assert (u F64 * / 2 ^ 537 <= u F64 * q) by (apply Rmult_le_compat_l; lra); lra]. set (w := real (sqrt64 x)) in *.
  destruct (rel_inv (2 * u F64) w q ltac:(lra) ltac:(lra) Nq) as (W0 & Ri). assert (Nw := Nq). unfold rel in Nw. rewrite (Rabs_right q) in Nw by lra. apply rabs_le in Nw. assert (2 * u F64 * q <= 0.01 * q) by (apply Rmult_le_compat_r; lra).
  assert (Iw : 0 < / w <= 2 ^ 538). { split; [apply Rinv_0_lt_compat; lra|]. rewrite <- (Rinv_inv (2 ^ 538)). apply Rinv_le_contravar; [apply Rinv_0_lt_compat, pow_lt; lra|]. replace (/ 2 ^ 538) with (/ 2 * / 2 ^ 537) by (change (2 ^ 538) with (2 * 2 ^ 537); rewrite Rinv_mult; reflexivity). lra. }
  destruct (div_op fone (sqrt64 x) (2 ^ 538) F1 ltac:(fold w; lra) (rep_pow2 F64 538 ltac:(cbn; lia))) as (Fd & _ & Nd). { rewrite E1. fold w. unfold Rdiv. rewrite Rmult_1_l, Rabs_right by lra. lra. }
  split; [exact Fd|]. rewrite E1 in Nd. fold w in Nd. unfold Rdiv in Nd. rewrite Rmult_1_l in Nd.
  assert (Lw : / 2 ^ 513 <= / w). { apply Rinv_le_contravar; [lra|]. change (2 ^ 513) with (2 * 2 ^ 512). lra. }
  assert (H5 : half_tiny F64 <= u F64 * / 2 ^ 513). { unfold half_tiny, u. rewrite <- Rinv_mult, <- pow_add. apply Rinv_le_contravar; [apply pow_lt; lra|apply Rle_pow; [lra|lia]]. }
  apply near_rel in Nd; [|rewrite Rabs_right by lra; assert (u F64 * / 2 ^ 513 <= u F64 * / w) by (apply Rmult_le_compat_l; lra); lra].
  set (v := real (fdiv fone (sqrt64 x))) in *. change (B2R (fdiv fone (sqrt64 x))) with v. assert (UU : u F64 * u F64 <= u F64 * 0.0001) by (apply Rmult_le_compat_l; lra). apply (rel_le _ (2.01 * u F64)) in Ri; [|lra].
  assert (RR : rel (2 * u F64 + 2.01 * u F64 + 2 * u F64 * (2.01 * u F64)) v (/ q)) by (eapply rel_trans; [|exact Nd|exact Ri]; lra). apply (rel_le _ (5 * u F64)) in RR; [|lra]. unfold rel in RR. rewrite (Rabs_right (/ q)) in RR by (left; now apply Rinv_0_lt_compat).
  replace (v * q - 1) with ((v - / q) * q) by (field; lra). rewrite Rabs_mult, (Rabs_right q) by lra. apply (Rmult_le_compat_r q) in RR; [|lra]. rewrite (Rmult_assoc _ (/ q) q), Rinv_l, Rmult_1_r in RR by lra. eapply Rle_trans; [exact RR|]. unfold u. lra.
Qed.

(** ** Sums of zeros *)
Definition is_zero {d} (v : val d) : Prop := finite v /\ real v = 0.
Lemma is_zero_eq {d} (v : val d) : is_zero v -> exists s, v = B754_zero s.
Proof. intros (F & R). destruct v as [s|s| |s mm e B]; try discriminate; [eauto|]. exfalso. unfold real, B2R in R. apply eq_0_F2R in R. now destruct s. Qed.
Lemma zero_sum {d} (v : val d) l : sum_of (floats d) v l -> Forall is_zero l -> is_zero v.
Proof.
  induction 1 as [|x|a b l k mm Ha IHa Hb IHb P]; intros Z.
  - split; reflexivity.
  - now inversion Z.
  - assert (Z' : Forall is_zero (l ++ k)) by (eapply Permutation_Forall; [apply Permutation_sym; exact P|exact Z]). apply Forall_app in Z' as (Zl & Zk). destruct (IHa Zl) as (Fa & Ea), (IHb Zk) as (Fb & Eb).
    change (bin (floats d) Add a b) with (fadd a b). destruct (add_in d a b 0 0 Fa Fb (rep_0 d) (rep_0 d) ltac:(lra)) as (F & B & _). split; [exact F|lra].
Qed.
Lemma zero_mul {d} (a b : val d) : is_zero a -> finite b -> is_zero (fmul a b).
Proof. intros (Fa & Ea) Fb. destruct (mul_in d a b 0 0 Fa Fb (rep_0 d) (rep_0 d)) as (F & B & _); [rewrite Ea; lra|]. split; [exact F|lra]. Qed.
Lemma tiny_square d (v : val d) : finite v -> Rabs (real v) <= invisible d -> is_zero (fmul v v).
Proof.
  intros F H. assert (I0 : 0 < invisible d) by (unfold invisible; destruct d; apply Rinv_0_lt_compat, pow_lt; lra). pose proof (half_tiny_pos d) as Hh. pose proof (u_small d) as (U0 & U1).
  assert (V : 0 <= real v * real v <= invisible d * invisible d). { split; [apply Rle_0_sqr|]. rewrite <- (Rabs_right (real v * real v)) by (apply Rle_ge, Rle_0_sqr). rewrite Rabs_mult. apply Rmult_le_compat; auto; apply Rabs_pos. }
  assert (I2 : invisible d * invisible d <= half_tiny d / 2). { unfold invisible, half_tiny. destruct d; rewrite <- Rinv_mult, <- pow_add; [cbn [Nat.add]; lra|]. change (538 + 538)%nat with 1076%nat. change (2 ^ 1076) with (2 * 2 ^ 1075). rewrite Rinv_mult. lra. }
  assert (B1 : 0 <= real v * real v <= 1) by (pose proof (tiny_small d); lra). destruct (mul_in d v v 0 1 F F (rep_0 d) (rep_1 d) B1) as (Fq & Rq & Eq). split; [exact Fq|].
  pose proof (round_error d (real v * real v)) as N. rewrite <- Eq, (Rabs_right (real v * real v)) in N by lra. apply rabs_le in N. destruct (Req_dec (real (fmul v v)) 0) as [|Ne]; [assumption|]. exfalso. pose proof (smallest d (fmul v v) Fq ltac:(lra)) as Sm.
  assert (u d * (real v * real v) <= 0.1 * (real v * real v)) by (apply Rmult_le_compat_r; lra). lra.
Qed.
Lemma tiny_squares d (x : list (val d)) : sized (invisible d) x -> Forall is_zero (square d x).
Proof. intros H. unfold square. rewrite zip_same. induction H as [|v x (F & B) H IH]; constructor; auto. now apply tiny_square. Qed.
Lemma square_length d (x : list (val d)) : length (square d x) = length x.
Proof. unfold square. now rewrite zip_same, map_length. Qed.
Lemma mean_zero d sum k (l : list (val d)) : adds_all sum -> few d (length l) -> (0 < length l)%nat -> Forall is_zero l -> is_zero (reduce_mean d sum k l).
Proof. intros A Hn Hp Z. unfold reduce_mean. apply zero_mul; [exact (zero_sum _ _ (A k l) Z)|apply (inverse_size d _ Hn Hp)]. Qed.

(** ** Values that are not finite are passed on *)
Lemma conv_finite_back S D (v : val S) : finite (conv S D v) -> finite v.
Proof. unfold finite, conv. destruct v; cbn; auto. Qed.
Lemma div_finite_back (a b : val F64) : finite b -> finite (fdiv a b) -> finite a.
Proof. unfold finite, fdiv. intros Hb H. destruct a, b; cbn in *; auto; discriminate. Qed.
Lemma zero_root m d (s gy : val d) : inverse_root m -> is_zero s -> ~ finite (sqrt_back m d s gy).
Proof.
  intros Hm Z F. destruct (is_zero_eq s Z) as (sg & ->). unfold sqrt_back in F. apply mul_back in F as (F & _). apply mul_back in F as (F & _). apply conv_finite_back in F.
  change (conv d F64 (B754_zero sg)) with (B754_zero sg : val F64) in F. rewrite (root_zero m Hm) in F. discriminate.
Qed.
Lemma zip_not {d} (a b : list (val d)) : length a = length b -> Forall (fun v => ~ finite v) b -> Forall (fun v => ~ finite v) (zip fadd a b).
Proof.
  revert b. induction a as [|v a IH]; intros [|w b] L H; cbn in L; try lia; [constructor|]. inversion H; subst. cbn [zip]. constructor; [|apply IH; [lia|assumption]]. intros F. apply add_back in F as (_ & F & _). auto.
Qed.
Lemma map_not {d} (x : list (val d)) gs : ~ finite gs -> Forall (fun v => ~ finite v) (map (fun v => fmul v gs) x).
Proof. intros H. induction x as [|v x IH]; constructor; auto. intros F. apply mul_back in F as (_ & F & _). auto. Qed.
Lemma of_size_finite d n : few d n -> finite (of_size n).
Proof. intros H. apply (of_size_eq d n H). Qed.
Lemma zip_len {A B C} (f : A -> B -> C) x y : length x = length y -> length (zip f x y) = length x.
Proof. revert y. induction x as [|a x IH]; intros [|b y] H; cbn in *; try lia. rewrite IH; lia. Qed.

Lemma fix_no_gradient m d sum (x gy : list (val d)) : inverse_root m -> adds_all sum -> sized (invisible d) x -> length x = length gy -> Forall (fun g => ~ finite g) (fix_norm_back m d sum x gy).
Proof.
  intros Hm A H L. unfold fix_norm_back. set (gs := reduce_sum_back d _). assert (N : ~ finite gs).
  { unfold gs, reduce_sum_back. intros F. apply conv_finite_back in F. apply conv_finite_back in F. revert F. apply zero_root; [exact Hm|]. exact (zero_sum _ _ (A 0%nat _) (tiny_squares d x H)). }
  apply zip_not; [|now apply map_not]. rewrite zip_len; unfold div_scalar_back; rewrite !map_length; congruence.
Qed.
Lemma rms_no_gradient m d sum (x gy : list (val d)) : inverse_root m -> adds_all sum -> few d (length x) -> sized (invisible d) x -> length x = length gy -> Forall (fun g => ~ finite g) (rms_unit_back m d sum x gy).
Proof.
  intros Hm A Hn H L. destruct x as [|v x]; [destruct gy; [constructor|discriminate]|]. set (xx := v :: x) in *. unfold rms_unit_back. set (gs := reduce_mean_back d _ _). assert (N : ~ finite gs).
  { unfold gs, reduce_mean_back. intros F. apply conv_finite_back in F. apply div_finite_back in F; [|now apply (of_size_finite d)]. apply conv_finite_back in F. revert F. apply zero_root; [exact Hm|]. apply mean_zero; [exact A|rewrite square_length; exact Hn|rewrite square_length; cbn; lia|now apply tiny_squares]. }
  apply zip_not; [|now apply map_not]. rewrite zip_len; unfold div_scalar_back; rewrite !map_length; congruence.
Qed.
(** LayerNormSimple and AdaNorm, if the variance is zero *)
Lemma simple_no_gradient m d sum (x gy : list (val d)) : inverse_root m -> few d (length x) -> is_zero (variance d sum x) -> length x = length gy -> Forall (fun g => ~ finite g) (simple_norm_back m d sum x gy).
Proof.
  intros Hm Hn Z L. unfold simple_norm_back. set (gs := reduce_mean_back d (length x) (sqrt_back _ _ _ _)). assert (N : ~ finite gs).
  { unfold gs, reduce_mean_back. intros F. apply conv_finite_back in F. apply div_finite_back in F; [|now apply (of_size_finite d)]. apply conv_finite_back in F. revert F. now apply zero_root. }
  set (gm := reduce_mean_back d (length x) (fadd _ _)). clearbody gm. set (gq := map (fun v => fmul v gs) (deviations d sum x)). assert (Q : Forall (fun v => ~ finite v) (zip fadd gq gq)) by (apply zip_not; [reflexivity|now apply map_not]).
  assert (Q2 : Forall (fun v => ~ finite v) (zip fadd (div_scalar_back d gy (simple_divisor d sum x)) (zip fadd gq gq))). { apply zip_not; [|exact Q]. rewrite zip_len by reflexivity. unfold gq, div_scalar_back, deviations, sub_scalar. rewrite !map_length. congruence. }
  apply Forall_map. eapply Forall_impl; [|exact Q2]. cbn beta. intros g Hg F. apply add_back in F as (F & _). auto.
Qed.
(** the variance of a vector of zeros, and of a vector with one element *)
Lemma opp_conv d (v : val d) : finite v -> finite (conv F64 d (fneg (conv d F64 v))) /\ real (conv F64 d (fneg (conv d F64 v))) = - real v.
Proof.
  intros F. destruct (conv_up d v F) as (Fu & Eu). assert (Fn : finite (fneg (conv d F64 v))) by (unfold finite, fneg in *; now rewrite is_finite_Bopp). assert (En : real (fneg (conv d F64 v)) = - real v) by (rewrite neg_eq; lra).
  pose proof (rep_opp d _ (rep_real d v F)) as R. destruct (conv_in F64 d _ (- real v) (- real v) Fn R R ltac:(lra)) as (F' & B & _). split; [exact F'|lra].
Qed.
Lemma dev_zero d (v mean : val d) : finite v -> finite mean -> real mean = real v -> is_zero (fadd v (conv F64 d (fneg (conv d F64 mean)))).
Proof. intros Fv Fm E. destruct (opp_conv d mean Fm) as (Fo & Eo). destruct (add_in d v _ 0 0 Fv Fo (rep_0 d) (rep_0 d)) as (F & B & _); [lra|]. split; [exact F|lra]. Qed.
Lemma zero_variance d sum (x : list (val d)) : adds_all sum -> few d (length x) -> (0 < length x)%nat -> Forall is_zero (deviations d sum x) -> is_zero (variance d sum x).
Proof.
  intros A Hn Hp Z. assert (L : length (deviations d sum x) = length x) by apply map_length. unfold variance. apply mean_zero; [exact A|rewrite square_length, L; exact Hn|rewrite square_length, L; exact Hp|].
  unfold square. rewrite zip_same. apply Forall_map. eapply Forall_impl; [|exact Z]. cbn beta. intros v Hv. apply zero_mul; [exact Hv|apply Hv].
Qed.
Lemma variance_zeros d sum (x : list (val d)) : adds_all sum -> few d (length x) -> (0 < length x)%nat -> Forall is_zero x -> is_zero (variance d sum x).
Proof.
  intros A Hn Hp Z. apply zero_variance; auto. destruct (mean_zero d sum 0 x A Hn Hp Z) as (Fm & Em). unfold deviations, sub_scalar. apply Forall_map. eapply Forall_impl; [|exact Z]. cbn beta. intros v (Fv & Ev). apply dev_zero; [exact Fv|exact Fm|congruence].
Qed.
Lemma one_size d : finite (conv F64 d (fdiv fone (of_size 1))) /\ real (conv F64 d (fdiv fone (of_size 1))) = 1.
Proof.
  assert (E : of_size 1 = (fone : val F64)) by reflexivity. rewrite E. destruct (one_eq F64) as (F1 & E1). destruct (div_in F64 fone fone 1 1 F1 ltac:(rewrite E1; lra) (rep_1 _) (rep_1 _)) as (F2 & B2 & _); [rewrite E1; lra|]. destruct (conv_in F64 d _ 1 1 F2 (rep_1 d) (rep_1 d) B2) as (F3 & B3 & _). split; [exact F3|lra].
Qed.
Lemma sum_single d (s v : val d) : sum_of (floats d) s [v] -> finite v -> finite s /\ real s = real v.
Proof.
  assert (G : forall l, sum_of (floats d) s l -> forall v, finite v -> (l = [v] -> finite s /\ real s = real v) /\ (l = [] -> finite s /\ real s = 0)).
  { intros l H. induction H as [|x|a b l k mm Ha IHa Hb IHb P]; intros w Fw; split; intros E; try discriminate.
    - split; reflexivity.
    - injection E as ->. auto.
    - subst mm. change (bin (floats d) Add a b) with (fadd a b). apply Permutation_sym, Permutation_length_1_inv in P. pose proof (rep_real d w Fw) as Rw. destruct l as [|y [|y' l]].
      + cbn in P. destruct (proj2 (IHa w Fw) eq_refl) as (Fa & Ea). destruct (proj1 (IHb w Fw) P) as (Fb & Eb). destruct (add_in d a b (real w) (real w) Fa Fb Rw Rw ltac:(lra)) as (F & B & _). split; [exact F|lra].
      + cbn in P. injection P as -> ->. destruct (proj1 (IHa w Fw) eq_refl) as (Fa & Ea). destruct (proj2 (IHb w Fw) eq_refl) as (Fb & Eb). destruct (add_in d a b (real w) (real w) Fa Fb Rw Rw ltac:(lra)) as (F & B & _). split; [exact F|lra].
      + discriminate.
    - subst mm. change (bin (floats d) Add a b) with (fadd a b). apply Permutation_sym, Permutation_nil in P. apply app_eq_nil in P as (-> & ->). destruct (proj2 (IHa w Fw) eq_refl) as (Fa & Ea). destruct (proj2 (IHb w Fw) eq_refl) as (Fb & Eb). destruct (add_in d a b 0 0 Fa Fb (rep_0 d) (rep_0 d) ltac:(lra)) as (F & B & _). split; [exact F|lra]. }
  intros H F. exact (proj1 (G _ H v F) eq_refl).
Qed.
Lemma variance_single d sum (v : val d) : adds_all sum -> finite v -> is_zero (variance d sum [v]).
Proof.
  intros A F. destruct (sum_single d _ v (A 0%nat [v]) F) as (Fs & Es). destruct (one_size d) as (Fi & Ei). pose proof (rep_real d v F) as Rv.
  apply zero_variance; [exact A|unfold few; pose proof (u_small d); cbn [length INR]; lra|cbn; lia|]. constructor; [|constructor]. unfold reduce_mean. cbn [length].
  destruct (mul_in d (sum 0%nat [v]) _ (real v) (real v) Fs Fi Rv Rv) as (Fm & Bm & _); [rewrite Es, Ei; lra|]. apply dev_zero; [exact F|exact Fm|lra].
Qed.

(** ** Squares that overflow *)
Definition large_or {d} (v : val d) : Prop := (finite v /\ 0 <= real v) \/ v = infinity.
Lemma add_large {d} (a b : val d) : large_or a -> large_or b -> large_or (fadd a b) /\ (a = infinity \/ b = infinity -> fadd a b = infinity).
Proof.
  intros [(Fa & Pa)| ->] [(Fb & Pb)| ->].
  - split; [|intros [E|E]; subst; discriminate]. pose proof (@Bplus_correct (prec d) (emax d) (prec_pos d) (prec_emax d) mode_NE a b Fa Fb) as C. fold (fadd a b) in C. destruct (Rlt_bool _ _).
    + destruct C as (V & F & _). left. split; [exact F|]. unfold real. rewrite V. rewrite <- nearest_eq. apply nearest_pos. unfold real in *. lra.
    + destruct C as (V & Sg). right. unfold binary_overflow in V. cbn [overflow_to_inf] in V.
      destruct (fadd a b) as [s|s| |s mm e B] eqn:Ef; cbn in V; try discriminate. injection V as ->. unfold infinity. f_equal.
      destruct (Bsign a) eqn:Sa; [|reflexivity]. exfalso. (* both negative, so both zero *) symmetry in Sg.
      assert (Za : forall v : val d, finite v -> 0 <= real v -> Bsign v = true -> v = B754_zero true).
      { intros v Fv Pv Sv. destruct v as [s|s| |s mm e B]; cbn in Sv; try discriminate; subst; [reflexivity|]. exfalso. cbn in Pv. pose proof (F2R_lt_0 radix2 (Float radix2 (Zneg mm) e) ltac:(cbn; lia)). lra. }
      pose proof (Za a Fa Pa Sa). pose proof (Za b Fb Pb Sg). subst. discriminate.
  - split; [|intros _]; destruct a; try discriminate; try reflexivity; right; reflexivity.
  - split; [|intros _]; destruct b; try discriminate; try reflexivity; right; reflexivity.
  - split; [right|]; reflexivity.
Qed.
Lemma sum_large {d} (v : val d) l : sum_of (floats d) v l -> Forall large_or l -> large_or v /\ (In infinity l -> v = infinity).
Proof.
  induction 1 as [|x|a b l k mm Ha IHa Hb IHb P]; intros Z.
  - split; [left; split; [reflexivity|cbn; lra]|intros []].
  - inversion Z; subst. split; [assumption|]. intros [E|[]]. exact E.
  - assert (Z' : Forall large_or (l ++ k)) by (eapply Permutation_Forall; [apply Permutation_sym; exact P|exact Z]). apply Forall_app in Z' as (Zl & Zk). destruct (IHa Zl) as (La & Ia), (IHb Zk) as (Lb & Ib).
    change (bin (floats d) Add a b) with (fadd a b). destruct (add_large a b La Lb) as (L & I). split; [exact L|]. intros E. apply I. apply (Permutation_in _ (Permutation_sym P)) in E. apply in_app_or in E as [E|E]; auto.
Qed.
Lemma square_large d (v : val d) : finite v -> large_or (fmul v v) /\ (too_large d <= Rabs (real v) -> fmul v v = infinity).
Proof.
  intros F. pose proof (@Bmult_correct (prec d) (emax d) (prec_pos d) (prec_emax d) mode_NE v v) as C. fold (fmul v v) in C. rewrite xorb_nilpotent in C.
  assert (Inf : B2SF (fmul v v) = binary_overflow (prec d) (emax d) mode_NE false -> fmul v v = infinity). { intros V. destruct (fmul v v) as [s|s| |s mm e B]; cbn in V; try discriminate. injection V as ->. reflexivity. }
  rewrite <- nearest_eq, <- limit_eq in C. destruct (Rlt_bool_spec (Rabs (nearest d (B2R v * B2R v))) (limit d)) as [Lt|Ge].
  - destruct C as (V & Fm & _). unfold finite in F. rewrite F in Fm. split; [left; split; [exact Fm|unfold real; rewrite V; apply nearest_pos, Rle_0_sqr]|]. intros H. exfalso. apply (Rlt_not_le _ _ Lt). rewrite Rabs_right by (apply Rle_ge, nearest_pos, Rle_0_sqr).
    assert (O : limit d <= B2R v * B2R v). { fold (real v). rewrite <- (Rabs_right (real v * real v)) by (apply Rle_ge, Rle_0_sqr). rewrite Rabs_mult. apply (Rle_trans _ (too_large d * too_large d)).
      - rewrite limit_eq. unfold too_large. destruct d; rewrite <- pow_add, pow2; apply bpow_le; cbn; lia.
      - assert (0 < too_large d) by (unfold too_large; destruct d; apply pow_lt; lra). apply Rmult_le_compat; lra. }
    rewrite limit_eq in *. rewrite nearest_eq. apply round_ge_generic; auto; [apply FLT_exp_valid; destruct d; reflexivity|apply valid_rnd_round_mode|]. apply generic_format_bpow. unfold SpecFloat.fexp, FLT_exp, SpecFloat.emin. destruct d; cbn; lia.
  - split; [right|intros _]; now apply Inf.
Qed.
Lemma squares_large d (x : list (val d)) : overflows x -> Forall large_or (square d x) /\ In infinity (square d x).
Proof.
  intros (F & E). unfold square. rewrite zip_same. split.
  - apply Forall_map. eapply Forall_impl; [|exact F]. cbn beta. intros v Hv. now apply square_large.
  - apply Exists_exists in E as (v & Hv & B). rewrite Forall_forall in F. specialize (F v Hv). apply in_map_iff. exists v. split; [|exact Hv]. now apply square_large.
Qed.
Lemma recip_infinity d : recip d infinity = B754_zero false.
Proof. destruct d; reflexivity. Qed.
Lemma eps10_finite d : finite (eps10 d). Proof. apply eps10_eq. Qed.
Lemma root_infinite d : fadd (elem_sqrt d infinity) (eps10 d) = infinity.
Proof. pose proof (eps10_finite d) as F. assert (E : elem_sqrt d infinity = infinity) by (destruct d; reflexivity). rewrite E. destruct (eps10 d); try discriminate; reflexivity. Qed.
Lemma all_zero d (x : list (val d)) : Forall (fun v => is_finite v = true) x -> Forall is_zero (div_scalar d x infinity).
Proof.
  intros F. unfold div_scalar. rewrite recip_infinity. apply Forall_map. eapply Forall_impl; [|exact F]. cbn beta. intros v Fv.
  assert (Z : is_zero (B754_zero false : val d)) by (split; reflexivity). destruct (mul_in d v (B754_zero false) 0 0 Fv (proj1 Z) (rep_0 d) (rep_0 d)) as (Fm & B & _); [rewrite (proj2 Z); lra|]. split; [exact Fm|lra].
Qed.
Lemma fix_overflow d sum (x : list (val d)) : adds_all sum -> overflows x -> fix_divisor d sum x = infinity /\ Forall is_zero (fix_norm d sum x).
Proof.
  intros A O. destruct (squares_large d x O) as (L & I). destruct (sum_large _ _ (A 0%nat (square d x)) L) as (_ & E). assert (D : fix_divisor d sum x = infinity) by (unfold fix_divisor, fix_square; rewrite (E I); apply root_infinite). split; [exact D|]. unfold fix_norm. rewrite D. apply all_zero. apply O.
Qed.
Lemma inverse_pos d n : few d n -> (0 < n)%nat -> fmul infinity (conv F64 d (fdiv fone (of_size n))) = infinity.
Proof.
  intros Hn Hp. destruct (inverse_size d n Hn Hp) as (F & R & E). set (i := conv F64 d (fdiv fone (of_size n))) in *. assert (P : 0 < real i). { unfold rel in E. assert (0 < / INR n) by (apply Rinv_0_lt_compat, lt_0_INR; lia). rewrite (Rabs_right (/ INR n)) in E by lra. apply rabs_le in E. pose proof (u_small d). assert (5 * u d * / INR n <= 0.1 * / INR n) by (apply Rmult_le_compat_r; lra). lra. }
  destruct i as [s|s| |[] mm e B]; try discriminate; [cbn in P; lra| |reflexivity]. exfalso. cbn in P. pose proof (F2R_lt_0 radix2 (Float radix2 (Zneg mm) e) ltac:(cbn; lia)). lra.
Qed.
Lemma rms_overflow d sum (x : list (val d)) : adds_all sum -> few d (length x) -> overflows x -> rms_divisor d sum x = infinity /\ Forall is_zero (rms_unit d sum x).
Proof.
  intros A Hn O. destruct (squares_large d x O) as (L & I). destruct (sum_large _ _ (A 0%nat (square d x)) L) as (_ & E). assert (Hp : (0 < length x)%nat) by (destruct O as (_ & O); destruct x; [inversion O|cbn; lia]).
  assert (D : rms_divisor d sum x = infinity). { unfold rms_divisor, rms_square, reduce_mean. rewrite (E I), square_length, (inverse_pos d _ Hn Hp). apply root_infinite. } split; [exact D|]. unfold rms_unit. rewrite D. apply all_zero. apply O.
Qed.
