(** * Proofs: matrices of activations; where the derivatives overflow *)
From Coq Require Import List ZArith Bool Reals Lia Lra.
From Flocq Require Import Core BinarySingleNaN Relative.
From Verif Require Import DenseModel DenseLemmas ArithModel ArithProofs FloatModel FloatSpec FloatProofs NumModel NumSpec NumLemmas NumProofs NumProofs2 NumProofs3.
Import ListNotations.
Open Scope R_scope.

Section M.
Variable m : libm.
Hypothesis G : go_math m.
Variable d : dtype.
Notation mat := (dense (val d)).

Lemma apply_data f x : data (apply d f x) = map (fun v => conv F64 d (f (conv d F64 v))) (data x).
Proof. apply unary_data. Qed.
Lemma apply_finite f (x : mat) : all_finite x -> (forall v, In v (data x) -> finite v -> fits_in d (f (conv d F64 v))) -> all_finite (apply d f x).
Proof.
  intros Fx H. unfold all_finite in *. rewrite apply_data. apply Forall_forall. intros w Hw. apply in_map_iff in Hw as (v & <- & Hv). rewrite Forall_forall in Fx. apply fits_conv. apply H; auto.
Qed.
Lemma up v : finite v -> finite (conv d F64 v) /\ rep d (real (conv d F64 v)).
Proof. intros F. destruct (conv_up d v F) as (A & V). split; [exact A|]. rewrite V. now apply rep_real. Qed.
Lemma sigmoid_elem (v : val d) : finite v -> let s := fdiv fone (fadd fone (exp_elem m d (fmul v (fneg fone)))) in finite s /\ 0 <= real s <= 1.
Proof.
  intros F. cbv zeta. apply recip. unfold exp_elem. apply conv_nonneg, exp_nonneg; [exact G|]. apply conv_number, mul_number; [exact F|]. apply neg_finite, one_eq.
Qed.
Lemma sigmoid_range (x : mat) : all_finite x -> Forall (fun s => finite s /\ 0 <= real s <= 1) (data (sigmoid m d x)).
Proof.
  intros F. unfold sigmoid. rewrite sigmoid_data. apply Forall_forall. intros w Hw. apply in_map_iff in Hw as (v & <- & Hv). unfold all_finite in F. rewrite Forall_forall in F. now apply sigmoid_elem, F.
Qed.
Lemma in_place_data {T} (z : T) op a b c : mat_binary_in_place z op a b = Some c -> length (data a) = length (data b) -> data c = map (fun p => op (fst p) (snd p)) (combine (data a) (data b)).
Proof.
  unfold mat_binary_in_place. destruct (same_dims a b); [|discriminate]. intros [= <-] L. cbn [data]. unfold binary_kernel_in_place.
  rewrite (loop_all z (fun i v => op v (nth i (data b) z))) by reflexivity. apply (List.nth_ext _ _ z z); [rewrite !map_length, seq_length, combine_length; lia|].
  rewrite map_length, seq_length. intros n H.
  set (f := fun p => op (fst p) (snd p)). set (g := fun p => op (nth p (data a) z) (nth p (data b) z)).
  rewrite (nth_indep (map g (seq 0 (length (data a)))) z (g 0%nat)) by (now rewrite map_length, seq_length). rewrite map_nth, seq_nth by assumption.
  rewrite (nth_indep (map f (combine (data a) (data b))) z (f (z, z))) by (rewrite map_length, combine_length; lia). rewrite map_nth, combine_nth by assumption. reflexivity.
Qed.
Lemma prod_data (a b c : mat) : mat_prod_in_place fzero fmul a b = Some c -> length (data a) = length (data b) -> data c = map (fun p => fmul (fst p) (snd p)) (combine (data a) (data b)).
Proof. apply (in_place_data fzero fmul). Qed.

Lemma forward_finite a (x : mat) : usual a -> all_finite x -> exists y, forward m d a x = Some y /\ length (data y) = length (data x) /\ all_finite y.
Proof.
  intros U F.
  assert (AP : forall f, (forall v, In v (data x) -> finite v -> fits_in d (f (conv d F64 v))) -> exists y, Some (apply d f x) = Some y /\ length (data y) = length (data x) /\ all_finite y).
  { intros f H. eexists. split; [reflexivity|]. split; [rewrite apply_data; apply map_length|now apply apply_finite]. }
  destruct a; cbn [forward usual] in *; try (apply AP; intros v Hv Fv; destruct (up v Fv) as (Fu & Ru)).
  - now apply f_tanh.
  - now apply f_hard_sigmoid.
  - now apply f_hard_tanh.
  - now apply f_relu.
  - now apply f_softsign.
  - now apply f_celu.
  - now apply f_elu.
  - now apply f_leaky.
  - now apply f_selu.
  - destruct U as (A & B & C & D). now apply f_softplus.
  - now apply f_softshrink.
  - now apply f_threshold.
  - now apply f_swishb.
  - now apply f_mish.
  - now apply f_gelu.
  - eexists. split; [reflexivity|]. split; [unfold sigmoid; rewrite sigmoid_data; apply map_length|]. eapply Forall_impl; [|apply sigmoid_range, F]. now intros ? (A & _).
  - assert (L : length (data (sigmoid m d x)) = length (data x)) by (unfold sigmoid; rewrite sigmoid_data; apply map_length).
    assert (E : exists y, mat_prod_in_place fzero fmul (sigmoid m d x) x = Some y).
    { unfold mat_prod_in_place. assert (S : same_dims (sigmoid m d x) x = true) by (apply same_dims_spec; split; reflexivity). rewrite S. eexists. reflexivity. }
    destruct E as (y & E). exists y. split; [exact E|]. pose proof (prod_data _ _ _ E L) as D. split; [rewrite D, map_length, combine_length; lia|].
    unfold all_finite. rewrite D. apply Forall_forall. intros w Hw. apply in_map_iff in Hw as ((s, v) & <- & Hp). cbn [fst snd].
    pose proof (in_combine_l _ _ _ _ Hp) as Hs. pose proof (in_combine_r _ _ _ _ Hp) as Hv. pose proof (sigmoid_range x F) as Q. unfold all_finite in F. rewrite Forall_forall in Q, F. destruct (Q s Hs) as (Fs & Bs). specialize (F v Hv).
    apply (mul_abs d s v (Rabs (real v)) Fs F); [apply rep_abs, rep_real, F|]. rewrite <- (Rmult_1_l (Rabs (real v))) at 2. apply Rmult_le_compat_r; [apply Rabs_pos|]. apply Rabs_le. lra.
Qed.
Lemma derivative_finite a (x : mat) : usual a -> all_finite x -> Forall (near d a) (data x) -> all_finite (derivative m d a x).
Proof.
  intros U F N.
  assert (AP : forall f, (forall v, In v (data x) -> finite v -> fits_in d (f (conv d F64 v))) -> all_finite (apply d f x)) by (intros f H; now apply apply_finite).
  rewrite Forall_forall in N.
  destruct a; cbn [derivative usual near] in *; try (apply AP; intros v Hv Fv; destruct (up v Fv) as (Fu & Ru)).
  - now apply g_tanh.
  - unfold go_hard_sigmoid_deriv. destruct (_ && _); [apply fits_small|apply fits_0].
  - unfold go_hard_tanh_deriv. destruct (_ && _); [apply fits_one|apply fits_0].
  - unfold go_relu_deriv. destruct (fle _ _); [apply fits_one|apply fits_0].
  - now apply g_softsign.
  - now apply g_celu.
  - now apply g_elu.
  - now apply g_leaky.
  - now apply g_selu.
  - destruct U as (A & B & C & D). now apply g_softplus.
  - unfold go_softshrink_deriv. destruct (flt _ _); [apply fits_one|]. destruct (flt _ _); [apply fits_one|apply fits_0].
  - unfold go_threshold_deriv. destruct (fle _ _); [apply fits_0|]. destruct (flt _ _); [apply fits_one|apply fits_0].
  - destruct (N v Hv). now apply g_swishb.
  - apply g_mish; auto. rewrite (proj2 (conv_up d v Fv)). now apply N.
  - apply g_gelu; auto. rewrite (proj2 (conv_up d v Fv)). now apply N.
  - pose proof (sigmoid_range x F) as Q. apply apply_finite; [eapply Forall_impl; [|exact Q]; now intros ? (A & _)|]. intros v Hv Fv. rewrite Forall_forall in Q. destruct (Q v Hv) as (_ & B).
    destruct (conv_up d v Fv) as (A & V). apply g_sigmoid; [exact A|now rewrite V].
  - apply g_swish; auto. rewrite (proj2 (conv_up d v Fv)). now apply N.
Qed.
Lemma derivative_shape a (x : mat) : rows (derivative m d a x) = rows x /\ cols (derivative m d a x) = cols x /\ length (data (derivative m d a x)) = length (data x).
Proof.
  assert (A : forall f y, rows (apply d f y) = rows y /\ cols (apply d f y) = cols y /\ length (data (apply d f y)) = length (data y)) by (intros; split; [reflexivity|]; split; [reflexivity|]; rewrite apply_data; apply map_length).
  destruct a; cbn [derivative]; try apply A. destruct (A go_sigmoid_deriv (sigmoid m d x)) as (R & C & L). rewrite R, C, L. split; [reflexivity|]. split; [reflexivity|]. unfold sigmoid. rewrite sigmoid_data. apply map_length.
Qed.
Lemma gradient_number a (x gy : mat) : usual a -> all_finite x -> all_finite gy -> Forall (near d a) (data x) -> rows gy = rows x -> cols gy = cols x -> length (data gy) = length (data x) ->
  exists gx, gradient m d a x gy = Some gx /\ length (data gx) = length (data x) /\ no_nan gx.
Proof.
  intros U F Fg N R C L. unfold gradient. assert (S : same_dims x gy = true) by (apply same_dims_spec; auto). rewrite S. destruct (derivative_shape a x) as (R' & C' & L').
  assert (S' : same_dims (derivative m d a x) gy = true) by (apply same_dims_spec; split; congruence).
  assert (E : exists gx, mat_prod_in_place fzero fmul (derivative m d a x) gy = Some gx) by (unfold mat_prod_in_place; rewrite S'; eexists; reflexivity). destruct E as (gx & E). exists gx. split; [exact E|].
  pose proof (prod_data _ _ _ E ltac:(congruence)) as D. split; [rewrite D, map_length, combine_length; lia|]. unfold no_nan. rewrite D. apply Forall_forall. intros w Hw.
  apply in_map_iff in Hw as ((s, v) & <- & Hp). pose proof (in_combine_l _ _ _ _ Hp) as Hs. pose proof (in_combine_r _ _ _ _ Hp) as Hv. pose proof (derivative_finite a x U F N) as Q. unfold all_finite in Q, Fg. rewrite Forall_forall in Q, Fg. now apply mul_number; [apply Q|apply Fg].
Qed.
Lemma log_sum_exp_finite (x : mat) : is_vector x = true -> all_finite x -> data x <> [] -> exists s, log_sum_exp m d x = Some s /\ finite s /\ forall v, In v (data x) -> real v <= real s.
Proof.
  intros V F N. unfold log_sum_exp. destruct (arg_max_finite d x V F N) as (i & Ei & Hi & Fi & Mi). rewrite Ei. rewrite conv_back by (destruct d; exact I). set (mx := nth i (data x) fzero) in *. eexists. split; [reflexivity|].
  unfold mat_sum, sum_kernel. rewrite unary_data. unfold sub_scalar. rewrite const_data, map_map. set (es := map (fun x0 => exp_elem m d (fadd x0 (fneg mx))) (data x)).
  assert (B : Forall (fun y : val d => finite y /\ 0 <= real y <= 1) es).
  { apply Forall_forall. intros y H. apply in_map_iff in H as (w & <- & Hw). unfold all_finite in F. rewrite Forall_forall in F. destruct (shifted d w mx (F w Hw) Fi (Mi w Hw)) as (A & B & C). now apply exp_elem_le. }
  destruct (sum_bounds d es fzero eq_refl) as (Fs & Bs & Ms); [unfold real; cbn; pose proof (bpow_gt_0 radix2 (prec d)); unfold cap; lra|exact B|]. cbv zeta in *.
  assert (S1 : 1 <= real (fold_left fadd es fzero)).
  { assert (E : In (exp_elem m d (fadd mx (fneg mx))) es) by (apply (in_map (fun x0 => exp_elem m d (fadd x0 (fneg mx)))); apply nth_In; exact Hi). apply Ms in E. destruct (shifted_zero d mx Fi) as (A & B'). rewrite exp_elem_zero in E by auto. exact E. }
  destruct (log_elem_in m G d _ Fs) as (Fl & Bl); [lra|]. destruct (add_small d mx (log_elem m d (fold_left fadd es fzero)) Fi Fl Bl) as (A & B').
  split; [exact A|]. intros v Hv. specialize (Mi v Hv). lra.
Qed.
End M.

(** ** Infinities *)
Definition ge {d} (b : R) (x : val d) : Prop := x = infinity \/ (finite x /\ b <= real x).
Lemma ge_le d b c (x : val d) : ge b x -> c <= b -> ge c x.
Proof. intros [H|(F & H)] L; [now left|right]. split; [exact F|lra]. Qed.
Lemma inf_add d (y : val d) : ge 0 y -> fadd infinity y = infinity.
Proof. intros [->|(F & _)]; [reflexivity|]. destruct y; try discriminate; reflexivity. Qed.
Lemma add_inf d (y : val d) : ge 0 y -> fadd y infinity = infinity.
Proof. intros [->|(F & _)]; [reflexivity|]. destruct y; try discriminate; reflexivity. Qed.
Lemma pos_sign d (y : val d) : finite y -> 0 < real y -> Bsign y = false.
Proof. intros F P. destruct (Bsign y) eqn:S; [apply sign_nonpos in S; auto; lra|reflexivity]. Qed.
Lemma pos_finite d (y : val d) : finite y -> 0 < real y -> exists mx e H, y = B754_finite false mx e H.
Proof.
  intros F P. pose proof (pos_sign d y F P) as S. destruct y as [s| | |s mx e H]; try discriminate; [unfold real in P; cbn in P; lra|]. cbn in S. subst s. now exists mx, e, H.
Qed.
Lemma inf_mul d (y : val d) b : 0 < b -> ge b y -> fmul infinity y = infinity.
Proof. intros Pb [->|(F & B)]; [reflexivity|]. destruct (pos_finite d y F ltac:(lra)) as (mx & e & H & ->). reflexivity. Qed.
Lemma mul_inf d (y : val d) b : 0 < b -> ge b y -> fmul y infinity = infinity.
Proof. intros Pb [->|(F & B)]; [reflexivity|]. destruct (pos_finite d y F ltac:(lra)) as (mx & e & H & ->). reflexivity. Qed.
Lemma add_ge d (x y : val d) b : ge b x -> ge 0 y -> 0 <= b -> ge b (fadd x y).
Proof.
  intros [->|(Fx & Bx)] Gy Pb; [left; now apply inf_add|]. destruct Gy as [->|(Fy & By)]; [left; apply add_inf; right; split; [exact Fx|lra]|].
  pose proof (@Bplus_correct (prec d) (emax d) (prec_pos d) (prec_emax d) mode_NE x y Fx Fy) as C. fold (fadd x y) in C. rewrite <- nearest_eq in C. fold (real x) (real y) in C.
  destruct (Rlt_bool_spec (Rabs (nearest d (real x + real y))) (bpow radix2 (emax d))) as [L|L].
  - destruct C as (V & F & _). right. split; [exact F|]. unfold real at 1. rewrite V. apply Rle_trans with (real x); [exact Bx|]. rewrite <- (proj1 (rep_real d x Fx)) at 1. apply nearest_le. lra.
  - destruct C as (C & S). apply over_nan in C. left. rewrite C. unfold infinity. f_equal. destruct (Bsign x) eqn:Sx; [|reflexivity]. exfalso. symmetry in S. apply sign_nonpos in Sx, S; auto.
    assert (E : real x + real y = 0) by lra. rewrite E, (proj1 (rep_0 d)), Rabs_R0 in L. pose proof (bpow_gt_0 radix2 (emax d)). lra.
Qed.
Lemma add_ge_r d (x y : val d) b : ge 0 x -> ge b y -> 0 <= b -> ge b (fadd x y).
Proof.
  intros Gx Gy Pb. destruct Gx as [->|(Fx & Bx)]; [left; apply inf_add; eapply ge_le; eauto|]. destruct Gy as [->|(Fy & By)]; [left; apply add_inf; now right|].
  pose proof (@Bplus_correct (prec d) (emax d) (prec_pos d) (prec_emax d) mode_NE x y Fx Fy) as C. fold (fadd x y) in C. rewrite <- nearest_eq in C. fold (real x) (real y) in C.
  destruct (Rlt_bool_spec (Rabs (nearest d (real x + real y))) (bpow radix2 (emax d))) as [L|L].
  - destruct C as (V & F & _). right. split; [exact F|]. unfold real at 1. rewrite V. apply Rle_trans with (real y); [exact By|]. rewrite <- (proj1 (rep_real d y Fy)) at 1. apply nearest_le. lra.
  - destruct C as (C & S). apply over_nan in C. left. rewrite C. unfold infinity. f_equal. destruct (Bsign x) eqn:Sx; [|reflexivity]. exfalso. symmetry in S. apply sign_nonpos in Sx, S; auto.
    assert (E : real x + real y = 0) by lra. rewrite E, (proj1 (rep_0 d)), Rabs_R0 in L. pose proof (bpow_gt_0 radix2 (emax d)). lra.
Qed.
(** a product at least b, for a value b of the type *)
Lemma mul_ge d (x y : val d) a c b : ge a x -> ge c y -> 0 < a -> 0 < c -> b <= a * c -> rep d b -> ge b (fmul x y).
Proof.
  intros Gx Gy Pa Pc B Rb. destruct Gx as [->|(Fx & Bx)]; [left; now apply (inf_mul d y c)|]. destruct Gy as [->|(Fy & By)]; [left; apply (mul_inf d x a); auto; right; auto|].
  pose proof (@Bmult_correct (prec d) (emax d) (prec_pos d) (prec_emax d) mode_NE x y) as C. fold (fmul x y) in C. rewrite <- nearest_eq in C. fold (real x) (real y) in C.
  destruct (Rlt_bool_spec (Rabs (nearest d (real x * real y))) (bpow radix2 (emax d))) as [L|L].
  - destruct C as (V & F & _). right. split; [unfold finite in *; now rewrite F, Fx, Fy|]. unfold real at 1. rewrite V. rewrite <- (proj1 Rb). apply nearest_le. eapply Rle_trans; [exact B|]. apply Rmult_le_compat; lra.
  - left. rewrite (pos_sign d x), (pos_sign d y) in C by (auto; lra). now apply over_nan in C.
Qed.
Lemma mul_infinite d (x y : val d) a c : ge a x -> ge c y -> 0 < a -> 0 < c -> limit d <= a * c -> fmul x y = infinity.
Proof.
  intros Gx Gy Pa Pc B. destruct Gx as [->|(Fx & Bx)]; [now apply (inf_mul d y c)|]. destruct Gy as [->|(Fy & By)]; [apply (mul_inf d x a); auto; right; auto|].
  apply mul_over; auto; [|lra]. eapply Rle_trans; [exact B|]. apply Rmult_le_compat; lra.
Qed.

Section N.
Variable m : libm.
Hypothesis G : go_math m.
Lemma limit_513 : limit F64 <= 2 ^ 513 * 2 ^ 513.
Proof. rewrite <- pow_add, pow2, limit_eq. apply bpow_le. cbn. lia. Qed.
Lemma exp_358 (x : val F64) : ge 358 x -> ge (2 ^ 513) (Exp m x).
Proof.
  intros [->|(F & B)]; [left; apply (exp_infinity m G)|]. destruct (exp_lower m G x 515 F) as [E|(Fe & Be)]; [change (Z.of_nat 515) with 515%Z; lra|now left|right].
  split; [exact Fe|]. assert (Q : 2 ^ 515 = 4 * 2 ^ 513) by (replace 515%nat with (2 + 513)%nat by lia; rewrite pow_add; f_equal; cbn; lra). rewrite Q in Be. assert (1 <= 2 ^ 513) by (apply pow_R1_Rle; lra). lra.
Qed.
Lemma one_ge d : ge 1 (fone : val d).
Proof. right. destruct (one_eq d) as (A & ->). split; [exact A|lra]. Qed.
Lemma inf_div d : fdiv (infinity : val d) infinity = B754_nan.
Proof. reflexivity. Qed.
Lemma p513 : 0 < 2 ^ 513. Proof. apply pow2_pos. Qed.
Lemma quotient_nan (e s E : val F64) : ge (2 ^ 513) e -> ge (2 ^ 513) s -> ge (2 ^ 513) E -> fdiv (fmul e s) (fmul E E) = B754_nan.
Proof.
  intros He Hs HE. pose proof p513. rewrite (mul_infinite F64 e s (2 ^ 513) (2 ^ 513)), (mul_infinite F64 E E (2 ^ 513) (2 ^ 513)) by (auto using limit_513). apply inf_div.
Qed.
Lemma swish_nan (v : val F64) : finite v -> 358 <= real v -> go_swish_deriv m v = B754_nan.
Proof.
  intros F B. unfold go_swish_deriv. cbv zeta. pose proof p513. pose proof (exp_358 v (or_intror (conj F B))) as He.
  assert (HE : ge (2 ^ 513) (fadd (Exp m v) fone)) by (apply add_ge; auto; [eapply ge_le; [apply one_ge|lra]|lra]).
  apply quotient_nan; auto. apply add_ge; auto; [right; split; [exact F|lra]|lra].
Qed.
Lemma swishb_nan (b v : val F64) : ge 358 (fmul v b) -> go_swishb_deriv m b v = B754_nan.
Proof.
  intros Hp. unfold go_swishb_deriv. cbv zeta. pose proof p513. pose proof (exp_358 _ Hp) as He. assert (O : ge 0 (fone : val F64)) by (eapply ge_le; [apply one_ge|lra]).
  apply quotient_nan; auto; [|apply add_ge; auto; lra]. apply add_ge; auto; [|lra]. apply add_ge; auto; [|lra]. eapply ge_le; [exact Hp|lra].
Qed.
Lemma lit_ge k : (0 <= k < 2 ^ 24)%Z -> ge (IZR k) (lit k 0 : val F64).
Proof. intros H. right. destruct (two_eq k) as (A & ->); [lia|]. split; [exact A|lra]. Qed.
Lemma nan_r (x : val F64) : fmul x B754_nan = B754_nan.
Proof. destruct x; reflexivity. Qed.
Lemma rep_i k : (Z.abs k < 2 ^ 24)%Z -> rep F64 (IZR k).
Proof. apply rep_int. Qed.
Lemma mish_delta (v : val F64) : finite v -> 180 <= real v ->
  let e := Exp m v in let delta := fadd (fadd (fmul (lit 2 0) e) (Exp m (fmul (lit 2 0) v))) (lit 2 0) in fmul delta delta = infinity.
Proof.
  intros F B. cbv zeta. pose proof p513.
  assert (H2 : ge 358 (fmul (lit 2 0) v)) by (apply (mul_ge F64 (lit 2 0) v 2 180); [apply (lit_ge 2); lia|right; auto|lra..|apply (rep_i 358); lia]).
  pose proof (exp_358 _ H2) as He2.
  assert (He : ge 0 (Exp m v)) by (destruct (exp_nonneg m G v (finite_number _ v F)) as [(A & B')|E]; [right; auto|now left]).
  assert (He1 : ge 0 (fmul (lit 2 0) (Exp m v))).
  { destruct He as [->|(Fe & Pe)]; [left; apply (mul_inf F64 _ 2); [lra|apply (lit_ge 2); lia]|].
    destruct (exp_either m G v F) as [_|E]; [|rewrite E in Fe; discriminate]. assert (O : ge 1 (Exp m v)) by (right; split; [exact Fe|apply (exp_above_one m G); auto; lra]).
    eapply ge_le; [apply (mul_ge F64 (lit 2 0) (Exp m v) 2 1 2); auto; [apply (lit_ge 2); lia|lra..|apply (rep_i 2); lia]|lra]. }
  assert (Hd : ge (2 ^ 513) (fadd (fadd (fmul (lit 2 0) (Exp m v)) (Exp m (fmul (lit 2 0) v))) (lit 2 0))).
  { apply add_ge; [apply add_ge_r; auto; lra|eapply ge_le; [apply (lit_ge 2); lia|lra]|lra]. }
  apply (mul_infinite F64 _ _ (2 ^ 513) (2 ^ 513)); auto using limit_513.
Qed.
Lemma mish_nan (v : val F64) : finite v -> 240 <= real v -> go_mish_deriv m v = B754_nan.
Proof.
  intros F B. unfold go_mish_deriv. cbv zeta. rewrite mish_delta by (auto; lra).
  assert (H3 : ge 710 (fmul (lit 3 0) v)) by (apply (mul_ge F64 (lit 3 0) v 3 240); [apply (lit_ge 3); lia|right; auto|lra..|apply (rep_i 710); lia]).
  assert (E3 : Exp m (fmul (lit 3 0) v) = infinity) by (destruct H3 as [->|(A & C)]; [apply (exp_infinity m G)|now apply (exp_overflow m G)]). rewrite E3.
  assert (Hv : ge 240 v) by (right; auto). assert (O : ge 0 (fone : val F64)) by (eapply ge_le; [apply one_ge|lra]).
  assert (He : ge 1 (Exp m v)) by (destruct (exp_either m G v F) as [A|E]; [right; split; [exact A|apply (exp_above_one m G); auto; lra]|now left]).
  assert (H2 : ge 480 (fmul (lit 2 0) v)) by (apply (mul_ge F64 (lit 2 0) v 2 240); [apply (lit_ge 2); lia|exact Hv|lra..|apply (rep_i 480); lia]).
  assert (He2 : ge 1 (Exp m (fmul (lit 2 0) v))).
  { destruct H2 as [->|(A & C)]; [left; apply (exp_infinity m G)|]. destruct (exp_either m G _ A) as [Q|E]; [right; split; [exact Q|apply (exp_above_one m G); auto; lra]|now left]. }
  assert (X1 : ge 4 (fmul (lit 4 0) (fadd v fone))) by (apply (mul_ge F64 _ _ 4 1); [apply (lit_ge 4); lia|eapply ge_le; [apply add_ge; [exact Hv|exact O|lra]|lra]|lra..|apply (rep_i 4); lia]).
  assert (X2 : ge 4 (fmul (lit 4 0) (Exp m (fmul (lit 2 0) v)))) by (apply (mul_ge F64 _ _ 4 1); [apply (lit_ge 4); lia|exact He2|lra..|apply (rep_i 4); lia]).
  assert (X3 : ge 4 (fmul (lit 4 0) v)) by (apply (mul_ge F64 _ _ 4 240); [apply (lit_ge 4); lia|exact Hv|lra..|apply (rep_i 4); lia]).
  assert (X4 : ge 4 (fadd (fmul (lit 4 0) v) (lit 6 0))) by (apply add_ge; [exact X3|eapply ge_le; [apply (lit_ge 6); lia|lra]|lra]).
  assert (X5 : ge 4 (fmul (Exp m v) (fadd (fmul (lit 4 0) v) (lit 6 0)))) by (apply (mul_ge F64 _ _ 1 4); auto; [lra..|apply (rep_i 4); lia]).
  assert (X6 : ge 4 (fadd (fmul (lit 4 0) (fadd v fone)) (fmul (lit 4 0) (Exp m (fmul (lit 2 0) v))))) by (apply add_ge; [exact X1|eapply ge_le; [exact X2|lra]|lra]).
  rewrite add_inf by (eapply ge_le; [exact X6|lra]). rewrite inf_add by (eapply ge_le; [exact X5|lra]). rewrite inf_div. apply nan_r.
Qed.
Lemma div_inf (x : val F64) : finite x -> exists s, fdiv x infinity = B754_zero s.
Proof. intros F. destruct x as [s| | |s mx e H]; try discriminate; exists s; [destruct s; reflexivity|]. unfold infinity. unfold fdiv, Bdiv. cbn. now rewrite xorb_false_r. Qed.
Lemma mish_zero (v : val F64) : finite v -> 180 <= real v <= 230 -> finite (go_mish_deriv m v) /\ real (go_mish_deriv m v) = 0.
Proof.
  intros F B. unfold go_mish_deriv. cbv zeta. rewrite mish_delta by (auto; lra).
  assert (P : forall a c, (a <= c)%nat -> 2 ^ a <= 2 ^ c) by (intros; apply Rle_pow; [lra|lia]).
  assert (RP : forall n, (n <= 1023)%nat -> rep F64 (2 ^ n)) by (intros; apply rep_big; cbn; lia).
  assert (D : forall n, 2 ^ n + 2 ^ n = 2 ^ (n + 1)) by (intros; rewrite Nat.add_1_r, pow2_S; lra).
  assert (MM : forall (x y : val F64) a c, finite x -> finite y -> Rabs (real x) <= 2 ^ a -> Rabs (real y) <= 2 ^ c -> (a + c <= 1023)%nat -> finite (fmul x y) /\ Rabs (real (fmul x y)) <= 2 ^ (a + c)).
  { intros x y a c Fx Fy Bx By L. apply mul_abs; auto. rewrite pow_add. apply Rmult_le_compat; auto using Rabs_pos. }
  assert (AA : forall (x y : val F64) a, finite x -> finite y -> Rabs (real x) <= 2 ^ a -> Rabs (real y) <= 2 ^ a -> (a <= 1022)%nat -> finite (fadd x y) /\ Rabs (real (fadd x y)) <= 2 ^ (a + 1)).
  { intros x y a Fx Fy Bx By L. apply add_abs; auto; [apply RP; lia|]. rewrite <- D. lra. }
  destruct (two_eq 2 eq_refl) as (F2 & V2). destruct (two_eq 3 eq_refl) as (F3 & V3). destruct (two_eq 4 eq_refl) as (F4 & V4). destruct (two_eq 6 eq_refl) as (F6 & V6). destruct (one_eq F64) as (Fo & Vo).
  assert (T8 : 2 ^ 8 = 256) by (cbn; lra). assert (T2 : 2 ^ 2 = 4) by (cbn; lra). assert (T3 : 2 ^ 3 = 8) by (cbn; lra).
  assert (A8 : Rabs (real v) <= 2 ^ 8) by (rewrite T8; apply Rabs_le; lra).
  destruct (mul_in F64 (lit 2 0) v 0 460 F2 F (rep_0 _)) as (G2 & H2 & _); [apply (rep_i 460); lia|rewrite V2; lra|].
  destruct (mul_in F64 (lit 3 0) v 0 690 F3 F (rep_0 _)) as (G3 & H3 & _); [apply (rep_i 690); lia|rewrite V3; lra|].
  destruct (exp_upper m G v 335 F) as (Fe & Be); [change (Z.of_nat 335) with 335%Z; lra|lra|].
  destruct (exp_upper m G _ 670 G2) as (Fe2 & Be2); [change (Z.of_nat 670) with 670%Z; lra|lra|].
  destruct (exp_upper m G _ 1004 G3) as (Fe3 & Be3); [change (Z.of_nat 1004) with 1004%Z; lra|lra|].
  set (e := Exp m v) in *. set (e2 := Exp m (fmul (lit 2 0) v)) in *. set (e3 := Exp m (fmul (lit 3 0) v)) in *.
  assert (Ab : forall (x : val F64) a c, 0 <= real x <= 2 ^ a -> (a <= c)%nat -> Rabs (real x) <= 2 ^ c) by (intros x a c (L & U) H; rewrite Rabs_pos_eq by exact L; specialize (P a c H); lra).
  destruct (AA v fone 8%nat) as (X1 & Y1); auto; [rewrite Vo, Rabs_R1, T8; lra|lia|].
  destruct (MM (lit 4 0) (fadd v fone) 2%nat 9%nat) as (X2 & Y2); auto; [rewrite V4, Rabs_pos_eq, T2 by lra; lra|lia|].
  destruct (MM (lit 4 0) e2 2%nat 671%nat) as (X3 & Y3); auto; [rewrite V4, Rabs_pos_eq, T2 by lra; lra|now apply (Ab _ (670 + 1)%nat)|lia|].
  destruct (AA (fmul (lit 4 0) (fadd v fone)) (fmul (lit 4 0) e2) 1000%nat) as (X4 & Y4); auto; [eapply Rle_trans; [exact Y2|apply P; lia]|eapply Rle_trans; [exact Y3|apply P; lia]|lia|].
  set (s1 := fadd (fmul (lit 4 0) (fadd v fone)) (fmul (lit 4 0) e2)) in *.
  destruct (AA s1 e3 1006%nat) as (X5 & Y5); auto; [eapply Rle_trans; [exact Y4|apply P; lia]|apply (Ab _ (1004 + 1)%nat); [exact Be3|lia]|lia|].
  destruct (MM (lit 4 0) v 2%nat 8%nat) as (X6 & Y6); auto; [rewrite V4, Rabs_pos_eq, T2 by lra; lra|lia|].
  destruct (AA (fmul (lit 4 0) v) (lit 6 0) 10%nat) as (X7 & Y7); auto; [rewrite V6, Rabs_pos_eq by lra; specialize (P 3%nat 10%nat ltac:(lia)); lra|lia|].
  destruct (MM e (fadd (fmul (lit 4 0) v) (lit 6 0)) 336%nat 11%nat) as (X8 & Y8); auto; [now apply (Ab _ (335 + 1)%nat)|lia|].
  set (s2 := fadd s1 e3) in *. set (t2 := fmul e (fadd (fmul (lit 4 0) v) (lit 6 0))) in *.
  destruct (AA s2 t2 1008%nat) as (X9 & Y9); auto; [eapply Rle_trans; [exact Y5|apply P; lia]|eapply Rle_trans; [exact Y8|apply P; lia]|lia|].
  destruct (div_inf _ X9) as (s & ->).
  destruct (mul_abs F64 e (B754_zero s) 0 Fe eq_refl (rep_0 _)) as (Z1 & W1); [change (real (B754_zero s : val F64)) with 0; rewrite Rabs_R0; lra|].
  split; [exact Z1|]. pose proof (Rabs_pos (real (fmul e (B754_zero s)))). destruct (Req_dec (real (fmul e (B754_zero s))) 0) as [E|E]; [exact E|]. apply Rabs_pos_lt in E. lra.
Qed.
Lemma gelu_nan (v : val F64) : finite v -> 2 ^ 350 <= real v -> go_gelu_deriv m v = B754_nan.
Proof.
  intros F B. unfold go_gelu_deriv. cbv zeta. rewrite (cube_overflow m G v F B). pose proof (pow2_pos 350).
  assert (E : forall n e x, x = IZR n * bpow radix2 e -> (0 < n < 2 ^ 53)%Z -> (-100 <= e <= 0)%Z -> ge x (lit n e : val F64) /\ 0 < x).
  { intros n e x Hx Hn He. destruct (lit_eq F64 n e x Hx) as (A & V); [unfold prec, emax; lia..|]. split; [right; split; [exact A|lra]|]. rewrite Hx. apply Rmult_lt_0_compat; [now apply (IZR_lt 0)|apply bpow_gt_0]. }
  assert (MI : forall n e, (0 < n < 2 ^ 53)%Z -> (-100 <= e <= 0)%Z -> fmul (lit n e : val F64) infinity = infinity) by (intros n e Hn He; destruct (E n e _ eq_refl Hn He) as (Q & Px); now apply (mul_inf F64 _ _ Px)).
  assert (MV : forall n e, (0 < n < 2 ^ 53)%Z -> (-100 <= e <= 0)%Z -> ge 0 (fmul (lit n e : val F64) v)).
  { intros n e Hn He. destruct (E n e _ eq_refl Hn He) as (Q & Px). eapply (mul_ge F64 (lit n e) v _ (2 ^ 350) 0); [exact Q|right; split; auto|exact Px|lra| |apply rep_0]. left. now apply Rmult_lt_0_compat. }
  rewrite !MI by lia. rewrite !inf_add by (apply MV; lia). change (Cosh m infinity) with (Cosh m (B754_infinity false)). rewrite (cosh_infinity m G false).
  assert (Ez : fdiv (fone : val F64) infinity = B754_zero false) by (apply B2SF_inj; reflexivity). rewrite Ez.
  (* infinity times the square of zero *)
  rewrite (square_zero m G false). change (fmul infinity (B754_zero false)) with (B754_nan : val F64). destruct (fmul (lit 1 (-1)) (Tanh m infinity)); reflexivity.
Qed.
End N.
