(** * C59: finite values stay finite *)
From Coq Require Import List ZArith Bool Reals Lia Lra.
From Flocq Require Import Core BinarySingleNaN.
From Verif Require Import DenseModel DenseLemmas ArithModel FloatModel FloatSpec FloatProofs NumModel NumSpec NumLemmas NumProofs NumProofs2 NumProofs3 NumProofs4 NumProofs5 NumMath.
Import ListNotations.
Open Scope R_scope.

(** Softmax of a vector of finite values, of any length: every entry is finite and between 0 and 1, and they are not all zero *)
Theorem C59_softmax : forall (m : libm) d (x : dense (val d)), go_math m -> is_vector x = true -> all_finite x -> data x <> [] ->
  exists s, softmax m d x = Some s /\ length (data s) = length (data x) /\ Forall (fun p => finite p /\ 0 <= real p <= 1) (data s) /\ Exists (fun p => 0 < real p) (data s).
Proof.
  intros m d x G V F N. destruct (softmax_finite m G d x V F N) as (s & E & L & B & P). exists s. repeat split; auto. eapply Exists_impl; [|exact P]. intros p H. eapply Rlt_le_trans; [|exact H]. apply Rinv_0_lt_compat, bpow_gt_0.
Qed.
Print Assumptions C59_softmax.
(** LogSumExp of such a vector is finite, and no smaller than its largest entry *)
Theorem C59_log_sum_exp : forall (m : libm) d (x : dense (val d)), go_math m -> is_vector x = true -> all_finite x -> data x <> [] ->
  exists s, log_sum_exp m d x = Some s /\ finite s /\ forall v, In v (data x) -> real v <= real s.
Proof. intros m d x G. now apply log_sum_exp_finite. Qed.
Print Assumptions C59_log_sum_exp.
(** The activations of finite values are finite *)
Theorem C59_forward : forall (m : libm) d a (x : dense (val d)), go_math m -> usual a -> all_finite x ->
  exists y, forward m d a x = Some y /\ length (data y) = length (data x) /\ all_finite y.
Proof. intros m d a x G. now apply forward_finite. Qed.
Print Assumptions C59_forward.
(** The sigmoid is between 0 and 1 *)
Theorem C59_sigmoid : forall (m : libm) d (x : dense (val d)), go_math m -> all_finite x ->
  exists y, forward m d Sigmoid x = Some y /\ Forall (fun v => finite v /\ 0 <= real v <= 1) (data y).
Proof. intros m d x G F. eexists. split; [reflexivity|]. now apply sigmoid_range. Qed.
Print Assumptions C59_sigmoid.
(** Gradients: no NaN, and nothing infinite but what the product with the incoming gradient exceeds. What is missing: this holds
    for Swish, SwishB, Mish and GELU only of the inputs of [near]; the theorems below say that it fails for others. *)
Theorem C59_gradient_partial : forall (m : libm) d a (x gy : dense (val d)), go_math m -> usual a -> all_finite x -> all_finite gy ->
  rows gy = rows x -> cols gy = cols x -> length (data gy) = length (data x) -> Forall (near d a) (data x) ->
  all_finite (derivative m d a x) /\ exists gx, gradient m d a x gy = Some gx /\ length (data gx) = length (data x) /\ no_nan gx.
Proof. intros m d a x gy G U F Fg R C L N. split; [now apply derivative_finite|now apply gradient_number]. Qed.
Print Assumptions C59_gradient_partial.

(** ** Where it fails *)
Lemma grad_at m d a f (x gy gx : dense (val d)) i v w : derivative m d a x = apply d f x -> gradient m d a x gy = Some gx -> length (data gy) = length (data x) ->
  nth_error (data x) i = Some v -> conv F64 d (f (conv d F64 v)) = w -> exists g, nth_error (data gy) i = Some g /\ nth_error (data gx) i = Some (fmul w g).
Proof.
  intros D E L H W. unfold gradient in E. destruct (same_dims x gy); [|discriminate]. rewrite D in E. pose proof (prod_data d _ _ _ E) as P. rewrite apply_data, map_length in P. rewrite P by congruence.
  assert (Hi : (i < length (data gy))%nat) by (rewrite L; apply nth_error_Some; congruence). destruct (nth_error (data gy) i) as [g|] eqn:Hg; [|apply nth_error_None in Hg; lia]. exists g. split; [reflexivity|].
  rewrite nth_error_map. assert (C : nth_error (combine (map (fun v => conv F64 d (f (conv d F64 v))) (data x)) (data gy)) i = Some (w, g)); [|now rewrite C].
  clear -H Hg W. revert i H Hg. generalize (data x) (data gy). intros l l'. revert l'. induction l as [|a l IH]; intros l' [|i] H Hg; try discriminate; destruct l' as [|b l']; try discriminate; cbn in *; [congruence|]. now apply IH.
Qed.
Lemma nan_l d (g : val d) : fmul B754_nan g = B754_nan.
Proof. destruct g; reflexivity. Qed.
(** Swish: the gradient at every input from 358 on is NaN (the derivative there is 1) *)
Theorem C59_swish_refuted : forall (m : libm) d (x gy gx : dense (val d)) i v, go_math m -> length (data gy) = length (data x) -> gradient m d Swish x gy = Some gx ->
  nth_error (data x) i = Some v -> finite v -> 358 <= real v -> nth_error (data gx) i = Some B754_nan.
Proof.
  intros m d x gy gx i v G L E H F B. destruct (conv_up d v F) as (A & V).
  destruct (grad_at m d Swish (go_swish_deriv m) x gy gx i v B754_nan eq_refl E L H) as (g & _ & ->); [|now rewrite nan_l]. rewrite (swish_nan m G) by (auto; lra). reflexivity.
Qed.
Print Assumptions C59_swish_refuted.
Theorem C59_swishb_refuted : forall (m : libm) d beta (x gy gx : dense (val d)) i v, go_math m -> length (data gy) = length (data x) -> gradient m d (SwishB beta) x gy = Some gx ->
  nth_error (data x) i = Some v -> finite v -> finite beta -> 0 < real v -> 358 <= real v * real beta -> nth_error (data gx) i = Some B754_nan.
Proof.
  intros m d beta x gy gx i v G L E H F Fb P B. destruct (conv_up d v F) as (A & V).
  destruct (grad_at m d (SwishB beta) (go_swishb_deriv m beta) x gy gx i v B754_nan eq_refl E L H) as (g & _ & ->); [|now rewrite nan_l].
  assert (Pb : 0 < real beta). { destruct (Rle_or_lt (real beta) 0) as [Q|Q]; [|exact Q]. assert (real v * real beta <= real v * 0) by (apply Rmult_le_compat_l; lra). lra. }
  rewrite (swishb_nan m G); [reflexivity|]. apply (mul_ge F64 _ _ (real v) (real beta)); [right; split; [exact A|lra]|right; split; [exact Fb|lra]|exact P|exact Pb|exact B|apply (rep_i 358); lia].
Qed.
Print Assumptions C59_swishb_refuted.
(** Mish: NaN from 240 on, and from 180 to 230 a finite incoming gradient is multiplied by zero (the derivative there is 1) *)
Theorem C59_mish_refuted : forall (m : libm) d (x gy gx : dense (val d)) i v, go_math m -> length (data gy) = length (data x) -> all_finite gy -> gradient m d Mish x gy = Some gx ->
  nth_error (data x) i = Some v -> finite v ->
  (240 <= real v -> nth_error (data gx) i = Some B754_nan) /\
  (180 <= real v <= 230 -> exists g, nth_error (data gx) i = Some g /\ finite g /\ real g = 0).
Proof.
  intros m d x gy gx i v G L Fg E H F. destruct (conv_up d v F) as (A & V). split; intros B.
  - destruct (grad_at m d Mish (go_mish_deriv m) x gy gx i v B754_nan eq_refl E L H) as (g & _ & ->); [|now rewrite nan_l]. rewrite (mish_nan m G) by (auto; lra). reflexivity.
  - destruct (grad_at m d Mish (go_mish_deriv m) x gy gx i v _ eq_refl E L H eq_refl) as (g & Hg & ->). destruct (mish_zero m G _ A) as (Fz & Vz); [lra|].
    destruct (conv_in F64 d _ 0 0 Fz (rep_0 _) (rep_0 _)) as (Fc & Bc & _); [lra|]. apply nth_error_In in Hg. unfold all_finite in Fg. rewrite Forall_forall in Fg. eexists. split; [reflexivity|].
    destruct (mul_in d (conv F64 d (go_mish_deriv m (conv d F64 v))) g 0 0 Fc (Fg g Hg) (rep_0 _) (rep_0 _)) as (X & Y & _); [replace (real (conv F64 d (go_mish_deriv m (conv d F64 v)))) with 0 by lra; lra|]. split; [exact X|lra].
Qed.
Print Assumptions C59_mish_refuted.
(** GELU in float64: NaN from 2^350 on *)
Theorem C59_gelu_refuted : forall (m : libm) (x gy gx : dense (val F64)) i v, go_math m -> length (data gy) = length (data x) -> gradient m F64 GELU x gy = Some gx ->
  nth_error (data x) i = Some v -> finite v -> 2 ^ 350 <= real v -> nth_error (data gx) i = Some B754_nan.
Proof.
  intros m x gy gx i v G L E H F B. destruct (grad_at m F64 GELU (go_gelu_deriv m) x gy gx i v B754_nan eq_refl E L H) as (g & _ & ->); [|now rewrite nan_l].
  rewrite !conv_same. now apply (gelu_nan m G).
Qed.
Print Assumptions C59_gelu_refuted.
(** SoftPlus whose threshold lets exp overflow: the value of a moderate input is infinite, its derivative NaN *)
Theorem C59_softplus_refuted : forall (m : libm) beta threshold (v : val F64), go_math m -> finite beta -> / 2 ^ 20 <= real beta <= 2 ^ 20 -> finite threshold ->
  finite v -> real v <= real threshold -> 710 <= real beta * real v ->
  forward m F64 (SoftPlus beta threshold) (mkDense 1 1 [v]) = Some (mkDense 1 1 [infinity]) /\ derivative m F64 (SoftPlus beta threshold) (mkDense 1 1 [v]) = mkDense 1 1 [B754_nan].
Proof.
  intros m beta t v G Fb Bb Ft Fv L B. destruct (softplus_over m G beta t v Fb Bb Ft Fv L B) as (A & C). split.
  - change (Some (mkDense 1 1 [conv F64 F64 (go_softplus m beta t (conv F64 F64 v))]) = Some (mkDense 1 1 [infinity])). rewrite !conv_same. now rewrite A.
  - change (mkDense 1 1 [conv F64 F64 (go_softplus_deriv m beta t (conv F64 F64 v))] = mkDense 1 1 [B754_nan]). rewrite !conv_same. now rewrite C.
Qed.
Print Assumptions C59_softplus_refuted.
(** LogSoftmax: an entry more than 746 below another has minus infinity, although the value is near the difference *)
Theorem C59_log_softmax_refuted : forall (m : libm) d (x : dense (val d)) v w, go_math m -> is_vector x = true -> all_finite x -> In v (data x) -> In w (data x) -> real v <= real w - 746 ->
  exists y, log_softmax m d x = Some y /\ In minus_infinity (data y).
Proof. intros m d x v w G. now apply log_softmax_low. Qed.
Print Assumptions C59_log_softmax_refuted.
(** and in float32 its gradient can be infinite where its value is finite: at [0; -100], for the gradient [0; 1] *)
Theorem C59_log_softmax_gradient_refuted : forall m : libm, go_math m ->
  exists y z, softmax m F32 low = Some y /\ log_softmax m F32 low = Some z /\ all_finite z /\ all_finite low /\ all_finite pick /\
  log_softmax_grad F32 y pick = Some (mkDense 2 1 [minus_infinity; infinity]).
Proof.
  intros m G. destruct (low_gradient m G) as (y & E & Q). destruct (low_finite m G) as (y' & z & E' & Z & F). assert (y' = y) by congruence. subst y'. exists y, z. repeat split; auto; repeat constructor.
Qed.
Print Assumptions C59_log_softmax_gradient_refuted.

(** ** The assumptions are met by a library with correctly rounded functions, and the hypotheses by concrete inputs *)
Theorem C59_go_math : go_math rounded.
Proof. exact rounded_go_math. Qed.
Print Assumptions C59_go_math.
Example C59_vector : let x : dense (val F32) := mkDense 3 1 [lit 1 0; lit (-1) 100; lit 1 127] in is_vector x = true /\ all_finite x /\ data x <> [].
Proof. cbv zeta. repeat split; [repeat constructor|discriminate]. Qed.
Example C59_softmax_case : exists s, softmax rounded F32 (mkDense 3 1 [lit 1 0; lit (-1) 100; lit 1 127]) = Some s /\ length (data s) = 3%nat /\ Forall (fun p => finite p /\ 0 <= real p <= 1) (data s).
Proof. destruct (C59_softmax rounded F32 _ rounded_go_math (proj1 C59_vector) (proj1 (proj2 C59_vector)) (proj2 (proj2 C59_vector))) as (s & A & B & C & _). exists s. auto. Qed.
Example C59_usual : usual (ELU (lit 1 0)) /\ usual (SoftPlus (lit 1 0) (lit 20 0)) /\ usual (SwishB (lit 1 0)) /\ usual Mish.
Proof.
  destruct (two_eq 1 eq_refl) as (F1 & V1). destruct (two_eq 20 eq_refl) as (F20 & V20). cbn [usual]. unfold moderate. rewrite V1, V20.
  assert (1 <= 2 ^ 100) by (apply pow_R1_Rle; lra). assert (1 <= 2 ^ 20) by (apply pow_R1_Rle; lra). assert (/ 2 ^ 20 <= 1) by (rewrite <- Rinv_1; apply Rinv_le_contravar; lra). rewrite Rabs_R1. repeat split; auto; lra.
Qed.
Example C59_near : near F32 Swish (lit 100 0) /\ near F64 Mish (lit (-100) 0) /\ near F64 GELU (lit 1 200).
Proof.
  cbn [near]. assert (A : real (lit 100 0 : val F32) = 100) by (apply (lit_eq F32 100 0); [cbn; lra|cbn; lia..]). assert (B : real (lit (-100) 0 : val F64) = -100) by (apply (lit_eq F64 (-100) 0); [cbn; lra|unfold prec, emax; lia..]).
  assert (C : real (lit 1 200 : val F64) = bpow radix2 200) by (apply (lit_eq F64 1 200); [ring|unfold prec, emax; lia..]). rewrite A, B, C.
  split; [apply Rabs_le; lra|]. split; [apply Rabs_le; lra|]. rewrite Rabs_pos_eq by apply bpow_ge_0. rewrite pow2. apply bpow_le. lia.
Qed.
Example C59_swish_case : gradient rounded F32 Swish (mkDense 1 1 [lit 400 0]) (mkDense 1 1 [lit 1 0]) = Some (mkDense 1 1 [B754_nan]).
Proof.
  assert (A : finite (lit 400 0 : val F32) /\ real (lit 400 0 : val F32) = 400) by (apply (lit_eq F32 400 0); [cbn; lra|cbn; lia..]). destruct A as (F & V).
  change (Some (mkDense 1 1 [fmul (conv F64 F32 (go_swish_deriv rounded (conv F32 F64 (lit 400 0)))) (lit 1 0)]) = Some (mkDense 1 1 [B754_nan])). destruct (conv_up F32 _ F) as (A & B). rewrite (swish_nan rounded rounded_go_math) by (auto; lra). reflexivity.
Qed.
