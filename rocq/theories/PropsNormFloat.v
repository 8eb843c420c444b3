(** * Property C71: normalization layers in floating point *)
From Coq Require Import List ZArith Reals Lia Lra Bool.
From Flocq Require Import Core BinarySingleNaN.
From Verif Require Import FloatModel FloatSpec NumModel NumSpec NumLemmas AsmFloatSpec AsmFloat OptFloatModel OptFloatNum AsmModel AsmCalls AsmSpec AsmProofs6.
From Verif Require Import NormFloatModel NormFloatSpec NormFloatNum NormFloatProofs NormFloatProofs2 NormFloatBack5 NormFloatEdge NormFloatLayers.
Import ListNotations.
Open Scope R_scope.

(** ** The results.  For every vector of finite elements of at most 2^50 (2^440) and at most 2^16 (2^45) elements, in whatever
    order the elements are added: each result is x_i / (size + 1e-10) up to a relative error of 1.6 (n + 16) units of rounding
    (and half of the smallest positive number).  Missing: larger elements (refuted below). *)
Theorem C71_fix_norm_partial : forall d sum (x : list (val d)) i, adds_all sum -> few d (length x) -> sized (in_max d) x -> (i < length x)%nat ->
  let t := elem i x / (length_of (reals x) + guard10) in
  finite (nth i (fix_norm d sum x) fzero) /\ Rabs (elem i (fix_norm d sum x) - t) <= 1.6 * rho d (length x) * Rabs t + half_tiny d.
Proof. intros d sum x i A Hn Hx Hi. destruct (fix_good d sum x i A Hn Hx Hi) as (F & _ & E). split; assumption. Qed.
Print Assumptions C71_fix_norm_partial.

Theorem C71_scale_norm_partial : forall d sum (gain x : list (val d)) i, adds_all sum -> few d (length x) -> sized (in_max d) x -> sized (back_max d) gain -> length gain = length x -> (i < length x)%nat ->
  let t := elem i gain * (elem i x / (length_of (reals x) + guard10)) in
  finite (nth i (scale_norm d sum gain x) fzero) /\
  Rabs (elem i (scale_norm d sum gain x) - t) <= 1.7 * rho d (length x) * Rabs t + 1.1 * ((Rabs (elem i gain) + 1) * half_tiny d).
Proof.
  intros d sum gain x i A Hn Hx Hg L Hi. destruct (sized_nth _ gain i Hg ltac:(lia)) as (Fg & Bg). unfold scale_norm. rewrite nth_zip; [|unfold fix_norm; rewrite div_length; exact Hi|lia].
  destruct (scaled_good d _ _ (nth i gain fzero) _ (proj1 (few_small d _ Hn)) (fix_good d sum x i A Hn Hx Hi) Fg Bg) as (F & _ & E). split; assumption.
Qed.
Print Assumptions C71_scale_norm_partial.

Theorem C71_rms_norm_partial : forall d sum (w b x : list (val d)) i, adds_all sum -> few d (length x) -> sized (in_max d) x -> sized (back_max d) w -> sized (back_max d) b ->
  length w = length x -> length b = length x -> (i < length x)%nat ->
  let t := elem i w * (elem i x / (rms_of (reals x) + guard10)) in
  finite (nth i (rms_norm d sum w b x) fzero) /\
  Rabs (elem i (rms_norm d sum w b x) - (t + elem i b)) <= 1.8 * rho d (length x) * Rabs t + u d * Rabs (elem i b) + 1.2 * ((Rabs (elem i w) + 1) * half_tiny d).
Proof.
  intros d sum w b x i A Hn Hx Hw Hb Lw Lb Hi. destruct (sized_nth _ w i Hw ltac:(lia)) as (Fw & Bw). destruct (sized_nth _ b i Hb ltac:(lia)) as (Fb & Bb). unfold rms_norm.
  assert (L1 : length (rms_unit d sum x) = length x) by apply div_length. assert (L2 : length (zip fmul (rms_unit d sum x) w) = length x) by (rewrite zip_length; congruence). rewrite !nth_zip by lia.
  exact (shifted_good d _ _ _ _ _ (proj1 (few_small d _ Hn)) (rms_good d sum x i A Hn Hx Hi) Fw Bw Fb Bb).
Qed.
Print Assumptions C71_rms_norm_partial.

(** ** The gradients.  If moreover the gradients gy are at most 2^20 (2^440) and one element is at least 2^-56 (2^-480), then the
    backward pass returns the slopes of the sum of the results times gy, up to 14 (n + 16) units of rounding, relative to the
    sum of the |gy| over the divisor. *)
Theorem C71_fix_gradient_partial : forall m d sum (x gy : list (val d)), inverse_root m -> adds_all sum -> few d (length x) -> sized (in_max d) x -> sized (back_max d) gy -> length x = length gy ->
  Exists (fun v => visible d <= Rabs (real v)) x -> close_slope length_of x gy (fix_norm_back m d sum x gy).
Proof. exact fix_back. Qed.
Print Assumptions C71_fix_gradient_partial.
Theorem C71_rms_gradient_partial : forall m d sum (x gy : list (val d)), inverse_root m -> adds_all sum -> few d (length x) -> sized (in_max d) x -> sized (back_max d) gy -> length x = length gy ->
  Exists (fun v => visible d <= Rabs (real v)) x -> close_slope rms_of x gy (rms_unit_back m d sum x gy).
Proof. exact rms_back. Qed.
Print Assumptions C71_rms_gradient_partial.
(** the layers with a gain: the same for the (rounded) products of gain and gradient *)
Theorem C71_gain_gradient_partial : forall m d sum (x gain gy : list (val d)), inverse_root m -> adds_all sum -> few d (length x) -> sized (in_max d) x -> length gain = length x -> length gy = length x ->
  sized (back_max d) (zip fmul gain gy) -> Exists (fun v => visible d <= Rabs (real v)) x ->
  close_slope length_of x (zip fmul gain gy) (scale_norm_back m d sum gain x gy) /\ close_slope rms_of x (zip fmul gain gy) (rms_norm_back m d sum gain x gy).
Proof. intros m d sum x gain gy Hm A Hn Hx Lg Ly Hy V. assert (L : length x = length (zip fmul gain gy)) by (rewrite zip_length; congruence). split; [apply fix_back|apply rms_back]; assumption. Qed.
Print Assumptions C71_gain_gradient_partial.

(** ** Refuted: small inputs.  The elements are so small that their squares vanish (a vector of zeros for example): no gradient
    is a number, whatever the gradients of the results are.  The true slopes are the gy times at most 10^10. *)
Theorem C71_small_gradient_refuted : forall m d sum (x gy : list (val d)), inverse_root m -> adds_all sum -> few d (length x) -> sized (invisible d) x -> length gy = length x ->
  Forall (fun g => ~ finite g) (fix_norm_back m d sum x gy) /\ Forall (fun g => ~ finite g) (rms_unit_back m d sum x gy).
Proof. intros m d sum x gy Hm A Hn Hx L. split; [apply fix_no_gradient|apply rms_no_gradient]; auto. Qed.
Print Assumptions C71_small_gradient_refuted.
(** LayerNormSimple and AdaNorm: the same for a vector of zeros, and for every vector with one element *)
Theorem C71_constant_gradient_refuted : forall m d sum scale (x gy : list (val d)), inverse_root m -> adds_all sum -> few d (length x) -> length gy = length x ->
  (exists v, x = [v] /\ finite v) \/ (x <> [] /\ Forall (fun v => finite v /\ real v = 0) x) ->
  Forall (fun g => ~ finite g) (simple_norm_back m d sum x gy) /\ Forall (fun g => ~ finite g) (ada_norm_back m d sum scale x gy).
Proof.
  intros m d sum scale x gy Hm A Hn L C. assert (V : is_zero (variance d sum x)). { destruct C as [(v & -> & F)|(Ne & Z)]; [now apply variance_single|apply variance_zeros; auto; destruct x; [congruence|cbn; lia]]. }
  split; [now apply simple_no_gradient|]. apply simple_no_gradient; auto. unfold ada_factor. rewrite zip_length; rewrite map_length; unfold simple_norm, div_scalar, deviations, sub_scalar; rewrite !map_length; congruence.
Qed.
Print Assumptions C71_constant_gradient_refuted.

(** ** Refuted: large inputs.  One element is at least 2^64 (2^512): every result is zero, though the vector of the true results has length 1. *)
Theorem C71_large_refuted : forall d sum (x : list (val d)), adds_all sum -> few d (length x) -> overflows x ->
  Forall (fun y => finite y /\ real y = 0) (fix_norm d sum x) /\ Forall (fun y => finite y /\ real y = 0) (rms_unit d sum x).
Proof. intros d sum x A Hn O. split; [apply (fix_overflow d sum x A O)|apply (rms_overflow d sum x A Hn O)]. Qed.
Print Assumptions C71_large_refuted.

(** ** Refuted: constant vectors.  Their deviations from the mean are 0, but the rounded mean of 0.1, 0.1, 0.1 in float32 is not
    0.1, and LayerNormSimple scales the three deviations up to -0.98. *)
Definition in_turn {d} (k : nat) (l : list (val d)) : val d := plain_sum (fzero : val d) fadd l.
Lemma in_turn_adds d : adds_all (@in_turn d).
Proof. intros k l. exact (plain_sum_of (floats d) l). Qed.
Definition tenths : list (val F32) := repeat (lit 13421773 (-27)) 3.
Theorem C71_constant_refuted : exists sum (x : list (val F32)) v, adds_all sum /\ few F32 (length x) /\ finite v /\ Rabs (real v) <= 1 /\ x = repeat v 3 /\
  Forall (fun y => finite y /\ real y <= - (0.98)) (simple_norm F32 sum x).
Proof.
  exists in_turn, tenths, (lit 13421773 (-27)). split; [apply in_turn_adds|]. split; [unfold few, u; cbn; lra|].
  destruct (lit_eq F32 13421773 (-27) (13421773 / 134217728) ltac:(cbn; lra) ltac:(cbn; lia) ltac:(cbn; lia) ltac:(cbn; lia)) as (F & E). split; [exact F|]. split; [rewrite E, Rabs_right; lra|]. split; [reflexivity|].
  assert (S : map B2SF (simple_norm F32 in_turn tenths) = repeat (SpecFloat.S754_finite true 16555018 (-24)) 3) by (vm_compute; reflexivity).
  assert (P : forall y : val F32, B2SF y = SpecFloat.S754_finite true 16555018 (-24) -> finite y /\ real y <= - (0.98)).
  { intros y Hy. split; [unfold finite; rewrite <- finite_SF, Hy; reflexivity|]. unfold real. rewrite <- SF2R_B2SF, Hy. change (SF2R radix2 (SpecFloat.S754_finite true 16555018 (-24))) with (IZR (-16555018) * bpow radix2 (-24)). change (bpow radix2 (-24)) with (/ 16777216). lra. }
  destruct (simple_norm F32 in_turn tenths) as [|a [|b [|c [|e l]]]]; try discriminate. cbn [map repeat] in S. injection S as E1 E2 E3. do 3 (constructor; [apply P; assumption|]). constructor.
Qed.
Print Assumptions C71_constant_refuted.

(** ** The hypotheses are met *)
Definition three_four : list (val F32) := [lit 3 0; lit 4 0].
Lemma small_int d k B : (0 <= k < 16)%Z -> IZR k <= B -> finite (lit k 0 : val d) /\ Rabs (real (lit k 0 : val d)) <= B.
Proof. intros H L. destruct (lit_eq d k 0 (IZR k) ltac:(cbn; lra) ltac:(destruct d; cbn; lia) ltac:(destruct d; cbn; lia) ltac:(destruct d; cbn; lia)) as (F & E). split; [exact F|]. rewrite E, Rabs_right; [exact L|]. apply Rle_ge, IZR_le. lia. Qed.
Example C71_inputs : adds_all (@in_turn F32) /\ few F32 (length three_four) /\ sized (in_max F32) three_four /\ sized (back_max F32) three_four /\ Exists (fun v => visible F32 <= Rabs (real v)) three_four /\ inverse_root root_libm.
Proof.
  split; [apply in_turn_adds|]. split; [unfold few, u; cbn; lra|]. split; [do 2 (constructor; [apply small_int; try lia; unfold in_max; lra|]); constructor|]. split; [do 2 (constructor; [apply small_int; try lia; unfold back_max; lra|]); constructor|]. split; [|exact go_root_ok].
  left. destruct (lit_eq F32 3 0 3 ltac:(cbn; lra) ltac:(cbn; lia) ltac:(cbn; lia) ltac:(cbn; lia)) as (_ & ->). rewrite Rabs_right by lra. unfold visible. lra.
Qed.
Example C71_small_inputs : sized (invisible F32) ([fzero; fzero] : list (val F32)).
Proof. do 2 (constructor; [split; [reflexivity|change (B2R (fzero : val F32)) with 0; rewrite Rabs_R0; unfold invisible; left; apply Rinv_0_lt_compat, pow_lt; lra]|]). constructor. Qed.
Example C71_large_inputs : overflows ([lit 1 0; lit 1 70] : list (val F32)).
Proof.
  split; [repeat constructor|]. right. left. destruct (lit_eq F32 1 70 (2 ^ 70) ltac:(rewrite Rmult_1_l, pow2; reflexivity) ltac:(cbn; lia) ltac:(cbn; lia) ltac:(cbn; lia)) as (_ & E). unfold real in E. rewrite E. rewrite Rabs_right by (apply Rle_ge, pow_le; lra). unfold too_large. apply Rle_pow; [lra|lia].
Qed.
(** LayerNorm, with 0.00001 inside of the root, has gradients where LayerNormSimple has none. *)
Example C71_layer_norm : Forall (fun v => is_finite v = true) (layer_unit_back root_libm F32 in_turn (lit 10995116 (-40)) ([fzero; fzero] : list (val F32)) three_four).
Proof.
  assert (E : forallb is_finite (layer_unit_back root_libm F32 in_turn (lit 10995116 (-40)) ([fzero; fzero] : list (val F32)) three_four) = true) by (vm_compute; reflexivity).
  rewrite forallb_forall in E. rewrite Forall_forall. exact E.
Qed.
