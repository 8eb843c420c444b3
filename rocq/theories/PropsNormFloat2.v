(** * Property C71, continued: LayerNorm, LayerNormSimple and AdaNorm in floating point *)
From Coq Require Import List ZArith Reals Lia Lra Bool.
From Flocq Require Import Core BinarySingleNaN.
From Verif Require Import FloatModel FloatSpec NumModel NumSpec NumLemmas AsmFloatSpec AsmFloat OptFloatModel OptFloatNum AsmModel AsmCalls AsmSpec.
From Verif Require Import NormFloatModel NormFloatSpec NormFloatLayers LayerFloatSpec LayerFloatProofs LayerFloatProofs2 PropsNormFloat.
Import ListNotations.
Open Scope R_scope.

(** For every vector of elements of at most B <= 2^48 (2^438) and at most 2^16 (2^45) elements, in whatever order the elements are
    added.  The deviations from the mean are exact up to 1.01 (n + 16) units of rounding of B, the largest element: not of
    the deviations, which may be much smaller.  The error of the results is that, times 1 + sqrt n, over the divisor, and
    1.6 (n + 16) units of rounding of the result.  Missing: larger elements (C71_large_refuted), the gradients. *)
Theorem C71_layer_norm_simple_partial : forall d sum (x : list (val d)) B i, adds_all sum -> few d (length x) -> sized B x -> 0 <= B <= in_max d / 4 -> (i < length x)%nat ->
  let dev := centered (reals x) in let D := rms_of dev + guard10 in let q := nth i dev 0 / D in
  finite (nth i (simple_norm d sum x) fzero) /\ Rabs (elem i (simple_norm d sum x) - q) <= layer_error d (length x) B D q.
Proof. intros d sum x B i A Hn Hx HB Hi. exact (simple_ok d sum x B A Hx HB Hn i Hi). Qed.
Print Assumptions C71_layer_norm_simple_partial.

(** LayerNorm, with e inside of the root, between 2^-60 and 1, the gain w and the bias b *)
Theorem C71_layer_norm_partial : forall d sum (eps : val d) (w b x : list (val d)) B i, adds_all sum -> few d (length x) -> sized B x -> 0 <= B <= in_max d / 4 ->
  finite eps -> / 2 ^ 60 <= real eps <= 1 -> length w = length x -> length b = length x -> sized (back_max d) w -> sized (back_max d) b -> (i < length x)%nat ->
  let dev := centered (reals x) in let D := spread (real eps) dev in let q := nth i dev 0 / D in
  finite (nth i (layer_norm d sum eps w b x) fzero) /\
  Rabs (elem i (layer_norm d sum eps w b x) - (elem i w * q + elem i b)) <= layer_norm_error d (length x) B D q (elem i w) (elem i b).
Proof. intros d sum eps w b x B i A Hn Hx HB Fe He Lw Lb Hw Hb Hi. exact (layer_ok d sum x B A Hx HB Hn eps Fe He w b i Lw Lb Hw Hb Hi). Qed.
Print Assumptions C71_layer_norm_partial.

(** AdaNorm: scale q (1 - q / 10) *)
Theorem C71_ada_norm_partial : forall d sum (scale : val d) (x : list (val d)) B i, adds_all sum -> few d (length x) -> sized B x -> 0 <= B <= in_max d / 4 ->
  finite scale -> Rabs (real scale) <= back_max d -> (i < length x)%nat ->
  let dev := centered (reals x) in let D := rms_of dev + guard10 in let q := nth i dev 0 / D in
  finite (nth i (ada_norm d sum scale x) fzero) /\ Rabs (elem i (ada_norm d sum scale x) - ada_of (real scale) q) <= ada_error d (length x) B D q (real scale).
Proof. intros d sum scale x B i A Hn Hx HB Fs Bs Hi. exact (ada_ok d sum x B scale A Hx HB Hn Fs Bs i Hi). Qed.
Print Assumptions C71_ada_norm_partial.

(** The hypotheses are met by 3, 4 with B = 4 and e = 1e-5; there the deviations are -1/2 and 1/2, and the error of LayerNormSimple is below 2^-15 *)
Example C71_layer_inputs : sized 4 three_four /\ 0 <= 4 <= in_max F32 / 4 /\ finite (lit 10995116 (-40) : val F32) /\ / 2 ^ 60 <= real (lit 10995116 (-40) : val F32) <= 1 /\
  centered (reals three_four) = [- / 2; / 2] /\ let D := rms_of [- / 2; / 2] + guard10 in layer_error F32 2 4 D (/ 2 / D) <= / 2 ^ 15.
Proof.
  assert (E3 : real (lit 3 0 : val F32) = 3) by (apply lit_eq; [cbn; lra|cbn; lia..]). assert (E4 : real (lit 4 0 : val F32) = 4) by (apply lit_eq; [cbn; lra|cbn; lia..]).
  split; [do 2 (constructor; [apply small_int; try lia; lra|]); constructor|]. split; [unfold in_max; lra|].
  destruct (lit_eq F32 10995116 (-40) (10995116 * / 1099511627776) ltac:(reflexivity) ltac:(cbn; lia) ltac:(cbn; lia) ltac:(cbn; lia)) as (Fe & ->). split; [exact Fe|]. split; [lra|].
  split. { unfold centered, mean_of, reals, three_four. cbn [map length fold_right]. unfold real in E3, E4. rewrite E3, E4. cbn [INR]. f_equal; [lra|]. f_equal. lra. }
  cbv zeta. assert (R : rms_of [- / 2; / 2] = / 2). { unfold rms_of, squares. cbn [fold_right length INR]. replace (((- / 2) ^ 2 + ((/ 2) ^ 2 + 0)) / (1 + 1)) with (/ 2 * / 2) by lra. apply sqrt_square. lra. } rewrite R.
  unfold layer_error, center_error, rho, u, half_tiny, guard10. cbn [INR]. assert (S2 : sqrt (1 + 1) <= 1.5) by (replace 1.5 with (sqrt (1.5 * 1.5)) by (apply sqrt_square; lra); apply sqrt_le_1_alt; lra). pose proof (sqrt_pos (1 + 1)) as S0.
  set (D := / 2 + / 10 ^ 10). assert (PD : / 2 <= D) by (unfold D; lra). assert (ID : 0 < / D <= 2) by (split; [apply Rinv_0_lt_compat; lra|rewrite <- (Rinv_inv 2); apply Rinv_le_contravar; lra]).
  rewrite (Rabs_right (/ 2 / D)) by (unfold Rdiv; apply Rle_ge, Rmult_le_pos; lra). assert (T : 0 <= / 2 ^ 150 <= / 2 ^ 30) by (split; [left; apply Rinv_0_lt_compat, pow_lt; lra|apply Rinv_le_contravar; [apply pow_lt; lra|apply Rle_pow; [lra|lia]]]). set (t := / 2 ^ 150) in *. clearbody t. unfold Rdiv.
  assert (X : (1 + sqrt (1 + 1)) * (1.01 * ((1 + 1 + 16) * / 2 ^ 24 * 4 + t) * / D) <= 2.5 * (1.01 * ((1 + 1 + 16) * / 2 ^ 24 * 4 + t) * 2)) by (apply Rmult_le_compat; [lra|apply Rmult_le_pos; lra|lra|apply Rmult_le_compat_l; lra]). lra.
Qed.
