(** * C75: gradient clipping in floating point *)
From Coq Require Import ZArith Bool Reals.
From Coq Require Import Lia List Arith Lra.
From Flocq Require Import Core BinarySingleNaN.
From Verif Require Import AsmModel AsmCalls AsmSpec FloatModel FloatSpec FloatProofs NumModel NumSpec NumLemmas AsmFloatSpec AsmFloat SoftFloat OptFloatNum NormFloatSpec LossFloatSpec RnnFloatProofs PropsRnnFloat PropsAttFloat
  ClipFloatModel ClipFloatSpec ClipFloatProofs ClipFloatProofs2 ClipFloatProofs3 ClipFloatProofs4.
Import ListNotations.
Local Open Scope list_scope.
Local Open Scope R_scope.

(** ** ValueClipper *)
Lemma bound_rounds d (v : val F64) : finite v -> 0 <= real v -> conv F64 d v = infinity \/ finite (conv F64 d v) /\ 0 <= real (conv F64 d v) /\ Rabs (real (conv F64 d v) - real v) <= u d * real v + half_tiny d.
Proof.
  intros Fv Pv. destruct v as [s|s| |s m e H]; try discriminate.
  - right. cbn. split; [reflexivity|]. split; [lra|]. rewrite Rminus_eq_0, Rabs_R0. pose proof (half_tiny_pos d). pose proof (u_pos d). lra.
  - pose proof (conv_finite F64 d s m e H) as C. cbv zeta in C. set (v := B754_finite s m e H : val F64) in *. destruct (Rlt_bool _ _).
    + destruct C as (Ft & Vt & _). right. split; [exact Ft|]. unfold real in Pv |- *. rewrite Vt. split; [now apply nearest_pos|]. pose proof (round_error d (B2R v)) as E. now rewrite (Rabs_right (B2R v)) in E by lra.
    + left. rewrite C. cbn [v Bsign]. destruct s; [|reflexivity]. exfalso. unfold v in Pv. cbn in Pv. pose proof (F2R_lt_0 radix2 (Float radix2 (Zneg m) e) ltac:(cbn; lia)). lra.
Qed.
(** With a bound v that is not negative every element of every gradient is put between -t and t, where t is v rounded to the type of
    the gradient: elements within stay as they are bit for bit, infinities become the bounds, NaN stays.  If v exceeds the range of the
    type nothing changes. *)
Theorem C75_value_clip : forall d (v : val F64) (gs : list (list (val d))), finite v -> 0 <= real v -> let t := conv F64 d v in
  exists gs', value_clip d v gs = Some gs' /\ Forall2 (Forall2 (fun x x' =>
    (is_nan x = true -> x' = x) /\ (t = infinity -> x' = x) /\
    (finite t -> is_nan x = false -> finite x' /\ Rabs (real x') <= real t /\
      (finite x -> real x' = Rmax (- real t) (Rmin (real t) (real x)) /\ (Rabs (real x) <= real t -> x' = x)) /\
      (x = infinity -> x' = t) /\ (x = minus_infinity -> x' = fneg t)))) gs gs' /\
  (t = infinity \/ finite t /\ 0 <= real t /\ Rabs (real t - real v) <= u d * real v + half_tiny d).
Proof.
  intros d v gs Fv Pv t. assert (L : flt v (fneg v) = false). { destruct (flt v (fneg v)) eqn:E; [|reflexivity]. apply lt_eq in E; [|exact Fv|now apply neg_finite]. rewrite neg_eq in E. lra. }
  pose proof (bound_rounds d v Fv Pv) as T. fold t in T.
  rewrite (value_clip_map d v gs L). eexists. split; [reflexivity|]. split; [|exact T]. rewrite conv_opp. fold t.
  assert (K : forall x : val d, let x' := clip_elem d (fneg t) t x in (is_nan x = true -> x' = x) /\ (t = infinity -> x' = x) /\ (finite t -> is_nan x = false -> finite x' /\ Rabs (real x') <= real t /\
      (finite x -> real x' = Rmax (- real t) (Rmin (real t) (real x)) /\ (Rabs (real x) <= real t -> x' = x)) /\ (x = infinity -> x' = t) /\ (x = minus_infinity -> x' = fneg t))).
  { intros x x'. unfold x'. split; [intros N; destruct x; try discriminate; apply clip_nan|]. split; [intros ->; apply clip_none|]. intros Ft N. apply clip_finite; [exact Ft| |exact N]. destruct T as [->|T]; [discriminate|apply T]. }
  induction gs as [|g gs IH]; cbn [map]; constructor; [|exact IH]. induction g as [|x g IHg]; cbn [map]; constructor; [apply K|exact IHg].
Qed.
Print Assumptions C75_value_clip.
(** A bound below zero makes it panic, unless there is nothing to clip; a bound that is not a number clips nothing. *)
Theorem C75_value_bounds : forall d (v : val F64) (gs : list (list (val d))),
  (finite v -> real v < 0 -> (value_clip d v gs = None <-> gs <> [])) /\ value_clip d B754_nan gs = Some gs.
Proof.
  intros d v gs. split.
  - intros Fv N. assert (L : flt v (fneg v) = true) by (apply lt_eq; [exact Fv|now apply neg_finite|rewrite neg_eq; lra]). destruct gs as [|g gs]; [split; [discriminate|easy]|]. rewrite value_clip_panic by exact L. split; [discriminate|reflexivity].
  - rewrite value_clip_map by reflexivity. f_equal. change (conv F64 d (fneg B754_nan)) with (fneg (B754_nan : val d)). change (conv F64 d B754_nan) with (B754_nan : val d).
    rewrite <- (map_id gs) at 2. apply map_ext. intros g. rewrite <- (map_id g) at 2. apply map_ext. intros x. apply clip_none.
Qed.
Print Assumptions C75_value_bounds.

(** ** NormClipper *)
(** Whatever the bound, the norm type, the library and the sums: the number and the sizes of the gradients do not change, and no NaN
    disappears. *)
Theorem C75_nan_stays : forall m d sum M p (gs gs' : list (list (val d))), norm_clip m d sum M p gs = Some gs' -> Forall2 (Forall2 (fun x x' => is_nan x = true -> is_nan x' = true)) gs gs'.
Proof.
  intros m d sum M p gs gs' E. unfold norm_clip in E. destruct (fle p fone); [discriminate|]. destruct (total_norm m d sum p gs) as [t|]; [|discriminate]. cbv zeta in E.
  assert (K : forall f : val d -> val d, (forall x, is_nan x = true -> is_nan (f x) = true) -> Forall2 (Forall2 (fun x x' => is_nan x = true -> is_nan x' = true)) gs (map (map f) gs)).
  { intros f H. clear E gs'. induction gs as [|g gs IH]; cbn [map]; constructor; [|exact IH]. induction g as [|x g IHg]; cbn [map]; constructor; [apply H|exact IHg]. }
  destruct (flt _ _); injection E as <-; [apply K; intros [] H; try discriminate; reflexivity|]. specialize (K (fun x => x) (fun x H => H)). rewrite (map_ext _ (fun g => g)) in K by (intros; apply map_id). now rewrite map_id in K.
Qed.
Print Assumptions C75_nan_stays.
(** Infinity norm: each gradient is multiplied by min(1, MaxNorm / (norm + 1e-7)), where the norm is exactly the largest absolute value,
    up to nine units of rounding.  (The bound 2^900 is no restriction for float32.) *)
Theorem C75_largest : forall m d sum (M : val F64) (gs : list (list (val d))), finite M -> 0 <= real M -> Forall (fun g => g <> [] /\ Forall finite g) gs -> largest_of gs <= 2 ^ 900 ->
  exists gs', norm_clip m d sum M infinity gs = Some gs' /\ Forall2 (Forall2 (scaled_by (9 * u d) (factor (real M) (largest_of gs)))) gs gs' /\
  largest_of gs' <= (1 + 9 * u d) * real M + 5 * half_tiny d * (largest_of gs + 1).
Proof.
  intros m d sum M gs FM PM F B. destruct (largest_clip m d sum M gs FM PM F B) as (gs' & E & H). exists gs'. split; [exact E|]. split; [exact H|]. pose proof (u_pos d) as U. pose proof (half_tiny_pos d) as T. pose proof (largest_pos d gs) as P. destruct (factor_pos (real M) (largest_of gs) PM P) as (K1 & K2). set (k := factor (real M) (largest_of gs)) in *.
  eapply Rle_trans; [apply (largest_bound d gs gs' ((1 + 9 * u d) * k + 5 * half_tiny d) (5 * half_tiny d)); [apply Rplus_le_le_0_compat; [apply Rmult_le_pos|]; lra|lra|]|].
  - eapply SoftFloat2.Forall2_weaken; [|exact H]. intros l l' Hl. eapply SoftFloat2.Forall2_weaken; [|exact Hl]. intros x x'. apply scaled_size; lra.
  - assert ((1 + 9 * u d) * (k * largest_of gs) <= (1 + 9 * u d) * real M) by (apply Rmult_le_compat_l; lra). lra.
Qed.
Print Assumptions C75_largest.
(** Euclidean norm, for n elements in k gradients whose squares do not come near overflow: the same with the exact Euclidean norm, up to
    5 (n + k) + 70 units of rounding, and the Euclidean norm of the result is at most MaxNorm up to that. *)
Theorem C75_euclid : forall m d sum (M : val F64) (gs : list (list (val d))), go_squares m -> adds_all sum -> finite M -> 0 <= real M -> Forall (Forall finite) gs ->
  INR (length (concat gs) + length gs) * u d <= / 32 -> squares_of (concat gs) <= safe d ->
  let r := euclid_error d (length (concat gs)) (length gs) in
  exists gs', norm_clip m d sum M two gs = Some gs' /\ Forall2 (Forall2 (scaled_by r (factor (real M) (euclid_of gs)))) gs gs' /\
  euclid_of gs' <= (1 + r) * real M + 5 * half_tiny d * (euclid_of gs + INR (length (concat gs))).
Proof.
  intros m d sum M gs G A FM PM F HN B r. destruct (euclid_clip m d sum G A M gs FM PM F HN B) as (gs' & E & H). fold r in H. exists gs'. split; [exact E|]. split; [exact H|]. pose proof (u_pos d) as U. pose proof (half_tiny_pos d) as T. assert (P : 0 <= euclid_of gs) by apply sqrt_pos. destruct (factor_pos (real M) (euclid_of gs) PM P) as (K1 & K2). set (k := factor (real M) (euclid_of gs)) in *.
  assert (R0 : 0 <= r) by (unfold r, euclid_error; apply Rmult_le_pos; [|lra]; pose proof (pos_INR (length (concat gs) + length gs)); lra).
  eapply Rle_trans; [apply (euclid_bound d gs gs' ((1 + r) * k + 5 * half_tiny d) (5 * half_tiny d)); [apply Rplus_le_le_0_compat; [apply Rmult_le_pos|]; lra|lra|]|].
  - eapply SoftFloat2.Forall2_weaken; [|exact H]. intros l l' Hl. eapply SoftFloat2.Forall2_weaken; [|exact Hl]. intros x x'. apply scaled_size; lra.
  - assert ((1 + r) * (k * euclid_of gs) <= (1 + r) * real M) by (apply Rmult_le_compat_l; lra). lra.
Qed.
Print Assumptions C75_euclid.
(** One NaN, and the Euclidean clipper changes nothing at all: the other gradients are not clipped. *)
Theorem C75_nan_unclipped : forall m d sum (M : val F64) (gs : list (list (val d))), go_squares m -> adds_all sum -> Exists (Exists (fun x => is_nan x = true)) gs -> norm_clip m d sum M two gs = Some gs.
Proof. intros m d sum M gs G A. exact (nan_unchanged m G d sum A M gs). Qed.
Print Assumptions C75_nan_unclipped.
(** One element that is infinite, or finite but so large that its square exceeds the range of the type, and no NaN: every finite
    element of every gradient becomes zero and every infinite one NaN. *)
Theorem C75_overflow_erases : forall m d sum (M : val F64) (gs : list (list (val d))), go_squares m -> adds_all sum -> finite M ->
  Forall (Forall (fun x => is_nan x = false)) gs -> Exists (Exists (fun x => ~ finite x \/ huge d <= Rabs (real x))) gs ->
  exists gs', norm_clip m d sum M two gs = Some gs' /\ Forall2 (Forall2 (fun x x' => (finite x -> finite x' /\ real x' = 0) /\ (~ finite x -> x' = B754_nan))) gs gs'.
Proof. intros m d sum M gs G A F N E. exact (overflow_erases m G d sum A M gs F N E). Qed.
Print Assumptions C75_overflow_erases.

(** ** The hypotheses are met, and what overflow costs *)
Example C75_library : go_squares squaring. Proof. exact squaring_ok. Qed.
Example C75_case d : let gs := [[lit 3 0; lit 4 0]; [lit 0 0 : val d]] in Forall (Forall finite) gs /\ INR (length (concat gs) + length gs) * u d <= / 32 /\ squares_of (concat gs) = 25 /\ euclid_of gs = 5 /\ largest_of gs = 4 /\ 25 <= safe d.
Proof.
  intros gs. destruct (exact_lit d 3 ltac:(lia)) as (F3 & V3), (exact_lit d 4 ltac:(lia)) as (F4 & V4), (exact_lit d 0 ltac:(lia)) as (F0 & V0). pose proof (u_small d) as (U1 & U2). pose proof (inv_small 24 ltac:(lia)) as U3. pose proof (safe_big d) as S. assert (P20 : 2 ^ 20 = 1048576) by (cbn; lra).
  assert (Q : squares_of (concat gs) = 25) by (unfold squares_of, gs; cbn [concat app fold_right]; rewrite V3, V4, V0; lra).
  split; [repeat constructor; assumption|]. split; [cbn [gs concat app length Nat.add INR]; lra|]. split; [exact Q|]. split; [unfold euclid_of; rewrite Q; replace 25 with (5 * 5) by lra; apply sqrt_square; lra|]. split; [|lra].
  unfold largest_of, gs. cbn [concat app fold_right]. rewrite V3, V4, V0, !Rabs_right by lra. unfold Rmax. repeat destruct (Rle_dec _ _); lra.
Qed.
(** So clipping by the Euclidean norm need not keep the direction of finite gradients: an element of 2^66 (2^520 for float64) and an
    element 1 both become zero, although the exact factor and both exact products are ordinary numbers. *)
Definition large_elem (d : dtype) : val d := match d with F32 => lit 1 66 | F64 => lit 1 520 end.
Lemma large_elem_ok d : finite (large_elem d) /\ huge d <= Rabs (real (large_elem d)).
Proof.
  unfold large_elem, huge. destruct d.
  - destruct (lit_eq F32 1 66 (2 ^ 66)) as (F & V); [rewrite pow2, Rmult_1_l; reflexivity|cbn; lia..|]. split; [exact F|]. rewrite V, Rabs_right by (apply Rle_ge, pow_le; lra). apply Rle_pow; [lra|lia].
  - destruct (lit_eq F64 1 520 (2 ^ 520)) as (F & V); [rewrite pow2, Rmult_1_l; reflexivity|cbn; lia..|]. split; [exact F|]. rewrite V, Rabs_right by (apply Rle_ge, pow_le; lra). apply Rle_pow; [lra|lia].
Qed.
Theorem C75_direction_refuted : forall m d sum (M : val F64), go_squares m -> adds_all sum -> finite M -> exists gs gs' : list (list (val d)),
  Forall (Forall finite) gs /\ ~ Forall (Forall (fun x => real x = 0)) gs /\ norm_clip m d sum M two gs = Some gs' /\ Forall (Forall (fun x => real x = 0)) gs'.
Proof.
  intros m d sum M G A FM. destruct (large_elem_ok d) as (Fl & Bl). destruct (exact_lit d 1 ltac:(lia)) as (F1 & V1). set (gs := [[large_elem d; lit 1 0]]). exists gs.
  destruct (C75_overflow_erases m d sum M gs G A FM) as (gs' & E & H); [repeat constructor; now apply finite_number|constructor; constructor; now right|].
  exists gs'. split; [repeat constructor; assumption|]. split; [|split; [exact E|]].
  - intros Z. pose proof (Forall_inv (Forall_inv_tail (Forall_inv Z))) as Q. cbn beta in Q. rewrite V1 in Q. lra.
  - inversion H as [|? g' ? l' Hg Hl]; subst. inversion Hl; subst. inversion Hg as [|? a ? l1 Ha H1]; subst. inversion H1 as [|? b ? l2 Hb H2]; subst. inversion H2; subst. repeat constructor; [apply Ha, Fl|apply Hb, F1].
Qed.
Print Assumptions C75_direction_refuted.
