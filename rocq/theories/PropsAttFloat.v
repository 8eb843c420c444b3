(** * C74: attention in floating point *)
From Coq Require Import ZArith Bool Reals.
From Coq Require Import Lia List Arith Lra.
From Flocq Require Import Core BinarySingleNaN.
From Verif Require Import AsmModel AsmCalls AsmSpec FloatModel FloatSpec FloatProofs NumModel NumSpec NumLemmas NumMath AsmFloatSpec AsmFloat SoftSpec SoftFloat SoftFloat2 OptFloatNum NormFloatModel NormFloatSpec LossFloatModel LossFloatSpec LossFloatProofs6 RnnFloatModel RnnFloatSpec RnnFloatProofs AttFloatModel AttFloatSpec AttFloatProofs3 AttFloatProofs4 PropsRnnFloat.
Import ListNotations.
Local Open Scope list_scope.
Local Open Scope R_scope.

(** The weights of query i: n numbers between 0 and 1 that add up to 1 nearly; those of the hidden keys are exactly +0; if the
    scores are exact enough each of the others is nearly e^score / (the sum of e^score over the keys that the query sees). *)
Theorem C74_weights : forall g d cp dot sum a b n B V q k v scale causal i, go_math g -> dots_all dot -> adds_all sum -> good_inputs (d := d) a b n B V q k v scale -> (i < length q)%nat ->
  let w := nth i (snd (attention d dot sum (vector_exp g d cp) q k v scale causal)) [] in
  let seen := visible causal (length q) i n in let delta := score_error (d := d) a B scale in let f := score k scale (nth i q []) in
  length w = n /\
  (forall j, (j < n)%nat -> finite (nth j w fzero) /\ 0 <= real (nth j w fzero) <= 1 /\ ((seen <= j)%nat -> nth j w fzero = fzero)) /\
  (delta <= / 8 -> forall j, (j < seen)%nat -> Rabs (real (nth j w fzero) - share f seen j) <= (soft_rel d n + 4 * delta) * share f seen j + soft_abs d) /\
  Rabs (total w - 1) <= soft_rel d n + INR n * soft_abs d.
Proof.
  intros g d cp dot sum a b n B V q k v scale causal i G D A Q H. cbv zeta. destruct (weights_at d dot sum (vector_exp g d cp) q k v scale causal i H) as (-> & _).
  exact (weights_ok g G d cp dot D sum A _ (vector_exp_ok g d cp) a b n B V q k v scale causal Q i H).
Qed.
Print Assumptions C74_weights.
(** The attention of query i: finite, at most the largest value nearly, and nearly the sum of the values of the keys that the query
    sees, each times its exact share. *)
Theorem C74_attention : forall g d cp dot sum a b n B V q k v scale causal i c, go_math g -> dots_all dot -> adds_all sum -> good_inputs (d := d) a b n B V q k v scale -> (i < length q)%nat -> (c < b)%nat ->
  let out := nth i (fst (attention d dot sum (vector_exp g d cp) q k v scale causal)) [] in
  let seen := visible causal (length q) i n in let delta := score_error (d := d) a B scale in
  length out = b /\ finite (nth c out fzero) /\ Rabs (real (nth c out fzero)) <= (1 + 2 * soft_rel d n) * V + 2 * (INR n * half_tiny d) /\
  (delta <= / 8 -> Rabs (real (nth c out fzero) - attended (score k scale (nth i q [])) seen v c) <= att_error d n V delta).
Proof.
  intros g d cp dot sum a b n B V q k v scale causal i c G D A Q H Hc. cbv zeta. destruct (weights_at d dot sum (vector_exp g d cp) q k v scale causal i H) as (_ & ->).
  exact (attention_ok g G d cp dot D sum A _ (vector_exp_ok g d cp) a b n B V q k v scale causal Q i H c Hc).
Qed.
Print Assumptions C74_attention.
(** With a causal mask and several queries, the weights and the attention of query i are the same, bit for bit, whatever the other
    queries and the keys and values after i are, as long as they are finite and the scores do not overflow. *)
Theorem C74_causal : forall g d cp dot sum a b n scale B V q k v B' V' q' k' v' i, go_math g -> dots_all dot -> adds_all sum ->
  good_inputs (d := d) a b n B V q k v scale -> good_inputs a b n B' V' q' k' v' scale -> length q' = length q -> (1 < length q)%nat -> (i < length q)%nat ->
  nth i q' [] = nth i q [] -> (forall j, (j <= i)%nat -> nth j k' [] = nth j k [] /\ nth j v' [] = nth j v []) ->
  let run q k v := attention d dot sum (vector_exp g d cp) q k v scale true in
  nth i (snd (run q' k' v')) [] = nth i (snd (run q k v)) [] /\ nth i (fst (run q' k' v')) [] = nth i (fst (run q k v)) [].
Proof.
  intros g d cp dot sum a b n scale B V q k v B' V' q' k' v' i G D A. exact (hidden g G d cp dot D sum A _ (vector_exp_ok g d cp) a b n scale B V B' V' q k v q' k' v' i).
Qed.
Print Assumptions C74_causal.
(** But the weight +0 does not hide an infinity or a NaN: one such value after i makes the attention of query i NaN in its column. *)
Theorem C74_nonfinite_leaks : forall g d cp dot sum a b n scale B V q k v v' i j c, go_math g -> dots_all dot -> adds_all sum ->
  good_inputs (d := d) a b n B V q k v scale -> (1 < length q)%nat -> (i < j < n)%nat -> (i < length q)%nat -> (c < b)%nat -> length v' = n -> Forall (fun r => length r = b) v' ->
  is_finite (nth c (nth j v' []) fzero) = false -> nth c (nth i (fst (attention d dot sum (vector_exp g d cp) q k v' scale true)) []) fzero = B754_nan.
Proof.
  intros g d cp dot sum a b n scale B V q k v v' i j c G D A. exact (leaks g G d cp dot D sum A _ (vector_exp_ok g d cp) a b n scale B V q k v v' i j c).
Qed.
Print Assumptions C74_nonfinite_leaks.

(** ** The hypotheses are met: two queries, keys and values, all [x] *)
Definition pair_of d (x : val d) : list (list (val d)) := [[x]; [x]].
Lemma small_count d n : (n <= 3)%nat -> INR n * u d <= / 8.
Proof. intros H. pose proof (u_small d) as (U1 & U2). pose proof (inv_small 24 ltac:(lia)) as U3. apply Rle_trans with (INR 3 * u d); [apply Rmult_le_compat_r; [lra|apply le_INR, H]|cbn [INR]; lra]. Qed.
Lemma unit_scale d : finite (conv F64 d (lit 1 0)) /\ real (conv F64 d (lit 1 0)) = 1.
Proof. destruct (exact_lit F64 1 ltac:(lia)) as (F & E). destruct (conv_in F64 d (lit 1 0) 1 1 F (rep_1 d) (rep_1 d) ltac:(lra)) as (F' & B & _). split; [exact F'|lra]. Qed.
Lemma pair_in d z (P : val d -> Prop) : P (lit z 0) -> Forall (fun r : list (val d) => length r = 1%nat /\ Forall P r) (pair_of d (lit z 0)).
Proof. intros H. constructor; [|constructor; [|constructor]]; (split; [reflexivity|constructor; [exact H|constructor]]). Qed.
Example C74_case d x : (0 <= x < 2048)%Z -> good_inputs (d := d) 1 1 2 6 2048 (pair_of d (lit 2 0)) (pair_of d (lit 3 0)) [[lit 5 0]; [lit x 0]] (lit 1 0).
Proof.
  intros Hx. destruct (exact_lit d 2 ltac:(lia)) as (F2 & V2), (exact_lit d 3 ltac:(lia)) as (F3 & V3), (exact_lit d 5 ltac:(lia)) as (F5 & V5), (exact_lit d x Hx) as (Fx & Vx), (unit_scale d) as (Fs & Vs).
  pose proof (safe_big d) as S20. assert (P20 : 2 ^ 20 = 1048576) by (cbn; lra). assert (IX : 0 <= IZR x <= 2048) by (split; apply IZR_le; lia).
  constructor.
  - now apply pair_in.
  - split; [reflexivity|]. now apply pair_in.
  - split; [reflexivity|]. constructor; [|constructor; [|constructor]]; (split; [reflexivity|constructor; [|constructor]]); (split; [assumption|]); [rewrite V5|rewrite Vx]; rewrite Rabs_right; lra.
  - split; [exact Fs|]. rewrite Vs, Rabs_R1. lra.
  - intros y z [<-|[<-|[]]] [<-|[<-|[]]]; unfold product_abs; cbn [combine fold_right fst snd]; rewrite V2, V3, Rabs_right; lra.
  - rewrite Vs, Rabs_R1. lra.
  - split; [lia|]. split; apply small_count; lia.
Qed.
Example C74_delta d : score_error (d := d) 1 6 (lit 1 0) <= / 8.
Proof.
  unfold score_error. destruct (unit_scale d) as (_ & ->). rewrite Rabs_R1. pose proof (u_small d) as (U1 & U2). pose proof (inv_small 24 ltac:(lia)) as U3. pose proof (tiny_small d) as (T1 & T2). pose proof (inv_small 150 ltac:(lia)) as T3. cbn [INR]. lra.
Qed.
Definition in_sequence {d} (_ : nat) (l : list (val d)) : val d := match l with [] => fzero | x :: l' => fold_left fadd l' x end.
Example C74_sums d : adds_all (@in_sequence d).
Proof.
  intros k l. destruct l as [|x l]; [exact (sum_zero (floats d))|]. unfold in_sequence.
  assert (H : forall l k v, sum_of (floats d) v k -> sum_of (floats d) (fold_left fadd l v) (k ++ l)).
  { clear. induction l as [|a l IH]; intros k v H; cbn [fold_left]; [now rewrite app_nil_r|]. replace (k ++ a :: l) with ((k ++ [a]) ++ l) by (now rewrite <- app_assoc). apply IH.
    exact (sum_add (floats d) v a k [a] _ H (sum_one (floats d) a) (Permutation.Permutation_refl _)). }
  exact (H l [x] x (sum_one (floats d) x)).
Qed.
(** two different later values: the same attention *)
Example C74_causal_case d cp x y : (0 <= x < 2048)%Z -> (0 <= y < 2048)%Z ->
  let run z := attention d in_turn in_sequence (vector_exp rounded d cp) (pair_of d (lit 2 0)) (pair_of d (lit 3 0)) [[lit 5 0]; [lit z 0]] (lit 1 0) true in nth 0 (fst (run x)) [] = nth 0 (fst (run y)) [].
Proof.
  intros Hx Hy. cbv zeta. apply (C74_causal rounded d cp in_turn in_sequence 1 1 2 (lit 1 0) 6 2048 (pair_of d (lit 2 0)) (pair_of d (lit 3 0)) [[lit 5 0]; [lit y 0]] 6 2048 (pair_of d (lit 2 0)) (pair_of d (lit 3 0)) [[lit 5 0]; [lit x 0]] 0);
    try (apply C74_case; assumption); [exact rounded_go_math|apply C73_dots|apply C74_sums|reflexivity|cbn; lia|cbn; lia|reflexivity|]. intros [|j] Hj; [split; reflexivity|lia].
Qed.
(** so the causal mask does not hide what comes later if that is not finite *)
Theorem C74_causal_refuted : forall g d cp dot sum, go_math g -> dots_all dot -> adds_all sum -> exists (q k v v' : list (list (val d))) scale, length v' = length v /\ nth 0 v' [] = nth 0 v [] /\
  let run v := nth 0 (nth 0 (fst (attention d dot sum (vector_exp g d cp) q k v scale true)) []) fzero in finite (run v) /\ run v' = B754_nan.
Proof.
  intros g d cp dot sum G D A. exists (pair_of d (lit 2 0)), (pair_of d (lit 3 0)), [[lit 5 0]; [lit 7 0]], [[lit 5 0]; [infinity]], (lit 1 0). split; [reflexivity|]. split; [reflexivity|]. cbv zeta. pose proof (C74_case d 7 ltac:(lia)) as Q. split.
  - apply (C74_attention g d cp dot sum 1 1 2 6 2048 _ _ _ (lit 1 0) true 0 0 G D A Q); cbn; lia.
  - apply (C74_nonfinite_leaks g d cp dot sum 1 1 2 (lit 1 0) 6 2048 _ _ _ _ 0 1 0 G D A Q); try (cbn; lia); try reflexivity. constructor; [reflexivity|constructor; [reflexivity|constructor]].
Qed.
Print Assumptions C74_causal_refuted.
