(** * C68: training in floating point *)
From Coq Require Import ZArith Bool Lia List Arith Reals Lra Psatz.
From Flocq Require Import Core BinarySingleNaN.
From Verif Require Import DenseModel DenseSpec ArithModel ArithSpec FloatModel FloatSpec NumModel NumSpec NumLemmas AsmFloatSpec AsmFloat OptFloatModel OptFloatSpec OptFloatNum OptFloatNum2 OptFloatNum3 OptFloatProofs OptFloatNum4 OptFloatProofs2 OptFloatProofs3 OptFloatProofs4 OptFloatProofs5 OptFloatProofs6 OptFloatRate.
Import ListNotations.
Local Open Scope R_scope.

(** Adam, in float32 and in float64, with every rounding: whatever the gradients, as long as their squares are in range, every
    update succeeds, moves each weight by at most K times the rate, and the weights stay within twice the bound B for ever: near B
    the rounding of the weight absorbs the step. *)
Theorem C68_adam d K A B (alpha : nat -> val F64) b1 b2 eps r c (g : nat -> dense (val d)) x0 :
  averages K b1 b2 -> guard eps -> 0 <= A <= 2 ^ 19 -> (forall n, rate A (alpha n)) -> room d (K * A) B ->
  within d B r c x0 -> (forall n, within d (grad_max d) r c (g n)) ->
  forall n, exists x x', successive d (fun n => adam_optimize d (alpha n) b1 b2 eps fzero) g x0 n x x' /\
    within d (2 * B) r c x /\ within d (2 * B) r c x' /\ moved_at_most d (K * real (alpha n)) r c x x'.
Proof. intros Hb He HA Ha HB Hx Hg. eapply adam_bounded; eauto. Qed.
Print Assumptions C68_adam.

(** AdamW: the weights also decay, each by the rate times lambda. *)
Theorem C68_adamw d K A B (alpha : nat -> val F64) b1 b2 eps lambda r c (g : nat -> dense (val d)) x0 :
  averages K b1 b2 -> guard eps -> 0 <= A <= 2 ^ 19 -> (forall n, rate A (alpha n)) -> room d (K * A) B ->
  rate 1 lambda -> 0 < real lambda -> (forall n, real (alpha n) * real lambda <= / 2) ->
  within d B r c x0 -> (forall n, within d (grad_max d) r c (g n)) ->
  forall n, exists x x', successive d (fun n => adam_optimize d (alpha n) b1 b2 eps lambda) g x0 n x x' /\
    within d (2 * B) r c x /\ within d (2 * B) r c x' /\ moved_decayed d (K * real (alpha n)) (real (alpha n) * real lambda) r c x x'.
Proof.
  intros Hb He HA Ha HB Hl Hl0 Hal Hx Hg. eapply adamw_bounded; eauto. destruct Hl as (Fl & _).
  destruct lambda as [s| | |s m e H]; try discriminate; [cbn in Hl0; lra|]. destruct s; reflexivity.
Qed.
Print Assumptions C68_adamw.

Theorem C68_radam d K A B (alpha root : nat -> val F64) b1 b2 eps r c (g : nat -> dense (val d)) x0 :
  averages K b1 b2 -> (forall n, guard (fmul eps (root n))) -> 0 <= A <= 2 ^ 19 -> (forall n, rate A (alpha n)) -> room d (K * A) B ->
  within d B r c x0 -> (forall n, within d (grad_max d) r c (g n)) ->
  forall n, exists x x', successive d (fun n => radam_optimize d (alpha n) (root n) b1 b2 eps) g x0 n x x' /\
    within d (2 * B) r c x /\ within d (2 * B) r c x' /\ moved_at_most d (K * real (alpha n)) r c x x'.
Proof. intros Hb He HA Ha HB Hx Hg. eapply radam_bounded; eauto. Qed.
Print Assumptions C68_radam.

Theorem C68_rmsprop d K A B (lr : nat -> val F64) eps decay r c (g : nat -> dense (val d)) x0 :
  square_average K decay -> guard eps -> 0 <= A <= 2 ^ 19 -> (forall n, rate A (lr n)) -> room d (K * A) B ->
  within d B r c x0 -> (forall n, within d (grad_max d) r c (g n)) ->
  forall n, exists x x', successive d (fun n => rmsprop_optimize d (lr n) eps decay) g x0 n x x' /\
    within d (2 * B) r c x /\ within d (2 * B) r c x' /\ moved_at_most d (K * real (lr n)) r c x x'.
Proof. intros Hb He HA Ha HB Hx Hg. eapply rmsprop_bounded; eauto. Qed.
Print Assumptions C68_rmsprop.

(** AdaGrad adds the squares of all gradients; the sum is bounded too, for rounding in the end absorbs the squares. *)
Theorem C68_adagrad d A B (lr : nat -> val F64) eps r c (g : nat -> dense (val d)) x0 :
  guard eps -> 0 <= A <= 2 ^ 19 -> (forall n, rate A (lr n)) -> room d ((1 + / 2 ^ 16) * A) B ->
  within d B r c x0 -> (forall n, within d (adagrad_max d) r c (g n)) ->
  forall n, exists x x', successive d (fun n => adagrad_optimize d (lr n) eps) g x0 n x x' /\
    within d (2 * B) r c x /\ within d (2 * B) r c x' /\ moved_at_most d ((1 + / 2 ^ 16) * real (lr n)) r c x x'.
Proof. intros He HA Ha HB Hx Hg. eapply adagrad_bounded; eauto. Qed.
Print Assumptions C68_adagrad.

(** SGD: a step is at most the rate times the bound P of the gradients; with momentum, at most M = 2 A P / (1 - mu), and three times
    that after Nesterov. *)
Theorem C68_sgd d A P B (alpha : nat -> val F64) nesterov r c (g : nat -> dense (val d)) x0 :
  0 <= A <= 2 ^ 19 -> (forall n, rate A (alpha n) /\ / 2 ^ 100 <= real (alpha n)) -> 0 <= P -> room d (P * A) B ->
  within d B r c x0 -> (forall n, within d P r c (g n)) ->
  forall n, exists x x', successive d (fun n => sgd_optimize d (alpha n) fzero nesterov) g x0 n x x' /\
    within d (2 * B) r c x /\ within d (2 * B) r c x' /\ moved_at_most d (P * real (alpha n)) r c x x'.
Proof. intros HA Ha HP HB Hx Hg. eapply sgd_bounded; eauto; intros m; apply (Ha m). Qed.
Print Assumptions C68_sgd.

Theorem C68_momentum d A P M B (alpha : nat -> val F64) mu (nesterov : bool) r c (g : nat -> dense (val d)) x0 :
  momentum mu -> 0 < real mu -> (1 - real mu) * M = 2 * (A * P) ->
  0 <= A <= 2 ^ 19 -> (forall n, rate A (alpha n) /\ / 2 ^ 100 <= real (alpha n)) -> 0 <= P -> room d (3 * M) B ->
  within d B r c x0 -> (forall n, within d P r c (g n)) ->
  forall n, exists x x', successive d (fun n => sgd_optimize d (alpha n) mu nesterov) g x0 n x x' /\
    within d (2 * B) r c x /\ within d (2 * B) r c x' /\ moved_at_most d (if nesterov then 3 * M else M) r c x x'.
Proof.
  intros Hmu Hp HM HA Ha HP HB Hx Hg. eapply momentum_bounded; eauto; try (intros m; apply (Ha m)). destruct Hmu as (Fl & _).
  destruct mu as [s| | |s m e H]; try discriminate; [cbn in Hp; lra|]. destruct s; reflexivity.
Qed.
Print Assumptions C68_momentum.

(** The rate of Adam at time step ts, computed with math.Pow and math.Sqrt, is between 0 and the step size over 1 - b1. *)
Theorem C68_rate m step b1 b2 S ts : powers m b1 -> powers m b2 -> rate S step -> S <= 2 ^ 8 ->
  0 <= real b1 <= 1 - / 2 ^ 10 -> 0 <= real b2 <= 1 - / 2 ^ 14 -> (1 <= ts)%nat ->
  rate (S / (1 - real b1) * (1 + / 2 ^ 20) + half_tiny F64) (adam_alpha m step b1 b2 ts).
Proof. intros P1 P2 Hs HS H1 H2 Ht. now apply adam_alpha_rate. Qed.
Print Assumptions C68_rate.
(** RAdam multiplies the guard by the root of 1 - b2^ts, which leaves it large enough. *)
Theorem C68_radam_guard m b2 eps ts : powers m b2 -> 0 <= real b2 <= 1 - / 2 ^ 14 -> guard eps -> / 2 ^ 67 <= real eps ^ 2 * (1 - real b2) -> (1 <= ts)%nat ->
  guard (fmul eps (radam_root m b2 ts)).
Proof. intros P H He Hg Ht. now apply radam_guard. Qed.
Print Assumptions C68_radam_guard.

(** Finding: one finite gradient whose square is out of range (in float32, one of 2^64 = 1.8e19) makes the average of the squares
    infinite.  No later gradient can undo this: from then on that element never moves again, whatever its gradients. *)
Theorem C68_adam_frozen_refuted d K A (alpha : nat -> val F64) b1 b2 eps r c (g : nat -> dense (val d)) x0 k i j :
  averages K b1 b2 -> guard eps -> A <= 2 ^ 19 -> (forall n, rate A (alpha n)) -> (wf x0 /\ rows x0 = r /\ cols x0 = c) -> spike d (grad_max d) r c g k i j ->
  forall n, (k <= n)%nat -> exists x x', successive d (fun n => adam_optimize d (alpha n) b1 b2 eps fzero) g x0 n x x' /\ kept d x x' i j.
Proof. intros Hb He HA Ha Hx Hs. eapply adam_frozen; eauto. Qed.
Print Assumptions C68_adam_frozen_refuted.
Theorem C68_rmsprop_frozen_refuted d K A (lr : nat -> val F64) eps decay r c (g : nat -> dense (val d)) x0 k i j :
  square_average K decay -> guard eps -> A <= 2 ^ 19 -> (forall n, rate A (lr n)) -> (wf x0 /\ rows x0 = r /\ cols x0 = c) -> spike d (grad_max d) r c g k i j ->
  forall n, (k <= n)%nat -> exists x x', successive d (fun n => rmsprop_optimize d (lr n) eps decay) g x0 n x x' /\ kept d x x' i j.
Proof. intros Hb He HA Ha Hx Hs. eapply rmsprop_frozen; eauto. Qed.
Print Assumptions C68_rmsprop_frozen_refuted.
Theorem C68_adagrad_frozen_refuted d A (lr : nat -> val F64) eps r c (g : nat -> dense (val d)) x0 k i j :
  guard eps -> A <= 2 ^ 19 -> (forall n, rate A (lr n)) -> (wf x0 /\ rows x0 = r /\ cols x0 = c) -> spike d (adagrad_max d) r c g k i j ->
  forall n, (k <= n)%nat -> exists x x', successive d (fun n => adagrad_optimize d (lr n) eps) g x0 n x x' /\ kept d x x' i j.
Proof. intros He HA Ha Hx Hs. eapply adagrad_frozen; eauto. Qed.
Print Assumptions C68_adagrad_frozen_refuted.

(** ** The default settings *)
Definition float_0_9 : val F64 := lit 8106479329266893 (-53).
Definition float_0_999 : val F64 := lit 8998192055486251 (-53).
Definition float_0_01 : val F64 := lit 5764607523034235 (-59).
Definition float_1e_8 : val F64 := lit 6044629098073146 (-79).
Lemma at_0_9 : finite float_0_9 /\ real float_0_9 = 8106479329266893 / 2 ^ 53.
Proof. apply lit_eq; [|reflexivity|cbn; lia|cbn; lia]. change (-53)%Z with (- Z.of_nat 53)%Z. now rewrite bpow_opp, <- pow2. Qed.
Lemma at_0_999 : finite float_0_999 /\ real float_0_999 = 8998192055486251 / 2 ^ 53.
Proof. apply lit_eq; [|reflexivity|cbn; lia|cbn; lia]. change (-53)%Z with (- Z.of_nat 53)%Z. now rewrite bpow_opp, <- pow2. Qed.
Lemma at_0_01 : finite float_0_01 /\ real float_0_01 = 5764607523034235 / 2 ^ 59.
Proof. apply lit_eq; [|reflexivity|cbn; lia|cbn; lia]. change (-59)%Z with (- Z.of_nat 59)%Z. now rewrite bpow_opp, <- pow2. Qed.
Lemma at_1e_8 : finite float_1e_8 /\ real float_1e_8 = 6044629098073146 / 2 ^ 79.
Proof. apply lit_eq; [|reflexivity|cbn; lia|cbn; lia]. change (-79)%Z with (- Z.of_nat 79)%Z. now rewrite bpow_opp, <- pow2. Qed.
Lemma default_averages : averages 8 float_0_9 float_0_999.
Proof.
  destruct at_0_9 as (F1 & E1), at_0_999 as (F2 & E2). unfold averages. rewrite E1, E2. repeat split; auto; try lra.
Qed.
Lemma default_guard : guard float_1e_8.
Proof. destruct at_1e_8 as (F & E). split; [exact F|]. rewrite E. lra. Qed.
Lemma default_rate : rate (/ 50) float_0_01.
Proof. destruct at_0_01 as (F & E). split; [exact F|]. rewrite E. lra. Qed.
Lemma default_square_average : square_average 32 float_0_999.
Proof. destruct at_0_999 as (F & E). unfold square_average. rewrite E. repeat split; auto; lra. Qed.
(** a weight of -3 and a gradient of 10^12 at every step *)
Definition mat1 (z e : Z) : dense (val F32) := mkDense 1 1 [lit z e].
Lemma mat1_within z e B : (Z.abs z < 2 ^ 24)%Z -> (0 <= e <= 100)%Z -> Rabs (IZR z * bpow radix2 e) <= B -> within F32 B 1 1 (mat1 z e).
Proof.
  intros Hz He HB. split; [reflexivity|]. split; [reflexivity|]. split; [reflexivity|]. intros i j Hi Hj. assert (i = 0%nat) by lia. assert (j = 0%nat) by lia. subst.
  change (get fzero (mat1 z e) 0 0) with (lit z e : val F32). destruct (lit_eq F32 z e _ eq_refl Hz) as (F & E); [cbn; lia|cbn; lia|]. rewrite E. auto.
Qed.
Lemma small_room : room F32 (8 * / 50) (2 ^ 24).
Proof. unfold room, weight_max, u. split; [split|]; lra. Qed.
(** With the default settings float32 weights never leave the range of 2^25, for ever, and move by at most 8 rates at a time. *)
Example C68_case : forall n, exists x x', successive F32 (fun _ => adam_optimize F32 float_0_01 float_0_9 float_0_999 float_1e_8 fzero) (fun k => mat1 (if Nat.even k then 1000000 else -7) 20) (mat1 (-3) 0) n x x' /\
    within F32 (2 * 2 ^ 24) 1 1 x /\ within F32 (2 * 2 ^ 24) 1 1 x' /\ moved_at_most F32 (8 * real float_0_01) 1 1 x x'.
Proof.
  apply C68_adam with (A := / 50); [exact default_averages|exact default_guard|lra|intros; exact default_rate|exact small_room|apply mat1_within; [reflexivity|lia|cbn; rewrite Rabs_left; lra]|].
  intros n. apply mat1_within; [destruct (Nat.even n); reflexivity|lia|]. change (bpow radix2 20) with 1048576. unfold grad_max. destruct (Nat.even n); [rewrite Rabs_right|rewrite Rabs_left]; lra.
Qed.
Lemma mat1_spike : spike F32 (2 ^ 40) 1 1 (fun k => if Nat.eqb k 3 then mat1 1 64 else mat1 1 0) 3 0 0.
Proof.
  split; [lia|]. split; [lia|]. split; [|split].
  - intros n. destruct (Nat.eqb n 3); repeat split; reflexivity.
  - unfold at_. cbn [Nat.eqb]. change (get fzero (mat1 1 64) 0 0) with (lit 1 64 : val F32). destruct (lit_eq F32 1 64 (2 ^ 64)) as (_ & E); [rewrite pow2; cbn [Z.of_nat]; rewrite Rmult_1_l; reflexivity|reflexivity|cbn; lia|cbn; lia|]. rewrite E. unfold too_large. lra.
  - intros n Hn. apply Nat.eqb_neq in Hn. rewrite Hn. unfold at_. change (get fzero (mat1 1 0) 0 0) with (lit 1 0 : val F32). destruct (lit_eq F32 1 0 1) as (_ & E); [cbn; lra|reflexivity|cbn; lia|cbn; lia|]. rewrite E, Rabs_right; lra.
Qed.
Lemma spike_more d B B' r c g k i j : B <= B' -> spike d B r c g k i j -> spike d B' r c g k i j.
Proof. intros H (A1 & A2 & A3 & A4 & A5). repeat split; auto; try apply A3; try apply A4. intros n Hn. specialize (A5 n Hn). lra. Qed.
(** The gradient is 1 at every step but one, and the weight no longer moves after that one. *)
Example C68_frozen_case : forall n, (3 <= n)%nat -> exists x x', successive F32 (fun _ => adam_optimize F32 float_0_01 float_0_9 float_0_999 float_1e_8 fzero)
    (fun k => if Nat.eqb k 3 then mat1 1 64 else mat1 1 0) (mat1 (-3) 0) n x x' /\ kept F32 x x' 0 0.
Proof.
  apply C68_adam_frozen_refuted with (K := 8) (A := / 50) (r := 1%nat) (c := 1%nat); [exact default_averages|exact default_guard|lra|intros; exact default_rate|repeat split|].
  apply spike_more with (2 := mat1_spike). unfold grad_max. lra.
Qed.
Example C68_frozen_case_2 : (forall n, (3 <= n)%nat -> exists x x', successive F32 (fun _ => rmsprop_optimize F32 float_0_01 float_1e_8 float_0_999)
    (fun k => if Nat.eqb k 3 then mat1 1 64 else mat1 1 0) (mat1 (-3) 0) n x x' /\ kept F32 x x' 0 0) /\
  (forall n, (3 <= n)%nat -> exists x x', successive F32 (fun _ => adagrad_optimize F32 float_0_01 float_1e_8)
    (fun k => if Nat.eqb k 3 then mat1 1 64 else mat1 1 0) (mat1 (-3) 0) n x x' /\ kept F32 x x' 0 0).
Proof.
  split.
  - apply C68_rmsprop_frozen_refuted with (K := 32) (A := / 50) (r := 1%nat) (c := 1%nat); [exact default_square_average|exact default_guard|lra|intros; exact default_rate|repeat split|].
    apply spike_more with (2 := mat1_spike). unfold grad_max. lra.
  - apply C68_adagrad_frozen_refuted with (A := / 50) (r := 1%nat) (c := 1%nat); [exact default_guard|lra|intros; exact default_rate|repeat split|].
    apply spike_more with (2 := mat1_spike). unfold adagrad_max. lra.
Qed.
(** the other theorems: their hypotheses are met too *)
Example C68_settings : rate 1 float_0_01 /\ 0 < real float_0_01 /\ real float_0_01 * real float_0_01 <= / 2 /\ / 2 ^ 100 <= real float_0_01 /\
  guard (fmul float_1e_8 fone) /\ square_average 32 float_0_999 /\ room F32 (32 * / 50) (2 ^ 26) /\ room F32 ((1 + / 2 ^ 16) * / 50) (2 ^ 24) /\
  momentum float_0_9 /\ 0 < real float_0_9 /\ (1 - real float_0_9) * (2 * (/ 50 * 100) / (1 - real float_0_9)) = 2 * (/ 50 * 100) /\
  room F32 (3 * (2 * (/ 50 * 100) / (1 - real float_0_9))) (2 ^ 40) /\ / 2 ^ 67 <= real float_1e_8 ^ 2 * (1 - real float_0_999).
Proof.
  destruct at_0_01 as (F1 & E1), at_0_9 as (F2 & E2), at_1e_8 as (F3 & E3), at_0_999 as (F4 & E4).
  split; [split; [exact F1|rewrite E1; lra]|]. rewrite E1. split; [lra|]. split; [lra|]. split; [lra|].
  split; [replace (fmul float_1e_8 fone) with float_1e_8 by (apply B2SF_inj; vm_compute; reflexivity); exact default_guard|].
  split; [exact default_square_average|]. split; [unfold room, weight_max, u; split; [split|]; lra|]. split; [unfold room, weight_max, u; split; [split|]; lra|].
  split; [split; [exact F2|rewrite E2; lra]|]. rewrite E2. split; [lra|]. split; [lra|]. split; [unfold room, weight_max, u; split; [split|]; lra|]. rewrite E3, E4. lra.
Qed.
(** A Pow that meets what is assumed of it. *)
Example C68_powers : powers (mkLibm (fun x => x) (fun x => x) (fun x => x) (fun x => x) (fun b _ => b)) float_0_9.
Proof. intros ts _. cbn [Pow]. destruct at_0_9 as (F & E). split; [exact F|]. rewrite E. lra. Qed.
