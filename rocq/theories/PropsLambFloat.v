(** * C76: LAMB in floating point *)
From Coq Require Import Reals.
From Coq Require Import ZArith Bool Lia List Arith Lra Psatz.
From Flocq Require Import Core BinarySingleNaN.
From Verif Require Import DenseModel DenseSpec ArithModel ArithSpec FloatModel FloatSpec NumModel NumSpec NumLemmas AsmFloatSpec AsmFloat AsmModel AsmSpec
  OptFloatModel OptFloatSpec OptFloatProofs NormFloatSpec LambFloatModel LambFloatSpec LambFloatProofs4 PropsOptFloat PropsNormFloat.
Import ListNotations.
Local Open Scope R_scope.

(** LAMB, in float32 and in float64, with every rounding and with the additions in any order: whatever the gradients, as long as
    their squares are in range, every update of every history succeeds.  Let q be the direction of Adam plus lambda x, computed in
    floating point from the gradients so far.  While the weights x are at most 2^30 (2^400) in size and not all so small that their
    squares vanish, no weight moves by more than 1.5 times the rate times the length of x; q is within 1.01 K of lambda x; and x
    moves by the rate times the length of x along q, each element up to 2.5 rho of its step, provided q too is not so small that its
    squares vanish.  From weights so small that all their squares vanish, as zero ones, it takes the step of Adam, the rate times q. *)
Theorem C76_lamb_step d sum K (alpha : nat -> val F64) b1 b2 eps lambda r c (g : nat -> dense (val d)) x0 :
  adds_all sum -> averages K b1 b2 -> guard eps -> rate 1 lambda -> (forall n, rate (2 ^ 8) (alpha n)) -> few d (r * c) ->
  wf x0 /\ rows x0 = r /\ cols x0 = c -> (forall n, within d (grad_max d) r c (g n)) ->
  forall n, exists x x' q, successive d (fun n => lamb_optimize d sum (alpha n) b1 b2 eps lambda) g x0 n x x' /\
    direction d b1 b2 eps lambda r c g n x q /\
    (within d (lamb_max d) r c x -> seen r c x ->
     moved_by d (1.5 * (real (alpha n) * mat_length x)) r c x x' /\
     within d (2 * lamb_max d) r c q /\ decayed_direction d K (real lambda) r c x q /\
     (seen r c q -> stepped d (real (alpha n) * mat_length x) (2.5 * rho d (r * c)) r c x q x')) /\
    (within d (invisible d) r c x ->
     within d (2 * lamb_max d) r c q /\ decayed_direction d K (real lambda) r c x q /\ adam_stepped d (real (alpha n)) r c x q x').
Proof.
  intros A Hb He Hl Ha Hf Hx Hg n. destruct (lamb_history d sum K alpha b1 b2 eps lambda r c g x0 A Hb He Hl Ha Hf Hx Hg n) as (x & x' & S & q & H). exists x, x', q. split; [exact S|exact H].
Qed.
Print Assumptions C76_lamb_step.

(** ** Refuted: that finite weights stay finite.  The norms are sums of squares in the type of the weights: one weight of 2^64 in
    float32 makes the norm, the trust ratio and the step infinite, and the next update makes every weight infinite or NaN, also the
    weight 1 next to it. *)
Definition mat2 (a b : val F32) : dense (val F32) := mkDense 2 1 [a; b].
Definition spoilt : param F32 -> outcome (param F32) := lamb_optimize F32 in_turn float_0_01 float_0_9 float_0_999 float_1e_8 fzero.
Lemma spoilt_run : match run F32 (fun _ => spoilt) (fun _ => mat2 fone fone) 1 (new_param F32 (mat2 (lit 1 64) fone)) with
  | OK p => negb (is_finite (get fzero (p_value F32 p) 0 0)) && negb (is_finite (get fzero (p_value F32 p) 1 0)) | _ => false end = true.
Proof. vm_compute. reflexivity. Qed.
Theorem C76_overflow_refuted : exists sum (x0 : dense (val F32)) (g : nat -> dense (val F32)) x x',
  adds_all sum /\ within F32 (2 ^ 64) 2 1 x0 /\ within F32 1 2 1 (g 0%nat) /\ at_ F32 x0 1 0 = 1 /\
  successive F32 (fun _ => lamb_optimize F32 sum float_0_01 float_0_9 float_0_999 float_1e_8 fzero) g x0 0 x x' /\ x = x0 /\
  forall i, (i < 2)%nat -> is_finite (get fzero x' i 0) = false.
Proof.
  assert (L1 : finite (lit 1 64 : val F32) /\ real (lit 1 64 : val F32) = 2 ^ 64). { apply lit_eq; [|reflexivity|cbn; lia|cbn; lia]. rewrite pow2. cbn [Z.of_nat]. rewrite Rmult_1_l. reflexivity. }
  destruct (one_eq F32) as (F1 & E1). destruct L1 as (F2 & E2).
  pose proof spoilt_run as R. set (x0 := mat2 (lit 1 64) fone) in *. set (g := fun _ : nat => mat2 fone fone) in *. destruct (run F32 (fun _ => spoilt) g 1 (new_param F32 x0)) as [p| |] eqn:E; try discriminate.
  apply andb_prop in R. destruct R as (R1 & R2). apply negb_true_iff in R1, R2.
  assert (G0 : get fzero x0 0 0 = lit 1 64) by reflexivity. assert (G1 : get fzero x0 1 0 = fone) by reflexivity.
  assert (H0 : get fzero (g 0%nat) 0 0 = fone) by reflexivity. assert (H1 : get fzero (g 0%nat) 1 0 = fone) by reflexivity.
  exists (@in_turn F32), x0, g, x0, (p_value F32 p). split; [apply in_turn_adds|]. split; [|split; [|split; [|split; [|split]]]].
  - split; [reflexivity|]. split; [reflexivity|]. split; [reflexivity|]. intros i j Hi Hj. assert (j = 0%nat) by lia. subst j. assert (C : i = 0%nat \/ i = 1%nat) by lia. destruct C as [-> | ->].
    + rewrite G0. split; [exact F2|]. rewrite E2. rewrite Rabs_right; lra.
    + rewrite G1. split; [exact F1|]. rewrite E1. rewrite Rabs_right; lra.
  - split; [reflexivity|]. split; [reflexivity|]. split; [reflexivity|]. intros i j Hi Hj. assert (j = 0%nat) by lia. subst j. assert (C : i = 0%nat \/ i = 1%nat) by lia. destruct C as [-> | ->].
    + rewrite H0. split; [exact F1|]. rewrite E1. rewrite Rabs_right; lra.
    + rewrite H1. split; [exact F1|]. rewrite E1. rewrite Rabs_right; lra.
  - unfold at_. rewrite G1. exact E1.
  - exists (new_param F32 x0), p. split; [reflexivity|]. split; [exact E|]. split; reflexivity.
  - reflexivity.
  - intros i Hi. assert (C : i = 0%nat \/ i = 1%nat) by lia. destruct C as [-> | ->]; assumption.
Qed.
Print Assumptions C76_overflow_refuted.

(** A parameter that carries the state of another optimizer is reported as an error: by LAMB, and by the other optimizers. *)
Theorem C76_foreign_state : forall d p s, p_state d p = Some s ->
  ((forall t, s <> LambState d t) -> forall sum alpha b1 b2 eps lambda, lamb_optimize d sum alpha b1 b2 eps lambda p = Err) /\
  ((forall t, s <> SgdState d t) -> forall alpha mu nesterov, sgd_optimize d alpha mu nesterov p = Err) /\
  ((forall t, s <> AdamState d t) -> forall alpha b1 b2 eps lambda, adam_optimize d alpha b1 b2 eps lambda p = Err) /\
  ((forall t, s <> RadamState d t) -> forall alpha root b1 b2 eps, radam_optimize d alpha root b1 b2 eps p = Err) /\
  ((forall t, s <> AdagradState d t) -> forall lr eps, adagrad_optimize d lr eps p = Err) /\
  ((forall t, s <> RmspropState d t) -> forall lr eps decay, rmsprop_optimize d lr eps decay p = Err).
Proof.
  intros d p s H.
  split; [|split; [|split; [|split; [|split]]]]; intros N; intros;
    unfold lamb_optimize, sgd_optimize, adam_optimize, radam_optimize, adagrad_optimize, rmsprop_optimize, optimize; rewrite H; destruct s; try reflexivity; exfalso; eapply N; reflexivity.
Qed.
Print Assumptions C76_foreign_state.
Example C76_foreign_case : exists s, p_state F32 (mkParam F32 (mat1 1 0) (Some (mat1 1 0)) (Some s)) = Some s /\ forall t, s <> LambState F32 t.
Proof. exists (AdagradState F32 (mat1 1 0)). split; [reflexivity|discriminate]. Qed.

(** ** A case: float32, the default settings and a weight of -3 *)
Lemma three_seen : seen 1 1 (mat1 (-3) 0).
Proof.
  exists 0%nat, 0%nat. split; [lia|]. split; [lia|]. unfold at_. change (get fzero (mat1 (-3) 0) 0 0) with (lit (-3) 0 : val F32). destruct (lit_eq F32 (-3) 0 (-3)) as (_ & E); [cbn; lra|reflexivity|cbn; lia|cbn; lia|].
  rewrite E. unfold visible. rewrite Rabs_left; lra.
Qed.
Example C76_inputs : adds_all (@in_turn F32) /\ averages 8 float_0_9 float_0_999 /\ guard float_1e_8 /\ rate 1 float_0_01 /\ rate (2 ^ 8) float_0_01 /\ few F32 (1 * 1) /\
  within F32 (lamb_max F32) 1 1 (mat1 (-3) 0) /\ seen 1 1 (mat1 (-3) 0) /\ within F32 (grad_max F32) 1 1 (mat1 1000000 20).
Proof.
  destruct at_0_01 as (F & E). split; [apply in_turn_adds|]. split; [exact default_averages|]. split; [exact default_guard|]. split; [split; [exact F|rewrite E; lra]|]. split; [split; [exact F|rewrite E; lra]|].
  split; [unfold few, u; cbn; lra|]. split; [apply mat1_within; [reflexivity|lia|cbn; rewrite Rabs_left; lra]|]. split; [exact three_seen|]. apply mat1_within; [reflexivity|lia|]. change (bpow radix2 20) with 1048576. unfold grad_max. rewrite Rabs_right; lra.
Qed.
Example C76_case : exists x', successive F32 (fun _ => lamb_optimize F32 in_turn float_0_01 float_0_9 float_0_999 float_1e_8 float_0_01) (fun _ => mat1 1000000 20) (mat1 (-3) 0) 0 (mat1 (-3) 0) x' /\
  moved_by F32 (1.5 * (real float_0_01 * mat_length (mat1 (-3) 0))) 1 1 (mat1 (-3) 0) x'.
Proof.
  destruct C76_inputs as (A & Hb & He & Hl & Ha & Hf & Hx & Hs & Hg).
  destruct (C76_lamb_step F32 in_turn 8 (fun _ => float_0_01) float_0_9 float_0_999 float_1e_8 float_0_01 1 1 (fun _ => mat1 1000000 20) (mat1 (-3) 0) A Hb He Hl (fun _ => Ha) Hf ltac:(repeat split) (fun _ => Hg) 0%nat) as (x & x' & q & S & _ & H & _).
  assert (Ex : x = mat1 (-3) 0). { destruct S as (p & p' & E & _ & Ep & _). cbn [run] in E. injection E as <-. symmetry. exact Ep. } subst x. exists x'. split; [exact S|]. apply (H Hx Hs).
Qed.
Example C76_zero_inputs : within F32 (invisible F32) 1 1 (mat1 0 0).
Proof. apply mat1_within; [reflexivity|lia|]. rewrite Rmult_0_l, Rabs_R0. unfold invisible. lra. Qed.
