(** * C32-C36: optimizers, the Optimize loop, gradient clipping, learning rate decay

    [run opt g n (new_param x0)]: a parameter with value x0 after n updates, update k
    made with gradient g k by [opt k]; [successive opt g x0 n v v']: v and v' are its
    values after n and after n+1 updates; [weighted], [average]: exponentially
    weighted sums and averages of a history.  See OptSpec and, for Optimize, OptConcSpec. *)
From Coq Require Import Reals List Arith ZArith Bool Lia Lra.
From Coquelicot Require Import Coquelicot.
From Verif Require Import DenseModel DenseSpec ArithSpec GradModel GradSpec GradLemmas OptModel OptSpec OptProofs OptProofs2 OptProofs3 OptProofs4 OptConcModel OptConcSpec OptConcProofs.
Import ListNotations.
Open Scope R_scope.

(** ** C32: SGD.  For any history of gradients and learning rates the value is the
    documented closed form; each update leaves the parameter without gradient. *)
Theorem C32_sgd : forall alpha mu g x0 r c nesterov, fits x0 r c -> (forall k, fits (g k) r c) -> mu = 0 -> forall n,
  exists p, run (fun k => sgd_optimize (alpha k) mu nesterov) g n (new_param x0) = OK p /\ p_grad p = None /\
  elems (p_value p) r c (fun i j => rget x0 i j - Rsum n (fun k => alpha k * rget (g k) i j)).
Proof. exact (fun alpha mu g x0 r c nesterov F0 Fg Hm n => sgd_plain alpha mu g x0 r c F0 Fg nesterov n Hm). Qed.
Print Assumptions C32_sgd.
(** With momentum: update m is v_m = mu * v_{m-1} + alpha_m * g_m. *)
Theorem C32_sgd_momentum : forall alpha mu g x0 r c, fits x0 r c -> (forall k, fits (g k) r c) -> mu <> 0 -> forall n,
  exists p, run (fun k => sgd_optimize (alpha k) mu false) g n (new_param x0) = OK p /\ p_grad p = None /\
  elems (p_value p) r c (fun i j => rget x0 i j - Rsum n (fun m => weighted mu (fun k => alpha k * rget (g k) i j) (S m))).
Proof. exact (fun alpha mu g x0 r c F0 Fg Hm n => sgd_momentum alpha mu g x0 r c F0 Fg n Hm). Qed.
Print Assumptions C32_sgd_momentum.
(** With Nesterov momentum the update is v_m + mu * (v_m - v_{m-1}). *)
Theorem C32_sgd_nesterov : forall alpha mu g x0 r c, fits x0 r c -> (forall k, fits (g k) r c) -> mu <> 0 -> forall n,
  exists p, run (fun k => sgd_optimize (alpha k) mu true) g n (new_param x0) = OK p /\ p_grad p = None /\
  elems (p_value p) r c (fun i j => let v := weighted mu (fun k => alpha k * rget (g k) i j) in
    rget x0 i j - Rsum n (fun m => v (S m) + mu * (v (S m) - v m))).
Proof. exact (fun alpha mu g x0 r c F0 Fg Hm n => sgd_nesterov alpha mu g x0 r c F0 Fg n Hm). Qed.
Print Assumptions C32_sgd_nesterov.
(** The weighted sum is the recurrence of the documentation. *)
Theorem C32_weighted : forall b f n, weighted b f 0 = 0 /\ weighted b f (S n) = b * weighted b f n + f n.
Proof. exact (fun b f n => conj eq_refl (weighted_step b f n)). Qed.
Print Assumptions C32_weighted.
(** A parameter carrying the state of another optimizer is reported as an error and
    not touched. *)
Theorem C32_foreign_state : forall p s, p_state p = Some s ->
  ((forall t, s <> SgdState t) -> forall alpha mu nesterov, sgd_optimize alpha mu nesterov p = Err) /\
  ((forall t, s <> AdamState t) -> forall alpha b1 b2 eps lambda, adam_optimize alpha b1 b2 eps lambda p = Err) /\
  ((forall t, s <> LambState t) -> forall alpha b1 b2 eps lambda, lamb_optimize alpha b1 b2 eps lambda p = Err) /\
  ((forall t, s <> RadamState t) -> forall step b1 b2 eps ts, radam_optimize step b1 b2 eps ts p = Err) /\
  ((forall t, s <> AdagradState t) -> forall lr eps, adagrad_optimize lr eps p = Err) /\
  ((forall t, s <> RmspropState t) -> forall lr eps decay, rmsprop_optimize lr eps decay p = Err).
Proof.
  intros p s H. repeat split; intros N; intros; (eapply foreign_state; [exact H|]); destruct s; try reflexivity; exfalso; eapply N; reflexivity.
Qed.
Print Assumptions C32_foreign_state.
(** Two updates of a 1×2 parameter. *)
Example C32_case : fits (mkDense 1 2 [1; 2]) 1 2 /\ (forall k : nat, fits (mkDense 1 2 [1; INR k]) 1 2) /\ (1/2 <> 0) /\
  weighted (1/2) (fun k => INR k) 3 = 2 + 1/2.
Proof. repeat split; try lra. unfold weighted, Rsum. cbn. lra. Qed.

(** ** C33: the adaptive optimizers.  The step of each, for any history of gradients
    of the parameter's shape, in terms of the moving averages of that history. *)
Theorem C33_adam : forall b1 b2 eps lambda alpha g x0 r c, fits x0 r c -> (forall k, fits (g k) r c) -> forall n, exists v v',
  successive (fun k => adam_optimize (alpha k) b1 b2 eps lambda) g x0 n v v' /\ fits v r c /\
  elems v' r c (fun i j => rget v i j - alpha n *
    (average b1 (entry g i j) (S n) / (sqrt (average b2 (fun k => entry g i j k ^ 2) (S n)) + eps) + lambda * rget v i j)).
Proof. exact adam_run. Qed.
Print Assumptions C33_adam.
Theorem C33_lamb : forall b1 b2 eps lambda alpha g x0 r c, fits x0 r c -> (forall k, fits (g k) r c) -> forall n, exists v v',
  successive (fun k => lamb_optimize (alpha k) b1 b2 eps lambda) g x0 n v v' /\ fits v r c /\
  let u := fun i j => average b1 (entry g i j) (S n) / (sqrt (average b2 (fun k => entry g i j k ^ 2) (S n)) + eps) + lambda * rget v i j in
  elems v' r c (fun i j => rget v i j - alpha n * trust (norm2 r c (rget v)) (norm2 r c u) * u i j).
Proof. exact lamb_run. Qed.
Print Assumptions C33_lamb.
Theorem C33_radam : forall b1 b2 eps step ts g x0 r c, fits x0 r c -> (forall k, fits (g k) r c) -> forall n, exists v v',
  successive (fun k => radam_optimize step b1 b2 eps (ts k)) g x0 n v v' /\ fits v r c /\
  elems v' r c (fun i j => rget v i j - radam_alpha step b1 b2 (ts n) *
    (average b1 (entry g i j) (S n) / (sqrt (average b2 (fun k => entry g i j k ^ 2) (S n)) + eps * sqrt (1 - b2 ^ ts n)))).
Proof. exact radam_run. Qed.
Print Assumptions C33_radam.
Theorem C33_adagrad : forall lr eps g x0 r c, fits x0 r c -> (forall k, fits (g k) r c) -> forall n, exists v v',
  successive (fun _ => adagrad_optimize lr eps) g x0 n v v' /\ fits v r c /\
  elems v' r c (fun i j => rget v i j - lr * (entry g i j n / (sqrt (Rsum (S n) (fun k => entry g i j k ^ 2)) + eps))).
Proof. exact adagrad_run. Qed.
Print Assumptions C33_adagrad.
Theorem C33_rmsprop : forall lr eps decay g x0 r c, fits x0 r c -> (forall k, fits (g k) r c) -> forall n, exists v v',
  successive (fun _ => rmsprop_optimize lr eps decay) g x0 n v v' /\ fits v r c /\
  elems v' r c (fun i j => rget v i j - lr * (entry g i j n / (sqrt (average decay (fun k => entry g i j k ^ 2) (S n)) + eps))).
Proof. exact rmsprop_run. Qed.
Print Assumptions C33_rmsprop.
Theorem C33_average : forall b f n, average b f 0 = 0 /\ average b f (S n) = b * average b f n + (1 - b) * f n.
Proof. exact (fun b f n => conj (average_0 b f) (average_step b f n)). Qed.
Print Assumptions C33_average.
(** Adam's and RAdam's step in the usual, bias-corrected form. *)
Theorem C33_bias_correction : forall step b1 b2 eps ts m s, 0 <= b1 < 1 -> 0 <= b2 < 1 -> 0 < eps -> (1 <= ts)%nat -> 0 <= s ->
  let m' := m / (1 - b1 ^ ts) in let s' := s / (1 - b2 ^ ts) in
  adam_alpha step b1 b2 ts * (m / (sqrt s + eps)) = step * (m' / (sqrt s' + eps / sqrt (1 - b2 ^ ts))) /\
  radam_alpha step b1 b2 ts * (m / (sqrt s + eps * sqrt (1 - b2 ^ ts))) = step * radam_rect b2 ts * (m' / (sqrt s' + eps)).
Proof. exact (fun step b1 b2 eps ts m s H1 H2 He Ht Hs => conj (adam_corrected step b1 b2 eps ts m s H1 H2 He Ht Hs) (radam_corrected step b1 b2 eps ts m s H1 H2 He Ht Hs)). Qed.
Print Assumptions C33_bias_correction.
(** No divisor is ever zero, and no negative number is under a root. *)
Theorem C33_no_zero_division : forall b1 b2 eps ts f n, 0 <= b1 < 1 -> 0 <= b2 < 1 -> 0 < eps -> (1 <= ts)%nat ->
  0 < 1 - b1 ^ ts /\ 0 < 1 - b2 ^ ts /\ 0 <= average b2 (fun k => f k ^ 2) n /\
  0 < sqrt (average b2 (fun k => f k ^ 2) n) + eps /\ 0 < sqrt (average b2 (fun k => f k ^ 2) n) + eps * sqrt (1 - b2 ^ ts).
Proof. exact no_zero_division. Qed.
Print Assumptions C33_no_zero_division.
(** RAdam's rectification is in [0, 1]; where it is used its divisor is positive. *)
Theorem C33_rectification : forall b2 ts, 0 <= b2 < 1 -> (1 <= ts)%nat -> 0 <= radam_rect b2 ts <= 1 /\
  (4 < radam_ro b2 ts -> 0 < radam_rect b2 ts /\ 0 < (ro_max b2 - 4) * (ro_max b2 - 2) * radam_ro b2 ts).
Proof. exact rect_bounds. Qed.
Print Assumptions C33_rectification.
(** Adam's step (without weight decay) is bounded, and goes against the averaged
    gradient. *)
Theorem C33_adam_step : forall b1 b2 eps step ts g x0 r c, 0 <= b1 < 1 -> b2 < 1 -> b1 ^ 2 < b2 -> 0 < eps -> 0 < step -> (forall k, (1 <= ts k)%nat) ->
  fits x0 r c -> (forall k, fits (g k) r c) -> forall n, exists v v',
  successive (fun k => adam_optimize (adam_alpha step b1 b2 (ts k)) b1 b2 eps 0) g x0 n v v' /\
  forall i j, (i < r)%nat -> (j < c)%nat ->
    let a := adam_alpha step b1 b2 (ts n) in let m := average b1 (entry g i j) (S n) in let move := rget v' i j - rget v i j in
    Rabs move <= a * ((1 - b1) / sqrt ((1 - b2) * (1 - b1 ^ 2 / b2))) /\ (m = 0 -> move = 0) /\ (m <> 0 -> move * m < 0).
Proof. exact adam_steps. Qed.
Print Assumptions C33_adam_step.
Theorem C33_radam_step : forall step b1 b2 eps ts g x0 r c, 0 <= b1 < 1 -> b2 < 1 -> b1 ^ 2 < b2 -> 0 < eps -> 0 < step -> (forall k, (1 <= ts k)%nat) ->
  fits x0 r c -> (forall k, fits (g k) r c) -> forall n, exists v v',
  successive (fun k => radam_optimize step b1 b2 eps (ts k)) g x0 n v v' /\
  forall i j, (i < r)%nat -> (j < c)%nat ->
    let m := average b1 (entry g i j) (S n) in let move := rget v' i j - rget v i j in
    Rabs move <= adam_alpha step b1 b2 (ts n) * ((1 - b1) / sqrt ((1 - b2) * (1 - b1 ^ 2 / b2))) /\ move * m <= 0 /\ (m = 0 -> move = 0).
Proof. exact radam_steps. Qed.
Print Assumptions C33_radam_step.
Theorem C33_adagrad_step : forall lr eps g x0 r c, 0 < lr -> 0 < eps -> fits x0 r c -> (forall k, fits (g k) r c) -> forall n, exists v v',
  successive (fun _ => adagrad_optimize lr eps) g x0 n v v' /\
  forall i j, (i < r)%nat -> (j < c)%nat -> let move := rget v' i j - rget v i j in let gn := entry g i j n in
    Rabs move < lr /\ (gn = 0 -> move = 0) /\ (gn <> 0 -> move * gn < 0).
Proof. exact adagrad_steps. Qed.
Print Assumptions C33_adagrad_step.
Theorem C33_rmsprop_step : forall lr eps decay g x0 r c, 0 < lr -> 0 < eps -> 0 <= decay < 1 -> fits x0 r c -> (forall k, fits (g k) r c) -> forall n, exists v v',
  successive (fun _ => rmsprop_optimize lr eps decay) g x0 n v v' /\
  forall i j, (i < r)%nat -> (j < c)%nat -> let move := rget v' i j - rget v i j in let gn := entry g i j n in
    Rabs move < lr / sqrt (1 - decay) /\ (gn = 0 -> move = 0) /\ (gn <> 0 -> move * gn < 0).
Proof. exact rmsprop_steps. Qed.
Print Assumptions C33_rmsprop_step.
(** LAMB's step is a positive multiple of Adam's, scaled to alpha times the norm of the
    parameter. *)
Theorem C33_lamb_step : forall b1 b2 eps lambda step ts g x0 r c, 0 <= b1 < 1 -> 0 <= b2 < 1 -> 0 < eps -> 0 < step -> (forall k, (1 <= ts k)%nat) ->
  fits x0 r c -> (forall k, fits (g k) r c) -> forall n, exists v v',
  successive (fun k => lamb_optimize (adam_alpha step b1 b2 (ts k)) b1 b2 eps lambda) g x0 n v v' /\
  let u := fun i j => average b1 (entry g i j) (S n) / (sqrt (average b2 (fun k => entry g i j k ^ 2) (S n)) + eps) + lambda * rget v i j in
  (norm2 r c (rget v) <> 0 -> norm2 r c u <> 0 ->
   norm2 r c (fun i j => rget v' i j - rget v i j) = adam_alpha step b1 b2 (ts n) * norm2 r c (rget v)) /\
  exists k, 0 < k /\ forall i j, (i < r)%nat -> (j < c)%nat -> rget v' i j - rget v i j = - k * u i j.
Proof. exact lamb_steps. Qed.
Print Assumptions C33_lamb_step.
(** The default settings meet the hypotheses; an average after two steps. *)
Example C33_case : 0 <= 9/10 < 1 /\ 999/1000 < 1 /\ (9/10) ^ 2 < 999/1000 /\ (forall k : nat, fits (mkDense 1 2 [INR k; 3]) 1 2) /\
  average (9/10) (entry (fun k => mkDense 1 2 [INR k; 3]) 0 1) 2 = 3 * (1 - (9/10) ^ 2) /\ radam_rect (999/1000) 1 = 1.
Proof.
  repeat split; try lra.
  - unfold average, weighted, entry, Rsum, rget, get. cbn. lra.
  - unfold radam_rect, radam_ro. cbv zeta. unfold Rltb. destruct (Rlt_dec _ _) as [H|H]; [|reflexivity]. exfalso. revert H. unfold ro_max. cbn [INR pow]. lra.
Qed.

(** ** C34: Optimize, for every schedule of the goroutines. *)
Local Open Scope nat_scope.
(** A parameter is updated at most once, only if it has a gradient. *)
Theorem C34_at_most_once : forall cf s i, reachable cf s -> s_updates s i <= 1 /\
  (s_updates s i = 1 -> i < cf_params cf /\ cf_grad cf i = true) /\ (updating s i -> cf_grad cf i = true /\ s_updates s i = 0).
Proof. exact at_most_once. Qed.
Print Assumptions C34_at_most_once.
(** No more updates run at a time than the guard admits. *)
Theorem C34_bounded_concurrency : forall cf s, reachable cf s -> forall l, NoDup l -> (forall i, In i l -> updating s i) -> length l <= cf_cap cf.
Proof. exact bounded_workers. Qed.
Print Assumptions C34_bounded_concurrency.
(** An error returned is one of a strategy. *)
Theorem C34_error_genuine : forall cf s e, reachable cf s -> returned s (Some e) ->
  exists i, i < cf_params cf /\ cf_grad cf i = true /\ cf_strategy cf i = Some e.
Proof. exact error_genuine. Qed.
Print Assumptions C34_error_genuine.
(** If the error is noticed before all parameters are handed out, no update is running
    when Optimize returns it, and nothing has panicked. *)
Theorem C34_early_error_waits : forall cf s e, reachable cf s -> returned s (Some e) -> s_closed s = false -> (forall i, ~ running s i) /\ s_panic s = false.
Proof. exact early_error_waits. Qed.
Print Assumptions C34_early_error_waits.
(** Optimize cannot run for ever or get stuck. *)
Theorem C34_terminates : forall cf, exists bound, forall n s, steps cf n s -> n <= bound.
Proof. exact (fun cf => ex_intro _ (measure cf init) (terminates cf)). Qed.
Print Assumptions C34_terminates.
Theorem C34_no_deadlock : forall cf s, 0 < cf_cap cf -> reachable cf s -> (forall s', ~ step cf s s') ->
  s_panic s = true \/ ((exists r, returned s r) /\ forall i, ~ running s i).
Proof. exact progress. Qed.
Print Assumptions C34_no_deadlock.
(** The full claim, for the executions in which every goroutine happens to be
    finished when errCh is closed.  Missing: the code does not wait for that. *)
Theorem C34_nil_partial : forall cf s, reachable_late_close cf s -> returned s None ->
  (forall i, i < cf_params cf -> s_updates s i = (if cf_grad cf i then 1 else 0)) /\ (forall i, ~ running s i) /\
  (forall i, i < cf_params cf -> cf_grad cf i = true -> cf_strategy cf i = None).
Proof. exact late_nil. Qed.
Print Assumptions C34_nil_partial.
Theorem C34_error_partial : forall cf s i e, reachable_late_close cf s -> i < cf_params cf -> cf_grad cf i = true -> cf_strategy cf i = Some e ->
  forall r, returned s r -> exists e', r = Some e' /\ exists k, k < cf_params cf /\ cf_grad cf k = true /\ cf_strategy cf k = Some e'.
Proof. exact late_error. Qed.
Print Assumptions C34_error_partial.
Theorem C34_no_panic_partial : forall cf s, reachable_late_close cf s -> s_panic s = false.
Proof. exact (fun cf s R => proj1 (late_inv cf s R)). Qed.
Print Assumptions C34_no_panic_partial.
(** Without it: nil may be returned while the update is running and not yet made, ... *)
Theorem C34_update_running_refuted : forall cf, cf_params cf = 1 -> 0 < cf_cap cf -> cf_grad cf 0 = true ->
  exists s, reachable cf s /\ returned s None /\ updating s 0 /\ s_updates s 0 = 0.
Proof. exact nil_while_updating. Qed.
Print Assumptions C34_update_running_refuted.
(** ... nil may be returned after the strategy has failed, ... *)
Theorem C34_error_lost_refuted : forall cf e, cf_params cf = 1 -> 0 < cf_cap cf -> cf_grad cf 0 = true -> cf_strategy cf 0 = Some e ->
  exists s s', reachable cf s /\ s_updates s 0 = 1 /\ s_ws s 0 = Sending e /\ step cf s s' /\ returned s' None.
Proof. exact error_lost. Qed.
Print Assumptions C34_error_lost_refuted.
(** ... and the late error is sent on a closed channel: the program panics. *)
Theorem C34_panic_refuted : forall cf e, cf_params cf = 1 -> 0 < cf_cap cf -> cf_grad cf 0 = true -> cf_strategy cf 0 = Some e ->
  exists s, reachable cf s /\ returned s None /\ s_updates s 0 = 1 /\ s_panic s = true.
Proof. exact crash_after_return. Qed.
Print Assumptions C34_panic_refuted.
(** A failing and a succeeding strategy; both also have executions in time. *)
Example C34_case : exists s s', let cf e := mkConfig 1 (fun _ => true) (fun _ => e) 8 in
  reachable_late_close (cf (Some 7)) s /\ returned s (Some 7) /\ reachable_late_close (cf None) s' /\ returned s' None /\ s_updates s' 0 = 1.
Proof.
  destruct (in_time (mkConfig 1 (fun _ => true) (fun _ => Some 7) 8)) as (s & A & B & _); [reflexivity|cbn; lia|reflexivity|].
  destruct (in_time (mkConfig 1 (fun _ => true) (fun _ => None) 8)) as (s' & A' & B' & C'); [reflexivity|cbn; lia|reflexivity|]. exists s, s'. cbv zeta. auto.
Qed.
Local Close Scope nat_scope.

(** ** C35: gradient clipping *)
(** ValueClipper: every element ends up within the bound; those that were are not
    changed, the others are set to the bound with the same sign. *)
Theorem C35_value_clip : forall v ps, 0 <= v -> List.Forall has_grad ps -> exists f ps', value_clip v ps = Some ps' /\ List.Forall2 (graded f) ps ps' /\
  forall x, Rabs (f x) <= v /\ (Rabs x <= v -> f x = x) /\ (v < Rabs x -> Rabs (f x) = v /\ 0 <= f x * x).
Proof. intros v ps Hv H. exists (bounded_by v). destruct (value_clip_spec v ps Hv H) as (ps' & E & F). exists ps'. split; [exact E|]. split; [exact F|]. intros x. now apply bounded_by_abs. Qed.
Print Assumptions C35_value_clip.
(** NormClipper: the norm of all the gradients together ends up at most MaxNorm; all
    are multiplied by the same factor, between 0 and 1; nothing changes if the norm was
    below MaxNorm by the clipper's tolerance of 1e-7. *)
Theorem C35_norm_clip : forall M t ps, 0 <= M -> (forall q, t = Some q -> 1 < q) -> List.Forall has_grad ps ->
  (forall p g, In p ps -> p_grad p = Some g -> data g <> []) -> exists ps' n n' k,
  norm_clip M t ps = Some ps' /\ is_norm t n (gradients ps) /\ is_norm t n' (gradients ps') /\ n' <= M /\ n' = k * n /\
  0 <= k <= 1 /\ List.Forall2 (graded (fun x => x * k)) ps ps' /\ (n + 1e-7 <= M -> ps' = ps) /\ (M < n + 1e-7 -> k = M / (n + 1e-7)).
Proof. exact norm_clip_spec. Qed.
Print Assumptions C35_norm_clip.
(** Gradients whose norm is not above MaxNorm are still scaled down when they come
    within the tolerance. *)
Theorem C35_unchanged_refuted : exists ps, List.Forall has_grad ps /\ qnorm 2 (gradients ps) <= 1 /\ exists ps', norm_clip 1 (Some 2) ps = Some ps' /\ ps' <> ps.
Proof.
  set (p := mkParam (mkDense 1 1 [0]) (Some (mkDense 1 1 [1])) None).
  assert (N : qnorm 2 (gradients [p]) = 1).
  { assert (A : forall q, abspow 1 q = 1) by (intros q; unfold abspow; destruct (Req_EM_T 1 0); [lra|]; unfold Rpower; rewrite Rabs_R1, ln_1, Rmult_0_r; apply exp_0).
    change (abspow (abspow 1 2 + 0) (1 / 2) = 1). now rewrite A, Rplus_0_r, A. }
  assert (H : List.Forall has_grad [p]) by (constructor; [|constructor]; exists (mkDense 1 1 [1]); split; reflexivity).
  exists [p]. split; [exact H|]. split; [rewrite N; lra|].
  destruct (norm_clip_spec 1 (Some 2) [p]) as (ps' & n & n' & k & E & Hn & Hn' & _ & Ek & _ & F & _ & Hk); [lra|intros q Eq; injection Eq as <-; lra|exact H| |].
  { intros q g [<-|[]] Eg. injection Eg as <-. discriminate. }
  exists ps'. split; [exact E|]. intros ->. cbn [is_norm] in Hn, Hn'. rewrite N in Hn, Hn'. subst n n'. specialize (Hk ltac:(lra)). rewrite Hk in Ek. lra.
Qed.
Print Assumptions C35_unchanged_refuted.
(** A parameter without gradient is not left alone: both clippers panic. *)
Theorem C35_no_gradient_refuted : forall ps p, In p ps -> p_grad p = None ->
  (forall v, value_clip v ps = None) /\ (forall M t, norm_clip M t ps = None).
Proof.
  intros ps p Hin E. unfold value_clip, norm_clip. rewrite (clip_nil ps p Hin E). cbn [bind]. split; [reflexivity|]. intros M t. unfold guard. now destruct (match t with None => true | Some q => negb (Rleb q 1) end).
Qed.
Print Assumptions C35_no_gradient_refuted.
Example C35_case : let ps := [mkParam (mkDense 1 2 [0; 0]) (Some (mkDense 1 2 [3; -4])) None] in
  List.Forall has_grad ps /\ gradients ps = [3; -4] /\ maxnorm 4 (gradients ps) /\ forall p g, In p ps -> p_grad p = Some g -> data g <> [].
Proof.
  cbn. split; [constructor; [|constructor]; eexists; split; reflexivity|]. split; [reflexivity|]. split.
  - split; [|right; exists (-4); split; [cbn; auto|rewrite Rabs_left; lra]]. intros x [<-|[<-|[]]]; unfold Rabs; destruct (Rcase_abs _); lra.
  - intros p g [<-|[]] E. injection E as <-. discriminate.
Qed.

(** ** C36: learning rate decay *)
(** Exponential: calling Decay with t = 1, 2, ... from the initial rate gives a
    non-increasing sequence from init to final, which it has at step [times] and
    keeps; it falls strictly until then, along a straight line of logarithms. *)
Theorem C36_exponential : forall init final times, 0 < final <= init -> (1 < times)%Z -> exists lr : nat -> R,
  (forall n, rates (exp_decay final times) init n = Some (lr n)) /\ lr 0%nat = init /\ lr 1%nat = init /\ (forall n, final <= lr n) /\ (forall n, lr (S n) <= lr n) /\
  (forall n, (times <= Z.of_nat n)%Z -> lr n = final) /\ (final < init -> forall n, (1 <= n)%nat -> (Z.of_nat n < times)%Z -> lr (S n) < lr n) /\
  (forall n, (1 <= n)%nat -> (Z.of_nat n <= times)%Z -> ln (lr n) = ln final + (ln init - ln final) * (IZR (times - Z.of_nat n) / IZR (times - 1))).
Proof.
  intros init final times Hf Ht. exists (exp_rate init final times). split; [intros n; now apply exp_rate_closed|].
  destruct (exp_rate_facts init final times Hf Ht) as (A & B & C & D & E & F). repeat (split; [assumption|]). intros n H1 H2. unfold exp_rate. rewrite ln_exp.
  now replace (Z.max 1 (Z.min times (Z.of_nat n))) with (Z.of_nat n) by lia.
Qed.
Print Assumptions C36_exponential.
(** Hyperbolic: non-increasing from init, following init / (1 + rate * t) while above
    final and constant from then on; it may undershoot final, by at most the factor
    1 + 2 * rate. *)
Theorem C36_hyperbolic_partial : forall init final rate, 0 < final <= init -> 0 < rate -> forall n, exists lr lr',
  rates (fun lr t => Some (hyp_decay init final rate lr t)) init n = Some lr /\
  rates (fun lr t => Some (hyp_decay init final rate lr t)) init (S n) = Some lr' /\
  lr' <= lr /\ ((n <= 1)%nat -> lr = init) /\ (lr <= final -> lr' = lr) /\
  (final < lr -> (1 <= n)%nat -> lr' = init / (1 + rate * INR (S n))) /\ final / (1 + 2 * rate) <= lr.
Proof. exact hyp_facts. Qed.
Print Assumptions C36_hyperbolic_partial.
(** It does go below the final rate. *)
Theorem C36_hyperbolic_refuted : exists init final rate, 0 < final <= init /\ 0 < rate /\ exists n lr,
  rates (fun lr t => Some (hyp_decay init final rate lr t)) init n = Some lr /\ lr < final.
Proof.
  exists 3, 2, 1. split; [lra|]. split; [lra|]. exists 2%nat, 1. cbn. unfold hyp_decay. cbn. unfold Rltb. destruct (Rlt_dec 0 1); [|lra]. destruct (Rlt_dec 2 3); [|lra].
  cbn. split; [f_equal; lra|lra].
Qed.
Print Assumptions C36_hyperbolic_refuted.
(** Exponential decay asked for the step after [times] with a rate above final (a rate
    that rounding left above it, or a first call that late) divides by zero. *)
Theorem C36_exponential_beyond_refuted : forall final times lr, (0 < times)%Z -> final < lr -> exp_decay final times lr (times + 1) = None.
Proof.
  intros final times lr Ht Hl. unfold exp_decay. replace (1 <? times + 1)%Z with true by (symmetry; apply Z.ltb_lt; lia). unfold Rltb. destruct (Rlt_dec final lr); [|contradiction].
  cbn [andb]. replace (times - (times + 1) + 1)%Z with 0%Z by lia. reflexivity.
Qed.
Print Assumptions C36_exponential_beyond_refuted.
Example C36_case : 0 < 1/1000 <= 1/100 /\ (1 < 10)%Z /\ rates (exp_decay (1/1000) 10) (1/100) 10 = Some (1/1000).
Proof.
  split; [lra|]. split; [lia|]. rewrite exp_rate_closed by (lra || lia). f_equal. apply (exp_rate_facts (1/100) (1/1000) 10); (lra || lia).
Qed.
