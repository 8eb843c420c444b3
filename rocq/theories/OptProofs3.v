(** * Bounds on the steps of adaptive optimizers *)
From Coq Require Import Reals List Arith ZArith Bool Lia Lra Psatz.
From Coquelicot Require Import Coquelicot.
From Verif Require Import DenseModel DenseSpec ArithModel ArithSpec ArithProofs GradModel GradSpec GradLemmas GradProofs OptModel OptSpec OptProofs OptProofs2.
Import ListNotations.
Open Scope R_scope.

Lemma average_sq_nonneg b f n : 0 <= b < 1 -> 0 <= average b (fun k => f k ^ 2) n.
Proof.
  intros Hb. induction n as [|n IH]; [rewrite average_0; lra|]. rewrite average_step. pose proof (pow2_ge_0 (f n)). nra.
Qed.
Lemma pow_lt_1 b n : 0 <= b < 1 -> (1 <= n)%nat -> 0 <= b ^ n < 1.
Proof.
  intros Hb. induction n as [|n IH]; [lia|]. intros _. destruct n as [|n]; [cbn; lra|]. specialize (IH ltac:(lia)). change (b ^ S (S n)) with (b * b ^ S n). set (q := b ^ S n) in *. split; nra.
Qed.
Lemma no_zero_division b1 b2 eps ts f n : 0 <= b1 < 1 -> 0 <= b2 < 1 -> 0 < eps -> (1 <= ts)%nat ->
  0 < 1 - b1 ^ ts /\ 0 < 1 - b2 ^ ts /\ 0 <= average b2 (fun k => f k ^ 2) n /\
  0 < sqrt (average b2 (fun k => f k ^ 2) n) + eps /\ 0 < sqrt (average b2 (fun k => f k ^ 2) n) + eps * sqrt (1 - b2 ^ ts).
Proof.
  intros H1 H2 He Ht. pose proof (pow_lt_1 b1 ts H1 Ht). pose proof (pow_lt_1 b2 ts H2 Ht). pose proof (average_sq_nonneg b2 f n H2).
  pose proof (sqrt_pos (average b2 (fun k => f k ^ 2) n)). assert (0 < sqrt (1 - b2 ^ ts)) by (apply sqrt_lt_R0; lra).
  split; [lra|]. split; [lra|]. split; [lra|]. split; [lra|]. nra.
Qed.
Lemma alpha_pos step b1 b2 ts : 0 <= b1 < 1 -> 0 <= b2 < 1 -> 0 < step -> (1 <= ts)%nat -> 0 < adam_alpha step b1 b2 ts.
Proof.
  intros H1 H2 Hs Ht. unfold adam_alpha. pose proof (pow_lt_1 b1 ts H1 Ht). pose proof (pow_lt_1 b2 ts H2 Ht).
  assert (0 < sqrt (1 - b2 ^ ts)) by (apply sqrt_lt_R0; lra). apply Rdiv_lt_0_compat; [nra|lra].
Qed.

(** the first average against the root of the second *)
Definition adam_bound (b1 b2 : R) : R := (1 - b1) / sqrt ((1 - b2) * (1 - b1 ^ 2 / b2)).
Lemma ratio_lt b1 b2 : 0 <= b1 -> b1 ^ 2 < b2 -> 0 <= b1 ^ 2 / b2 < 1.
Proof.
  intros H1 H. pose proof (pow2_ge_0 b1). assert (0 < b2) by lra. split; [apply Rmult_le_pos; [lra|left; now apply Rinv_0_lt_compat]|].
  apply (Rmult_lt_reg_r b2); [lra|]. unfold Rdiv. rewrite Rmult_assoc, Rinv_l by lra. lra.
Qed.
Lemma average_cauchy b1 b2 f n : 0 <= b1 < 1 -> b2 < 1 -> b1 ^ 2 < b2 ->
  (average b1 f n) ^ 2 <= (1 - b1) ^ 2 / ((1 - b2) * (1 - b1 ^ 2 / b2)) * average b2 (fun k => f k ^ 2) n.
Proof.
  intros H1 H2 H. pose proof (ratio_lt b1 b2 (proj1 H1) H) as Hg. assert (Hb2 : 0 < b2) by (pose proof (pow2_ge_0 b1); lra).
  set (q := b1 ^ 2 / b2) in *. assert (Eq : b1 ^ 2 = q * b2) by (unfold q; field; lra).
  set (K := (1 - b1) ^ 2 / ((1 - b2) * (1 - q))). assert (HK : K * (1 - b2) * (1 - q) = (1 - b1) ^ 2) by (unfold K; field; lra).
  assert (K0 : 0 <= K) by (unfold K; apply Rmult_le_pos; [apply pow2_ge_0|left; apply Rinv_0_lt_compat; nra]).
  induction n as [|n IH]; [rewrite !average_0; lra|]. rewrite !average_step. set (V := average b1 f n) in *. set (M := average b2 (fun k => f k ^ 2) n) in *. set (x := f n).
  assert (M0 : 0 <= M) by (apply average_sq_nonneg; lra).
  apply Rle_trans with (b2 * V ^ 2 + K * (1 - b2) * x ^ 2); [|nra].
  (* (b1 V + (1-b1) x)^2 <= b2 V^2 + K (1-b2) x^2 *)
  destruct (Req_dec q 0) as [Q0|Q0].
  - assert (B0 : b1 = 0) by (rewrite Q0 in Eq; nra). rewrite B0 in *. rewrite Q0 in HK. pose proof (pow2_ge_0 V). nra.
  - assert (Hq : 0 < q) by lra.
    assert (HX : q * (1 - q) * (b2 * V ^ 2 + K * (1 - b2) * x ^ 2 - (b1 * V + (1 - b1) * x) ^ 2) = ((1 - q) * b1 * V - q * (1 - b1) * x) ^ 2).
    { transitivity ((1 - q) * (q * b2) * V ^ 2 + q * (K * (1 - b2) * (1 - q)) * x ^ 2 - q * (1 - q) * (b1 * V + (1 - b1) * x) ^ 2); [ring|]. rewrite HK, <- Eq. ring. }
    assert (HP : 0 < q * (1 - q)) by nra. pose proof (pow2_ge_0 ((1 - q) * b1 * V - q * (1 - b1) * x)). nra.
Qed.
Lemma quotient_bound b1 b2 eps f n : 0 <= b1 < 1 -> b2 < 1 -> b1 ^ 2 < b2 -> 0 < eps ->
  Rabs (average b1 f n / (sqrt (average b2 (fun k => f k ^ 2) n) + eps)) <= adam_bound b1 b2.
Proof.
  intros H1 H2 H He. assert (Hb2 : 0 < b2) by (pose proof (pow2_ge_0 b1); lra). pose proof (ratio_lt b1 b2 (proj1 H1) H) as Hg.
  pose proof (average_sq_nonneg b2 f n ltac:(lra)) as M0. pose proof (average_cauchy b1 b2 f n H1 H2 H) as C.
  set (M := average b2 (fun k => f k ^ 2) n) in *. set (V := average b1 f n) in *. set (D := (1 - b2) * (1 - b1 ^ 2 / b2)) in *.
  assert (D0 : 0 < D) by (unfold D; nra). pose proof (sqrt_lt_R0 D D0) as SD. pose proof (sqrt_pos M) as SM.
  assert (E : Rabs V <= (1 - b1) / sqrt D * sqrt M).
  { assert (0 <= (1 - b1) / sqrt D) by (apply Rmult_le_pos; [lra|left; now apply Rinv_0_lt_compat]).
    apply Rsqr_incr_0_var; [|nra]. rewrite <- Rsqr_abs. unfold Rsqr. replace (V * V) with (V ^ 2) by ring.
    replace ((1 - b1) / sqrt D * sqrt M * ((1 - b1) / sqrt D * sqrt M)) with ((1 - b1) ^ 2 / (sqrt D * sqrt D) * (sqrt M * sqrt M)) by (field; lra).
    rewrite !sqrt_def by lra. exact C. }
  rewrite Rabs_div by lra. rewrite (Rabs_right (sqrt M + eps)) by lra. apply (Rmult_le_reg_r (sqrt M + eps)); [lra|].
  unfold Rdiv at 1. rewrite Rmult_assoc, Rinv_l by lra. unfold adam_bound. fold D. assert (0 <= (1 - b1) / sqrt D) by (apply Rmult_le_pos; [lra|left; now apply Rinv_0_lt_compat]). nra.
Qed.

(** a step - a * (v / d) goes against v *)
Lemma against a v d : 0 <= a -> 0 < d -> - (a * (v / d)) * v <= 0 /\ (0 < a -> v <> 0 -> - (a * (v / d)) * v < 0).
Proof.
  intros Ha Hd. assert (E : - (a * (v / d)) * v = - (a * (v * v) / d)) by (field; lra). rewrite E. split.
  - assert (0 <= a * (v * v) / d); [|lra]. apply Rmult_le_pos; [nra|left; now apply Rinv_0_lt_compat].
  - intros Ha' Hv. assert (0 < a * (v * v) / d); [|lra]. apply Rdiv_lt_0_compat; [|lra]. apply Rmult_lt_0_compat; [exact Ha'|]. pose proof (Rsqr_pos_lt v Hv) as P. exact P.
Qed.

Lemma adam_steps b1 b2 eps step ts g x0 r c : 0 <= b1 < 1 -> b2 < 1 -> b1 ^ 2 < b2 -> 0 < eps -> 0 < step -> (forall k, (1 <= ts k)%nat) ->
  fits x0 r c -> (forall k, fits (g k) r c) -> forall n, exists v v',
  successive (fun k => adam_optimize (adam_alpha step b1 b2 (ts k)) b1 b2 eps 0) g x0 n v v' /\
  forall i j, (i < r)%nat -> (j < c)%nat ->
    let a := adam_alpha step b1 b2 (ts n) in let m := average b1 (entry g i j) (S n) in let move := rget v' i j - rget v i j in
    Rabs move <= a * ((1 - b1) / sqrt ((1 - b2) * (1 - b1 ^ 2 / b2))) /\ (m = 0 -> move = 0) /\ (m <> 0 -> move * m < 0).
Proof.
  intros H1 H2 H He Hs Ht F0 Fg n. assert (Hb2 : 0 <= b2 < 1) by (pose proof (pow2_ge_0 b1); lra).
  destruct (adam_run b1 b2 eps 0 (fun k => adam_alpha step b1 b2 (ts k)) g x0 r c F0 Fg n) as (v & v' & S1 & Fv & E).
  exists v, v'. split; [exact S1|]. intros i j Hi Hj a m move. unfold move. rewrite (elems_at _ _ _ _ i j E) by auto. unfold adam_direction. fold m. fold a.
  pose proof (alpha_pos step b1 b2 (ts n) H1 Hb2 Hs (Ht n)) as Ha. fold a in Ha.
  destruct (no_zero_division b1 b2 eps (ts n) (entry g i j) (S n) H1 Hb2 He (Ht n)) as (_ & _ & _ & D & _).
  set (d := sqrt (average b2 (fun k => entry g i j k ^ 2) (S n)) + eps) in *.
  replace (rget v i j - a * (m / d + 0 * rget v i j) - rget v i j) with (- (a * (m / d))) by ring. split; [|split].
  - rewrite Rabs_Ropp, Rabs_mult, (Rabs_right a) by lra. apply Rmult_le_compat_l; [lra|]. apply (quotient_bound b1 b2 eps (entry g i j) (S n)); auto.
  - intros ->. unfold Rdiv. ring.
  - intros Hm. exact (proj2 (against a m d ltac:(lra) D) Ha Hm).
Qed.

Lemma adagrad_steps lr eps g x0 r c : 0 < lr -> 0 < eps -> fits x0 r c -> (forall k, fits (g k) r c) -> forall n, exists v v',
  successive (fun _ => adagrad_optimize lr eps) g x0 n v v' /\
  forall i j, (i < r)%nat -> (j < c)%nat -> let move := rget v' i j - rget v i j in let gn := entry g i j n in
    Rabs move < lr /\ (gn = 0 -> move = 0) /\ (gn <> 0 -> move * gn < 0).
Proof.
  intros Hl He F0 Fg n. destruct (adagrad_run lr eps g x0 r c F0 Fg n) as (v & v' & S1 & Fv & E). exists v, v'. split; [exact S1|].
  intros i j Hi Hj move gn. unfold move. rewrite (elems_at _ _ _ _ i j E) by auto. fold gn. set (M := Rsum (S n) (fun k => entry g i j k ^ 2)).
  assert (HM : forall k, 0 <= Rsum k (fun k => entry g i j k ^ 2)) by (intros k; induction k as [|k IH]; [unfold Rsum; cbn; lra|]; rewrite Rsum_r; pose proof (pow2_ge_0 (entry g i j k)); lra).
  assert (HG : Rabs gn <= sqrt M).
  { rewrite <- (sqrt_Rsqr_abs gn). apply sqrt_le_1_alt. unfold M. rewrite Rsum_r. specialize (HM n). unfold Rsqr. fold gn. nra. }
  pose proof (sqrt_pos M) as SM. replace (rget v i j - lr * (gn / (sqrt M + eps)) - rget v i j) with (- (lr * (gn / (sqrt M + eps)))) by ring. split; [|split].
  - rewrite Rabs_Ropp, Rabs_mult, (Rabs_right lr) by lra. rewrite Rabs_div by lra. rewrite (Rabs_right (sqrt M + eps)) by lra.
    assert (Rabs gn / (sqrt M + eps) < 1); [|nra]. apply (Rmult_lt_reg_r (sqrt M + eps)); [lra|]. unfold Rdiv. rewrite Rmult_assoc, Rinv_l by lra. lra.
  - intros ->. unfold Rdiv. ring.
  - intros Hg. exact (proj2 (against lr gn (sqrt M + eps) ltac:(lra) ltac:(lra)) Hl Hg).
Qed.

Lemma rmsprop_steps lr eps decay g x0 r c : 0 < lr -> 0 < eps -> 0 <= decay < 1 -> fits x0 r c -> (forall k, fits (g k) r c) -> forall n, exists v v',
  successive (fun _ => rmsprop_optimize lr eps decay) g x0 n v v' /\
  forall i j, (i < r)%nat -> (j < c)%nat -> let move := rget v' i j - rget v i j in let gn := entry g i j n in
    Rabs move < lr / sqrt (1 - decay) /\ (gn = 0 -> move = 0) /\ (gn <> 0 -> move * gn < 0).
Proof.
  intros Hl He Hd F0 Fg n. destruct (rmsprop_run lr eps decay g x0 r c F0 Fg n) as (v & v' & S1 & Fv & E). exists v, v'. split; [exact S1|].
  intros i j Hi Hj move gn. unfold move. rewrite (elems_at _ _ _ _ i j E) by auto. fold gn. set (M := average decay (fun k => entry g i j k ^ 2) (S n)).
  assert (SD : 0 < sqrt (1 - decay)) by (apply sqrt_lt_R0; lra).
  assert (HG : sqrt (1 - decay) * Rabs gn <= sqrt M).
  { rewrite <- (sqrt_Rsqr_abs gn), <- sqrt_mult by (lra || apply Rle_0_sqr). apply sqrt_le_1_alt. unfold M. rewrite average_step.
    pose proof (average_sq_nonneg decay (entry g i j) n Hd). unfold Rsqr. fold gn. nra. }
  pose proof (sqrt_pos M) as SM. replace (rget v i j - lr * (gn / (sqrt M + eps)) - rget v i j) with (- (lr * (gn / (sqrt M + eps)))) by ring. split; [|split].
  - rewrite Rabs_Ropp, Rabs_mult, (Rabs_right lr) by lra. rewrite Rabs_div by lra. rewrite (Rabs_right (sqrt M + eps)) by lra.
    unfold Rdiv at 2. apply Rmult_lt_compat_l; [lra|]. apply (Rmult_lt_reg_r (sqrt M + eps)); [lra|]. unfold Rdiv. rewrite Rmult_assoc, Rinv_l by lra.
    apply (Rmult_lt_reg_l (sqrt (1 - decay))); [lra|]. replace (sqrt (1 - decay) * (/ sqrt (1 - decay) * (sqrt M + eps))) with (sqrt M + eps) by (field; lra). lra.
  - intros ->. unfold Rdiv. ring.
  - intros Hg. exact (proj2 (against lr gn (sqrt M + eps) ltac:(lra) ltac:(lra)) Hl Hg).
Qed.

(** LAMB: the step's norm is alpha times the norm of the parameter *)
Lemma norm2_scale r c k f : norm2 r c (fun i j => k * f i j) = Rabs k * norm2 r c f.
Proof.
  unfold norm2. rewrite <- (sqrt_Rsqr_abs k), <- sqrt_mult_alt by apply Rle_0_sqr. f_equal. unfold Rsqr. rewrite <- Rsum_mult_l. apply Rsum_ext. intros i Hi.
  rewrite <- Rsum_mult_l. apply Rsum_ext. intros j Hj. ring.
Qed.
Lemma norm2_nonneg r c f : 0 <= norm2 r c f. Proof. apply sqrt_pos. Qed.

Lemma lamb_steps b1 b2 eps lambda step ts g x0 r c : 0 <= b1 < 1 -> 0 <= b2 < 1 -> 0 < eps -> 0 < step -> (forall k, (1 <= ts k)%nat) ->
  fits x0 r c -> (forall k, fits (g k) r c) -> forall n, exists v v',
  successive (fun k => lamb_optimize (adam_alpha step b1 b2 (ts k)) b1 b2 eps lambda) g x0 n v v' /\
  let u := fun i j => adam_direction b1 b2 eps lambda (entry g i j) (S n) (rget v i j) in
  (norm2 r c (rget v) <> 0 -> norm2 r c u <> 0 ->
   norm2 r c (fun i j => rget v' i j - rget v i j) = adam_alpha step b1 b2 (ts n) * norm2 r c (rget v)) /\
  exists k, 0 < k /\ forall i j, (i < r)%nat -> (j < c)%nat -> rget v' i j - rget v i j = - k * u i j.
Proof.
  intros H1 H2 He Hs Ht F0 Fg n. destruct (lamb_run b1 b2 eps lambda (fun k => adam_alpha step b1 b2 (ts k)) g x0 r c F0 Fg n) as (v & v' & S1 & Fv & E).
  exists v, v'. split; [exact S1|]. intros u. cbv zeta in E. fold u in E. pose proof (alpha_pos step b1 b2 (ts n) H1 H2 Hs (Ht n)) as Ha. set (a := adam_alpha step b1 b2 (ts n)) in *.
  pose proof (norm2_nonneg r c (rget v)) as N1. pose proof (norm2_nonneg r c u) as N2.
  assert (Hm : forall i j, (i < r)%nat -> (j < c)%nat -> rget v' i j - rget v i j = - (a * trust (norm2 r c (rget v)) (norm2 r c u)) * u i j).
  { intros i j Hi Hj. rewrite (elems_at _ _ _ _ i j E) by auto. ring. }
  assert (Hk : 0 < trust (norm2 r c (rget v)) (norm2 r c u)).
  { unfold trust. destruct (Req_EM_T _ _); [lra|]. destruct (Req_EM_T _ _); [lra|]. apply Rdiv_lt_0_compat; lra. }
  split.
  - intros Nv Nu. rewrite (norm2_ext r c _ _ Hm), norm2_scale, Rabs_Ropp, Rabs_right by nra. unfold trust.
    destruct (Req_EM_T _ _); [contradiction|]. destruct (Req_EM_T _ _); [contradiction|]. field. exact Nu.
  - exists (a * trust (norm2 r c (rget v)) (norm2 r c u)). split; [nra|exact Hm].
Qed.

(** RAdam: bias-corrected form and rectification *)
Lemma ro_le b2 ts : 0 <= b2 < 1 -> (1 <= ts)%nat -> radam_ro b2 ts <= ro_max b2.
Proof.
  intros H2 Ht. unfold radam_ro. pose proof (pow_lt_1 b2 ts H2 Ht). assert (0 <= 2 * INR ts * b2 ^ ts / (1 - b2 ^ ts)); [|lra].
  apply Rmult_le_pos; [|left; apply Rinv_0_lt_compat; lra]. pose proof (pos_INR ts). nra.
Qed.
Lemma rect_bounds b2 ts : 0 <= b2 < 1 -> (1 <= ts)%nat -> 0 <= radam_rect b2 ts <= 1 /\
  (4 < radam_ro b2 ts -> 0 < radam_rect b2 ts /\ 0 < (ro_max b2 - 4) * (ro_max b2 - 2) * radam_ro b2 ts).
Proof.
  intros H2 Ht. pose proof (ro_le b2 ts H2 Ht) as Hr. unfold radam_rect. cbv zeta. set (ro := radam_ro b2 ts) in *. set (rm := ro_max b2) in *. unfold Rltb.
  destruct (Rlt_dec 4 ro) as [H4|H4]; [|split; [lra|intros; lra]].
  assert (D : 0 < (rm - 4) * (rm - 2) * ro) by (apply Rmult_lt_0_compat; [apply Rmult_lt_0_compat|]; lra).
  assert (N : 0 < (ro - 4) * (ro - 2) * rm) by (apply Rmult_lt_0_compat; [apply Rmult_lt_0_compat|]; lra).
  assert (Q : 0 < (ro - 4) * (ro - 2) * rm / ((rm - 4) * (rm - 2) * ro)) by now apply Rdiv_lt_0_compat.
  split; [split; [apply sqrt_pos|]|intros _; split; [now apply sqrt_lt_R0|exact D]].
  rewrite <- sqrt_1. apply sqrt_le_1_alt. apply (Rmult_le_reg_r ((rm - 4) * (rm - 2) * ro)); [exact D|]. unfold Rdiv. rewrite Rmult_assoc, Rinv_l by lra.
  assert (0 <= (rm - ro) * (rm * ro - 8)) by (apply Rmult_le_pos; nra). nra.
Qed.
Lemma radam_corrected step b1 b2 eps ts m s : 0 <= b1 < 1 -> 0 <= b2 < 1 -> 0 < eps -> (1 <= ts)%nat -> 0 <= s ->
  radam_alpha step b1 b2 ts * (m / (sqrt s + eps * sqrt (1 - b2 ^ ts))) =
  step * radam_rect b2 ts * ((m / (1 - b1 ^ ts)) / (sqrt (s / (1 - b2 ^ ts)) + eps)).
Proof.
  intros H1 H2 He Ht Hs. pose proof (pow_lt_1 b1 ts H1 Ht). pose proof (pow_lt_1 b2 ts H2 Ht). unfold radam_alpha. rewrite sqrt_div by lra.
  assert (0 < sqrt (1 - b2 ^ ts)) by (apply sqrt_lt_R0; lra). pose proof (sqrt_pos s). field. repeat split; try lra; nra.
Qed.
Lemma adam_corrected step b1 b2 eps ts m s : 0 <= b1 < 1 -> 0 <= b2 < 1 -> 0 < eps -> (1 <= ts)%nat -> 0 <= s ->
  adam_alpha step b1 b2 ts * (m / (sqrt s + eps)) =
  step * ((m / (1 - b1 ^ ts)) / (sqrt (s / (1 - b2 ^ ts)) + eps / sqrt (1 - b2 ^ ts))).
Proof.
  intros H1 H2 He Ht Hs. pose proof (pow_lt_1 b1 ts H1 Ht). pose proof (pow_lt_1 b2 ts H2 Ht). unfold adam_alpha. rewrite sqrt_div by lra.
  assert (0 < sqrt (1 - b2 ^ ts)) by (apply sqrt_lt_R0; lra). pose proof (sqrt_pos s). field. repeat split; try lra; nra.
Qed.
Lemma radam_steps step b1 b2 eps ts g x0 r c : 0 <= b1 < 1 -> b2 < 1 -> b1 ^ 2 < b2 -> 0 < eps -> 0 < step -> (forall k, (1 <= ts k)%nat) ->
  fits x0 r c -> (forall k, fits (g k) r c) -> forall n, exists v v',
  successive (fun k => radam_optimize step b1 b2 eps (ts k)) g x0 n v v' /\
  forall i j, (i < r)%nat -> (j < c)%nat ->
    let m := average b1 (entry g i j) (S n) in let move := rget v' i j - rget v i j in
    Rabs move <= adam_alpha step b1 b2 (ts n) * ((1 - b1) / sqrt ((1 - b2) * (1 - b1 ^ 2 / b2))) /\ move * m <= 0 /\ (m = 0 -> move = 0).
Proof.
  intros H1 H2 H He Hs Ht F0 Fg n. assert (Hb2 : 0 <= b2 < 1) by (pose proof (pow2_ge_0 b1); lra).
  destruct (radam_run b1 b2 eps step ts g x0 r c F0 Fg n) as (v & v' & S1 & Fv & E).
  exists v, v'. split; [exact S1|]. intros i j Hi Hj m move. unfold move. rewrite (elems_at _ _ _ _ i j E) by auto. fold m.
  pose proof (alpha_pos step b1 b2 (ts n) H1 Hb2 Hs (Ht n)) as Ha. destruct (rect_bounds b2 (ts n) Hb2 (Ht n)) as ((R0 & R1) & _).
  assert (EA : radam_alpha step b1 b2 (ts n) = radam_rect b2 (ts n) * adam_alpha step b1 b2 (ts n)) by (unfold radam_alpha, adam_alpha; unfold Rdiv; ring).
  rewrite EA. set (q := radam_rect b2 (ts n)) in *. set (a := adam_alpha step b1 b2 (ts n)) in *.
  destruct (no_zero_division b1 b2 eps (ts n) (entry g i j) (S n) H1 Hb2 He (Ht n)) as (_ & P2 & _ & _ & D).
  set (e := eps * sqrt (1 - b2 ^ ts n)) in *. assert (He' : 0 < e) by (unfold e; assert (0 < sqrt (1 - b2 ^ ts n)) by (apply sqrt_lt_R0; lra); nra).
  pose proof (quotient_bound b1 b2 e (entry g i j) (S n) H1 H2 H He') as B. fold m in B. unfold adam_bound in B.
  set (d := sqrt (average b2 (fun k => entry g i j k ^ 2) (S n)) + e) in *.
  replace (rget v i j - q * a * (m / d) - rget v i j) with (- (q * a * (m / d))) by ring. split; [|split].
  - rewrite Rabs_Ropp, Rabs_mult, (Rabs_right (q * a)) by nra. pose proof (Rabs_pos (m / d)). apply Rmult_le_compat; nra.
  - apply (against (q * a) m d); [nra|exact D].
  - intros ->. unfold Rdiv. ring.
Qed.
