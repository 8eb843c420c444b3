(** * Cross entropy in floating point: the gradient *)
From Coq Require Import ZArith Bool Lia List Arith Reals Lra Psatz Permutation.
From Flocq Require Import Core BinarySingleNaN Relative.
From Verif Require Import DenseModel ArithModel AsmModel AsmCode AsmCalls AsmSpec FloatModel FloatSpec FloatProofs NumModel NumSpec NumLemmas NumProofs NumProofs2 NumProofs4 AsmFloatSpec AsmFloat AsmFloat2 SoftModel SoftSpec SoftProofs SoftFloat SoftFloat2 OptFloatNum NormFloatModel NormFloatNum NormFloatBack NormFloatBack5 LossFloatModel LossFloatSpec LossFloatProofs LossFloatProofs2.
Import ListNotations.
Local Open Scope list_scope.
Local Open Scope R_scope.

Lemma q_real U ht r t q s gy e : 0 < U <= / 1000 -> 0 <= ht -> 0 < s -> 0 <= e <= 2 -> rel (5 * U) r (/ s) -> Rabs (t - r * gy) <= U * Rabs (r * gy) + ht -> Rabs (q - e * t) <= U * Rabs (e * t) + ht ->
  Rabs (q - e * (gy / s)) <= 8 * U * (e * Rabs (gy / s)) + 4 * ht.
Proof.
  intros HU Hh Hs He H1 H2 H3. set (w := gy / s). set (A := Rabs w). assert (PA : 0 <= A) by apply Rabs_pos.
  assert (H1' : Rabs (r * gy - w) <= 5 * (U * A)). { replace (r * gy - w) with ((r - / s) * gy) by (unfold w, Rdiv; ring). rewrite Rabs_mult. unfold A, w, Rdiv. rewrite Rabs_mult. unfold rel in H1. pose proof (Rabs_pos gy). assert (Rabs (r - / s) * Rabs gy <= 5 * U * Rabs (/ s) * Rabs gy) by (apply Rmult_le_compat_r; lra). lra. }
  assert (UA : 0 <= U * A) by (apply Rmult_le_pos; lra). assert (UUA : U * (U * A) <= / 1000 * (U * A)) by (apply Rmult_le_compat_r; lra).
  assert (R1 : Rabs (r * gy) <= A + 5 * (U * A)). { pose proof (Rabs_triang (r * gy - w) w) as T. replace (r * gy - w + w) with (r * gy) in T by ring. fold A in T. lra. }
  assert (UR : U * Rabs (r * gy) <= U * (A + 5 * (U * A))) by (apply Rmult_le_compat_l; lra).
  assert (H4 : Rabs (t - w) <= 6.1 * (U * A) + ht). { pose proof (Rabs_triang (t - r * gy) (r * gy - w)) as T. replace (t - r * gy + (r * gy - w)) with (t - w) in T by ring. lra. }
  assert (T1 : Rabs t <= A + 6.1 * (U * A) + ht). { pose proof (Rabs_triang (t - w) w) as T. replace (t - w + w) with t in T by ring. fold A in T. lra. }
  rewrite (Rabs_mult e t), (Rabs_right e) in H3 by lra. pose proof (Rabs_triang (q - e * t) (e * (t - w))) as T. replace (q - e * t + e * (t - w)) with (q - e * w) in T by ring. rewrite (Rabs_mult e), (Rabs_right e) in T by lra.
  assert (X1 : e * Rabs (t - w) <= e * (6.1 * (U * A) + ht)) by (apply Rmult_le_compat_l; lra). assert (X2 : e * Rabs t <= e * (A + 6.1 * (U * A) + ht)) by (apply Rmult_le_compat_l; lra).
  assert (X3 : U * (e * Rabs t) <= U * (e * (A + 6.1 * (U * A) + ht))) by (apply Rmult_le_compat_l; lra).
  assert (X4 : U * (e * (A + 6.1 * (U * A) + ht)) = e * (U * A) + 6.1 * (e * (U * (U * A))) + U * (e * ht)) by ring. rewrite X4 in X3.
  assert (X5 : e * (U * (U * A)) <= e * (/ 1000 * (U * A))) by (apply Rmult_le_compat_l; lra). assert (X6 : e * ht <= 2 * ht) by (apply Rmult_le_compat_r; lra).
  assert (X7 : U * (e * ht) <= / 1000 * (2 * ht)) by (apply Rmult_le_compat; try lra; apply Rmult_le_pos; lra).
  assert (X8 : 0 <= e * (U * A)) by (apply Rmult_le_pos; lra). replace (8 * U * (e * A)) with (8 * (e * (U * A))) by ring.
  replace (e * (6.1 * (U * A) + ht)) with (6.1 * (e * (U * A)) + e * ht) in X1 by ring. replace (e * (/ 1000 * (U * A))) with (/ 1000 * (e * (U * A))) in X5 by ring. lra.
Qed.

(** sums of such products *)
Lemma products d (w k h : R) (es qs : list (val d)) : Forall2 (fun e q => 0 <= real e /\ Rabs (real q - real e * w) <= k * (real e * Rabs w) + h) es qs -> 
  Rabs (total qs - total es * w) <= k * (total es * Rabs w) + INR (length es) * h /\ total_abs qs <= (1 + k) * (total es * Rabs w) + INR (length es) * h.
Proof.
  unfold total, total_abs. induction 1 as [|e q es qs (P & H) _ (I1 & I2)]; [cbn; rewrite !Rmult_0_l, Rminus_0_r, Rabs_R0; lra|]. cbn [fold_right length]. rewrite S_INR. set (T := fold_right (fun x s => real x + s) 0 es) in *. set (Q := fold_right (fun x s => real x + s) 0 qs) in *. split.
  - replace (real q + Q - (real e + T) * w) with ((real q - real e * w) + (Q - T * w)) by ring. eapply Rle_trans; [apply Rabs_triang|]. lra.
  - pose proof (Rabs_triang (real q - real e * w) (real e * w)) as Tr. replace (real q - real e * w + real e * w) with (real q) in Tr by ring. rewrite (Rabs_mult (real e) w), (Rabs_right (real e)) in Tr by lra. lra.
Qed.
(** what is left of the incoming gradient at the maximum: g - sum of q is near 0 *)
Lemma rest_real U n gm ht T s gy Q QS QA w : 0 < U <= / 1000 -> 0 <= gm <= / 7 -> 0 <= n -> 0 <= ht -> 0 < s -> 0 < T -> Rabs (s - T) <= gm * T -> w = gy / s ->
  Rabs (QS - T * w) <= 8 * U * (T * Rabs w) + n * (4 * ht) -> QA <= (1 + 8 * U) * (T * Rabs w) + n * (4 * ht) -> Rabs (Q + QS) <= gm * QA ->
  Rabs (gy + Q) <= Rabs gy * (2.37 * gm + 9.4 * U) + 5 * (n * ht).
Proof.
  intros HU Hg Hn Hh Hs HT H1 Ew H2 H3 H4. assert (Pn : 0 <= n * ht) by (apply Rmult_le_pos; lra). pose proof (Rabs_pos gy) as Pg. apply Rabs_le_inv in H1.
  assert (TS : T / s <= 7 / 6). { unfold Rdiv. apply Rmult_le_reg_r with s; [lra|]. rewrite Rmult_assoc, Rinv_l by lra. assert (gm * T <= / 7 * T) by (apply Rmult_le_compat_r; lra). lra. }
  assert (TP : 0 < T / s) by (unfold Rdiv; apply Rmult_lt_0_compat; [lra|now apply Rinv_0_lt_compat]).
  assert (A : T * Rabs w = T / s * Rabs gy). { subst w. unfold Rdiv. rewrite Rabs_mult, (Rabs_right (/ s)) by (left; now apply Rinv_0_lt_compat). ring. }
  set (V := T / s * Rabs gy) in *. assert (PV : 0 <= V) by (apply Rmult_le_pos; lra). assert (V1 : V <= 7 / 6 * Rabs gy) by (apply Rmult_le_compat_r; lra). rewrite A in H2, H3.
  assert (D : Rabs (gy - T * w) <= gm * V). { replace (gy - T * w) with ((s - T) * (gy / s)) by (subst w; unfold Rdiv; field; lra). rewrite Rabs_mult. replace (gm * V) with (gm * T * Rabs (gy / s)) by (unfold V, Rdiv; rewrite Rabs_mult, (Rabs_right (/ s)) by (left; now apply Rinv_0_lt_compat); ring).
    apply Rmult_le_compat_r; [apply Rabs_pos|]. apply Rabs_le. lra. }
  pose proof (Rabs_triang (gy - T * w) (T * w - QS)) as T1. pose proof (Rabs_triang (gy - QS) (QS + Q)) as T2. replace (gy - T * w + (T * w - QS)) with (gy - QS) in T1 by ring. replace (gy - QS + (QS + Q)) with (gy + Q) in T2 by ring.
  rewrite (Rabs_minus_sym (T * w)) in T1. rewrite (Rplus_comm QS Q) in T2.
  assert (E1 : gm * QA <= gm * ((1 + 8 * U) * V + n * (4 * ht))) by (apply Rmult_le_compat_l; lra).
  assert (E2 : gm * ((1 + 8 * U) * V + n * (4 * ht)) <= gm * V * 1.008 + / 7 * (4 * (n * ht))).
  { replace (gm * ((1 + 8 * U) * V + n * (4 * ht))) with (gm * V * (1 + 8 * U) + gm * (4 * (n * ht))) by ring. apply Rplus_le_compat; [apply Rmult_le_compat_l; [apply Rmult_le_pos; lra|lra]|apply Rmult_le_compat_r; lra]. }
  assert (E3 : gm * V <= gm * (7 / 6 * Rabs gy)) by (apply Rmult_le_compat_l; lra). assert (E4 : U * V <= U * (7 / 6 * Rabs gy)) by (apply Rmult_le_compat_l; lra).
  assert (P1 : 0 <= gm * Rabs gy) by (apply Rmult_le_pos; lra). assert (P2 : 0 <= U * Rabs gy) by (apply Rmult_le_pos; lra).
  replace (Rabs gy * (2.37 * gm + 9.4 * U)) with (2.37 * (gm * Rabs gy) + 9.4 * (U * Rabs gy)) by ring.
  replace (gm * (7 / 6 * Rabs gy)) with (7 / 6 * (gm * Rabs gy)) in E3 by ring. replace (U * (7 / 6 * Rabs gy)) with (7 / 6 * (U * Rabs gy)) in E4 by ring. replace (8 * U * V) with (8 * (U * V)) in H2 by ring. lra.
Qed.
(** a computed probability *)
Lemma prob_real h t ep Ei S0 e s : 0 <= h <= / 1000 -> 0 <= t -> 0 <= ep <= 0.15 -> 1 <= S0 -> 1 <= s -> 0 <= Ei <= S0 -> Rabs (e - Ei) <= h * Ei + t -> Rabs (s - S0) <= ep * S0 ->
  Rabs (e / s - Ei / S0) <= 1.18 * (h + ep) + t.
Proof.
  intros Hh Ht He HS Hs HE H1 H2. assert (I : 0 < / s) by (apply Rinv_0_lt_compat; lra). assert (J : 0 < / S0) by (apply Rinv_0_lt_compat; lra). assert (I1 : / s <= 1) by (rewrite <- Rinv_1; apply Rinv_le_contravar; lra).
  set (P := Ei / S0). assert (PP : 0 <= P <= 1). { unfold P, Rdiv. split; [apply Rmult_le_pos; lra|]. apply Rmult_le_reg_r with S0; [lra|]. rewrite Rmult_assoc, Rinv_l by lra. lra. }
  assert (R : S0 * / s <= 1.18). { apply Rmult_le_reg_r with s; [lra|]. rewrite Rmult_assoc, Rinv_l by lra. apply Rabs_le_inv in H2. nra. } assert (R0 : 0 <= S0 * / s) by (apply Rmult_le_pos; lra).
  replace (e / s - P) with ((e - Ei) * / s + (S0 - s) * (/ s * P)) by (unfold P, Rdiv; field; lra). eapply Rle_trans; [apply Rabs_triang|]. rewrite !Rabs_mult, (Rabs_right (/ s)), (Rabs_right P) by lra. rewrite (Rabs_minus_sym S0 s).
  assert (A : Rabs (e - Ei) * / s <= (h * Ei + t) * / s) by (apply Rmult_le_compat_r; lra). assert (B : Rabs (s - S0) * (/ s * P) <= ep * S0 * (/ s * P)) by (apply Rmult_le_compat_r; [apply Rmult_le_pos; lra|exact H2]).
  replace ((h * Ei + t) * / s) with (h * (P * (S0 * / s)) + t * / s) in A by (unfold P, Rdiv; field; lra). replace (ep * S0 * (/ s * P)) with (ep * (P * (S0 * / s))) in B by ring.
  assert (C : P * (S0 * / s) <= 1 * 1.18) by (apply Rmult_le_compat; lra). assert (D : t * / s <= t * 1) by (apply Rmult_le_compat_l; lra).
  assert (X : h * (P * (S0 * / s)) <= h * 1.18) by (apply Rmult_le_compat_l; lra). assert (Y : ep * (P * (S0 * / s)) <= ep * 1.18) by (apply Rmult_le_compat_l; lra). lra.
Qed.
Lemma tiny_u d : half_tiny d = u d * (tau d / 2).
Proof.
  assert (K : forall a b, / 2 ^ (a + S b) = / 2 ^ a * (/ 2 ^ b / 2)) by (intros a b; rewrite inv_split; cbn [pow]; rewrite Rinv_mult; field; split; apply pow_nonzero; lra). unfold half_tiny, u, tau. destruct d; [apply (K 24%nat 125%nat)|apply (K 53%nat 1021%nat)].
Qed.
Lemma count_tiny d n : INR n * u d <= / 8 -> INR n * half_tiny d <= tau d / 16.
Proof.
  intros H. rewrite tiny_u. destruct (eta_tau d) as (_ & Et & _). replace (INR n * (u d * (tau d / 2))) with (INR n * u d * (tau d / 2)) by ring. replace (tau d / 16) with (/ 8 * (tau d / 2)) by lra. apply Rmult_le_compat_r; lra.
Qed.
(** the sum of the three contributions *)
Lemma three d (a b q : val d) B : finite a -> finite b -> finite q -> rep d (4 * B) -> Rabs (real a) <= B -> Rabs (real b) <= B -> Rabs (real q) <= 1.5 * B -> 0 <= B ->
  forall v, v = fadd (fadd a q) b \/ v = fadd (fadd q b) a -> finite v /\ Rabs (real v - (real a + real q + real b)) <= u d * (2.5 * (Rabs (real a) + Rabs (real q) + Rabs (real b))).
Proof.
  intros Fa Fb Fq R Ba Bb Bq PB v Hv. pose proof (u_small d) as (U1 & U2). assert (Us : / 2 ^ 24 <= / 1000) by (apply inv_small; lia).
  assert (K : forall x y z : val d, finite x -> finite y -> finite z -> Rabs (real x) + Rabs (real y) + Rabs (real z) <= 3.5 * B -> let w := fadd (fadd x y) z in finite w /\ Rabs (real w - (real x + real y + real z)) <= u d * (2.5 * (Rabs (real x) + Rabs (real y) + Rabs (real z)))).
  { clear - U1 U2 Us R PB. intros x y z Fx Fy Fz H. pose proof (Rabs_pos (real x)) as Px. pose proof (Rabs_pos (real y)) as Py. pose proof (Rabs_pos (real z)) as Pz. pose proof (Rabs_triang (real x) (real y)) as T1.
    destruct (@add_op d x y (4 * B) Fx Fy R ltac:(lra)) as (F1 & _ & E1). set (t := fadd x y) in *. set (Z := Rabs (real x) + Rabs (real y) + Rabs (real z)) in *.
    assert (E1' : Rabs (real t - (real x + real y)) <= u d * Z) by (eapply Rle_trans; [exact E1|]; apply Rmult_le_compat_l; unfold Z; lra). assert (UZ : u d * Z <= / 1000 * Z) by (apply Rmult_le_compat_r; unfold Z; lra).
    pose proof (Rabs_triang (real t - (real x + real y)) (real x + real y + real z)) as T2. replace (real t - (real x + real y) + (real x + real y + real z)) with (real t + real z) in T2 by ring.
    pose proof (Rabs_triang (real x + real y) (real z)) as T3. assert (T4 : Rabs (real t + real z) <= 1.001 * Z) by (unfold Z in *; lra).
    destruct (@add_op d t z (4 * B) F1 Fz R ltac:(lra)) as (F2 & _ & E2). split; [exact F2|]. assert (E2' : Rabs (real (fadd t z) - (real t + real z)) <= u d * (1.001 * Z)) by (eapply Rle_trans; [exact E2|]; apply Rmult_le_compat_l; lra).
    pose proof (Rabs_triang (real (fadd t z) - (real t + real z)) (real t - (real x + real y))) as T5. replace (real (fadd t z) - (real t + real z) + (real t - (real x + real y))) with (real (fadd t z) - (real x + real y + real z)) in T5 by ring.
    assert (0 <= u d * Z) by (apply Rmult_le_pos; unfold Z; lra). lra. }
  destruct Hv as [-> | ->].
  - destruct (K a q b Fa Fq Fb ltac:(lra)) as (A & E). split; [exact A|exact E].
  - destruct (K q b a Fq Fb Fa ltac:(lra)) as (A & E). split; [exact A|]. replace (real a + real q + real b) with (real q + real b + real a) by ring. replace (Rabs (real a) + Rabs (real q) + Rabs (real b)) with (Rabs (real q) + Rabs (real b) + Rabs (real a)) by ring. exact E.
Qed.
