(** * Optimizers in floating point: Adam, RAdam and RMSProp *)
From Coq Require Import ZArith Bool Lia List Arith Reals Lra Psatz.
From Flocq Require Import Core BinarySingleNaN Relative.
From Verif Require Import DenseModel DenseSpec ArithModel ArithSpec FloatModel FloatSpec NumModel NumSpec NumLemmas AsmFloatSpec AsmFloat OptFloatModel OptFloatSpec OptFloatNum OptFloatNum2 OptFloatNum3 OptFloatProofs OptFloatNum4 OptFloatProofs2.
Import ListNotations.
Local Open Scope R_scope.

Section Adaptive.
Variable d : dtype.
Notation mat := (dense (val d)).
Notation U := (u d).
Notation h := (half_tiny d).
Notation G := (grad_max d).
Notation cv := (conv F64 d).
Notation get m i j := (get fzero m i j).

Lemma within_shaped B r c (x : mat) : within d B r c x -> shaped d x r c.
Proof. intros (A1 & A2 & A3 & _). repeat split; auto. Qed.
Lemma root_bound (m : val d) : second_ok d m -> 0 <= real m <= 2 * G * (2 * G).
Proof.
  intros (_ & H). pose proof (grad_reps d) as (HG & _). assert (0 <= G * G) by (apply Rmult_le_pos; lra). lra.
Qed.
(** the quotient *)
Lemma quotient_ok K (v m e : val d) : 1 <= K <= 2 ^ 12 -> finite v -> second_ok d m -> Rabs (real v) <= K * sqrt (real m) + K * w -> finite e -> / 2 ^ 35 <= real e <= 1 ->
  let q := fdiv v (fadd (elem_sqrt d m) e) in finite q /\ Rabs (real q) <= K * (1 + / 2 ^ 20).
Proof.
  intros HK Fv Hm Q Fe He. destruct (grad_reps d) as (HG & _ & R2 & R3 & R4 & _). apply (quotient_op d v m e (2 * G) K w); auto; try lra.
  - apply Hm.
  - now apply root_bound.
  - replace (2 * (2 * G)) with (4 * G) by ring. exact R4.
  - unfold w. lra.
Qed.
(** the scaled step *)
Lemma step_ok K A (q : val d) (a : val F64) : 1 <= K <= 2 ^ 12 -> rate A a -> A <= 2 ^ 19 -> finite q -> Rabs (real q) <= K * (1 + / 2 ^ 20) ->
  finite (fmul q (cv a)) /\ Rabs (real (fmul q (cv a))) <= full (K * real a).
Proof.
  intros HK Ha HA Fq Hq. destruct (conv_rate d A a Ha HA) as (Fa & La & L2).
  destruct (scaled_op d q (cv a) K (real a * (1 + U) + h) Fq Fa HK La L2 Hq) as (F & L). split; [exact F|]. eapply Rle_trans; [exact L|].
  unfold full. pose proof (u_small d) as HU. pose proof (tiny_small d) as Hh. destruct Ha as (_ & Pa). set (uu := U) in *. set (hh := h) in *. clearbody uu hh. set (z := real a) in *. clearbody z.
  assert (E : K * z * ((1 + uu) * (1 + / 2 ^ 19)) <= K * z * (1 + / 2 ^ 17)). { apply Rmult_le_compat_l; [apply Rmult_le_pos; lra|lra]. }
  assert (K * hh <= 2 ^ 12 * / 2 ^ 150) by (apply Rmult_le_compat; lra). lra.
Qed.
Lemma step_plain K A (q : val d) (a : val F64) (x : R) : 1 <= K <= 2 ^ 12 -> rate A a -> A <= 2 ^ 19 -> finite q -> Rabs (real q) <= K * (1 + / 2 ^ 20) ->
  finite (fmul q (cv a)) /\ Rabs (real (fmul q (cv a))) <= full (K * real a + 0 * Rabs x) /\ Rabs (x - real (fmul q (cv a))) <= Rabs x + full (K * real a).
Proof.
  intros HK Ha HA Fq Hq. destruct (step_ok K A q a HK Ha HA Fq Hq) as (F & L). split; [exact F|]. rewrite Rmult_0_l, Rplus_0_r. split; [exact L|].
  pose proof (Rabs_triang x (- real (fmul q (cv a)))) as T. rewrite Rabs_Ropp in T. fold (x - real (fmul q (cv a))) in T. lra.
Qed.

(** ** Weight decay *)
Lemma weight_rep : rep d (2 * weight_max d) /\ rep d (4 * weight_max d) /\ 2 ^ 100 <= weight_max d.
Proof.
  unfold weight_max. destruct d.
  - replace (2 * 2 ^ 124) with (2 ^ 125) by ring. replace (4 * 2 ^ 124) with (2 ^ 126) by ring. repeat split; try (apply rep_two; reflexivity). apply Rle_pow; [lra|lia].
  - assert (E1 : 2 * 2 ^ 1020 = 2 ^ 1021) by reflexivity. assert (E2 : 4 * 2 ^ 1020 = 2 ^ 1022) by (replace 4 with (2 * 2) by ring; rewrite Rmult_assoc; reflexivity).
    rewrite E1, E2. repeat split; try (apply rep_two; reflexivity). apply Rle_pow; [lra|lia].
Qed.
Section Decay.
Variables (K A : R) (q x : val d) (a l : val F64).
Hypothesis HK : 1 <= K <= 2 ^ 12.
Hypothesis Ha : rate A a.
Hypothesis HA : A <= 2 ^ 19.
Hypothesis Hl : rate 1 l.
Hypothesis Hal : real a * real l <= / 2.
Hypothesis Fq : finite q.
Hypothesis Hq : Rabs (real q) <= K * (1 + / 2 ^ 20).
Hypothesis Fx : finite x.
Hypothesis Hx : Rabs (real x) <= 2 * weight_max d.
Let p := fmul x (cv l).
Let s := fadd q p.
Let dl := fmul s (cv a).
Lemma decay_p : finite p /\ real p = nearest d (real x * real (cv l)) /\ Rabs (real p) <= (1 + U) * (Rabs (real x) * real (cv l)) + h /\ Rabs (real p) <= 2 * weight_max d /\ 0 <= real (cv l) <= 1 /\ finite (cv l).
Proof.
  destruct Hl as (Fl & Pl). destruct (conv_factor d l Fl Pl) as (Fc & Pc & _). pose proof weight_rep as (R1 & _ & _).
  assert (T : Rabs (real x * real (cv l)) <= 2 * weight_max d). { rewrite Rabs_mult, (Rabs_right (real (cv l))) by lra. pose proof (Rabs_pos (real x)). apply Rle_trans with (2 * weight_max d * 1); [apply Rmult_le_compat; lra|lra]. }
  destruct (mul_op x (cv l) _ Fx Fc R1 T) as (F & L & N). apply near_le in N. rewrite Rabs_mult, (Rabs_right (real (cv l))) in N by lra.
  destruct (mul_in d x (cv l) (- (2 * weight_max d)) (2 * weight_max d) Fx Fc) as (_ & _ & E); [now apply rep_opp|exact R1|now apply rabs_le|].
  repeat split; auto; apply Pc.
Qed.
Lemma decay_s : finite s /\ real s = nearest d (real q + real p) /\ Rabs (real s) <= (1 + U) * (Rabs (real q) + Rabs (real p)) + h.
Proof.
  destruct decay_p as (Fp & _ & _ & Lp & _). pose proof weight_rep as (_ & R2 & W).
  assert (T : Rabs (real q + real p) <= 4 * weight_max d). { eapply Rle_trans; [apply Rabs_triang|]. nra. }
  destruct (add_op q p _ Fq Fp R2 T) as (F & L & N). assert (N' : near_to d (real (fadd q p)) (real q + real p)) by (unfold near_to; pose proof (tiny_small d); lra). apply near_le in N'.
  destruct (add_in d q p (- (4 * weight_max d)) (4 * weight_max d) Fq Fp) as (_ & _ & E); [now apply rep_opp|exact R2|now apply rabs_le|].
  split; [exact F|]. split; [exact E|]. eapply Rle_trans; [exact N'|]. apply Rplus_le_compat_r. pose proof (u_small d). apply Rmult_le_compat_l; [lra|apply Rabs_triang].
Qed.
(** the product of the rates at the type *)
Lemma decay_rates : real (cv l) * real (cv a) <= real a * real l * (1 + 3 * U) + h * 2 ^ 21 /\ real (cv l) * real (cv a) <= 3 / 5.
Proof.
  destruct (conv_rate d A a Ha HA) as (_ & La & L2). destruct (conv_rate d 1 l Hl ltac:(lra)) as (_ & Ll & L3). destruct Ha as (_ & Pa). destruct Hl as (_ & Pl).
  pose proof (u_small d) as HU. pose proof (tiny_small d) as Hh. set (uu := U) in *. set (hh := h) in *. clearbody uu hh. set (za := real a) in *. set (zl := real l) in *. clearbody za zl. set (ca := real (cv a)) in *. set (cl := real (cv l)) in *. clearbody ca cl.
  assert (E : cl * ca <= (zl * (1 + uu) + hh) * (za * (1 + uu) + hh)) by (apply Rmult_le_compat; lra).
  assert (E1 : za * zl * (1 + uu) ^ 2 <= za * zl * (1 + 3 * uu)). { apply Rmult_le_compat_l; [apply Rmult_le_pos; lra|nra]. }
  assert (E2 : zl * (1 + uu) * hh <= 2 * hh) by (apply Rmult_le_compat_r; nra).
  assert (E3 : za * (1 + uu) * hh <= 2 ^ 20 * hh) by (apply Rmult_le_compat_r; lra). assert (E4 : hh * hh <= 1 * hh) by (apply Rmult_le_compat_r; lra).
  assert (X : cl * ca <= za * zl * (1 + 3 * uu) + hh * 2 ^ 21) by lra. split; [exact X|].
  assert (za * zl * (1 + 3 * uu) <= / 2 * (1 + 3 * uu)) by (apply Rmult_le_compat_r; lra). lra.
Qed.
(** the size of the step *)
Lemma decay_size : finite dl /\ real dl = nearest d (real s * real (cv a)) /\ Rabs (real dl) <= full (K * real a + (real a * real l + / 2 ^ 100) * Rabs (real x)) /\ Rabs (real dl) <= full (K * real a) + Rabs (real x).
Proof.
  destruct decay_p as (Fp & _ & Np & Lp & Pl & _). destruct decay_s as (Fs & _ & Ns). destruct decay_rates as (X1 & X2). destruct (conv_rate d A a Ha HA) as (Fa & La & L2).
  pose proof weight_rep as (R1 & _ & W). assert (Pa : 0 <= real a) by apply Ha. assert (Pll : 0 <= real l) by apply Hl. pose proof (u_small d) as HU. pose proof (tiny_small d) as Hh. pose proof (Rabs_pos (real x)) as Px. pose proof (Rabs_pos (real q)) as Pq. pose proof (Rabs_pos (real p)) as Pp.
  assert (Pal : 0 <= real a * real l) by (apply Rmult_le_pos; lra).
  assert (Q1 : Rabs (real q) * real (cv a) <= K * real a * (1 + / 2 ^ 19) + / 2 ^ 130).
  { apply Rle_trans with (K * (1 + / 2 ^ 20) * (real a * (1 + U) + h)); [apply Rmult_le_compat; lra|].
    clear - Pa HU Hh HK. set (uu := U) in *. set (hh := h) in *. clearbody uu hh. set (z := real a) in *. clearbody z.
    assert (K * z * ((1 + / 2 ^ 20) * (1 + uu)) <= K * z * (1 + / 2 ^ 19)) by (apply Rmult_le_compat_l; [apply Rmult_le_pos; lra|lra]).
    assert (K * hh <= 2 ^ 12 * / 2 ^ 150) by (apply Rmult_le_compat; lra). lra. }
  assert (P1 : Rabs (real p) * real (cv a) <= (1 + U) * (real (cv l) * real (cv a) * Rabs (real x)) + h * 2 ^ 20).
  { apply Rle_trans with (((1 + U) * (Rabs (real x) * real (cv l)) + h) * real (cv a)); [apply Rmult_le_compat_r; lra|]. assert (h * real (cv a) <= h * 2 ^ 20) by (apply Rmult_le_compat_l; lra). lra. }
  assert (S1 : Rabs (real s * real (cv a)) <= (1 + U) * (K * real a * (1 + / 2 ^ 19) + / 2 ^ 130 + ((1 + U) * (real (cv l) * real (cv a) * Rabs (real x)) + h * 2 ^ 20)) + h * 2 ^ 20).
  { rewrite Rabs_mult, (Rabs_right (real (cv a))) by lra. apply Rle_trans with (((1 + U) * (Rabs (real q) + Rabs (real p)) + h) * real (cv a)); [apply Rmult_le_compat_r; lra|].
    assert ((1 + U) * (Rabs (real q) * real (cv a) + Rabs (real p) * real (cv a)) <= (1 + U) * (K * real a * (1 + / 2 ^ 19) + / 2 ^ 130 + ((1 + U) * (real (cv l) * real (cv a) * Rabs (real x)) + h * 2 ^ 20))) by (apply Rmult_le_compat_l; lra).
    assert (h * real (cv a) <= h * 2 ^ 20) by (apply Rmult_le_compat_l; lra). lra. }
  assert (KA : K * real a <= 2 ^ 31). { replace (2 ^ 31) with (2 ^ 12 * 2 ^ 19) by ring. apply Rmult_le_compat; try lra. destruct Ha as (_ & ?). lra. }
  assert (PKA : 0 <= K * real a) by (apply Rmult_le_pos; lra). assert (Pra : 0 <= real (cv l) * real (cv a)) by (apply Rmult_le_pos; lra).
  set (ka := K * real a) in *. set (la := real (cv l) * real (cv a)) in *. set (z := Rabs (real x)) in *. set (al := real a * real l) in *.
  assert (LZ : la * z <= 3 / 5 * z) by (apply Rmult_le_compat_r; lra).
  assert (LZ2 : la * z <= al * (1 + 3 * U) * z + h * 2 ^ 21 * z). { rewrite <- Rmult_plus_distr_r. apply Rmult_le_compat_r; lra. }
  assert (PLZ : 0 <= la * z) by (apply Rmult_le_pos; lra).
  assert (T : Rabs (real s * real (cv a)) <= 2 * weight_max d).
  { eapply Rle_trans; [exact S1|]. clear - Hx HU Hh LZ PLZ KA PKA W. set (uu := U) in *. set (hh := h) in *. clearbody uu hh ka. set (lz := la * z) in *. clearbody lz. set (ww := weight_max d) in *. clearbody ww.
    assert ((1 + uu) * ka <= 2 * 2 ^ 31) by (apply Rmult_le_compat; lra). assert ((1 + uu) * lz <= (1 + / 2 ^ 24) * (3 / 5 * (2 * ww))) by (apply Rmult_le_compat; lra).
    assert ((1 + uu) * ((1 + uu) * lz) <= (1 + / 2 ^ 24) * ((1 + / 2 ^ 24) * (3 / 5 * (2 * ww)))) by (apply Rmult_le_compat; try lra; apply Rmult_le_pos; lra).
    assert (uu * hh <= / 2 ^ 24 * / 2 ^ 150) by (apply Rmult_le_compat; lra). lra. }
  destruct (mul_op s (cv a) _ Fs Fa R1 T) as (F & L & N). apply near_le in N.
  destruct (mul_in d s (cv a) (- (2 * weight_max d)) (2 * weight_max d) Fs Fa) as (_ & _ & E); [now apply rep_opp|exact R1|now apply rabs_le|].
  split; [exact F|]. split; [exact E|].
  assert (Y : Rabs (real dl) <= (1 + 4 * U) * (ka * (1 + / 2 ^ 19) + la * z) + / 2 ^ 115).
  { fold dl in N. eapply Rle_trans; [exact N|]. clear - S1 HU Hh PLZ PKA. set (uu := U) in *. set (hh := h) in *. clearbody uu hh ka. set (lz := la * z) in *. clearbody lz. set (ss := Rabs (real s * real (cv a))) in *. clearbody ss.
    set (k2 := ka * (1 + / 2 ^ 19)) in *. assert (0 <= k2) by (apply Rmult_le_pos; lra). clearbody k2.
    apply Rle_trans with ((1 + uu) * ((1 + uu) * (k2 + / 2 ^ 130 + ((1 + uu) * lz + hh * 2 ^ 20)) + hh * 2 ^ 20) + hh); [apply Rplus_le_compat_r, Rmult_le_compat_l; lra|].
    assert (E1 : (1 + uu) ^ 2 <= 1 + 4 * uu) by nra. assert (E2 : (1 + uu) ^ 3 <= 1 + 4 * uu). { assert (uu * uu <= / 2 ^ 24 * uu) by (apply Rmult_le_compat_r; lra). assert (uu * (uu * uu) <= 1 * (uu * uu)) by (apply Rmult_le_compat_r; nra). lra. }
    assert (k2 * (1 + uu) ^ 2 <= k2 * (1 + 4 * uu)) by (apply Rmult_le_compat_l; lra). assert (lz * (1 + uu) ^ 3 <= lz * (1 + 4 * uu)) by (apply Rmult_le_compat_l; lra).
    assert ((1 + uu) ^ 2 * (/ 2 ^ 130 + hh * 2 ^ 20) <= 2 * (/ 2 ^ 130 + hh * 2 ^ 20)) by (apply Rmult_le_compat_r; lra). assert (uu * (hh * 2 ^ 20) <= 1 * (hh * 2 ^ 20)) by (apply Rmult_le_compat_r; lra). lra. }
  split.
  - eapply Rle_trans; [exact Y|]. clear - LZ2 HU Hh PKA Px Pal. unfold full. set (uu := U) in *. set (hh := h) in *. clearbody uu hh ka al. set (lz := la * z) in *. clearbody lz. clearbody z.
    assert (Paz : 0 <= al * z) by (apply Rmult_le_pos; lra). set (az := al * z) in *. replace (al * (1 + 3 * uu) * z) with (az * (1 + 3 * uu)) in LZ2 by (unfold az; ring).
    replace ((al + / 2 ^ 100) * z) with (az + / 2 ^ 100 * z) by (unfold az; ring). clearbody az.
    assert (E0 : hh * 2 ^ 21 * z <= / 2 ^ 110 * z) by (apply Rmult_le_compat_r; lra).
    assert (E1 : (1 + 4 * uu) * lz <= (1 + 4 * uu) * (az * (1 + 3 * uu) + / 2 ^ 110 * z)) by (apply Rmult_le_compat_l; lra).
    assert (E2 : az * ((1 + 4 * uu) * (1 + 3 * uu)) <= az * (1 + / 2 ^ 17)) by (apply Rmult_le_compat_l; nra).
    assert (E3 : ka * ((1 + 4 * uu) * (1 + / 2 ^ 19)) <= ka * (1 + / 2 ^ 17)) by (apply Rmult_le_compat_l; lra).
    assert (E4 : z * ((1 + 4 * uu) * / 2 ^ 110) <= z * (/ 2 ^ 100 * (1 + / 2 ^ 17))) by (apply Rmult_le_compat_l; lra). lra.
  - eapply Rle_trans; [exact Y|]. clear - LZ HU PKA Px. unfold full. set (uu := U) in *. clearbody uu ka. set (lz := la * z) in *. clearbody lz. clearbody z.
    assert (E1 : (1 + 4 * uu) * lz <= (1 + 4 * uu) * (3 / 5 * z)) by (apply Rmult_le_compat_l; lra).
    assert (E3 : ka * ((1 + 4 * uu) * (1 + / 2 ^ 19)) <= ka * (1 + / 2 ^ 17)) by (apply Rmult_le_compat_l; lra).
    assert (E2 : z * ((1 + 4 * uu) * (3 / 5)) <= z * 1) by (apply Rmult_le_compat_l; lra). lra.
Qed.
Lemma decay_ok : finite dl /\ Rabs (real dl) <= full (K * real a + (real a * real l + / 2 ^ 100) * Rabs (real x)) /\ Rabs (real x - real dl) <= Rabs (real x) + full (K * real a).
Proof.
  destruct decay_size as (F & E & L1 & L2). split; [exact F|]. split; [exact L1|].
  destruct decay_p as (Fp & Ep & _ & _ & Pl & _). destruct decay_s as (Fs & Es & _). destruct (conv_rate d A a Ha HA) as (Fa & La & _).
  destruct (step_ok K A q a HK Ha HA Fq Hq) as (F0 & L0).
  assert (E0 : real (fmul q (cv a)) = nearest d (real q * real (cv a))). { apply (mul_back d q (cv a) F0). }
  assert (Nq : nearest d (real q) = real q) by (apply rep_real, Fq). rewrite E0 in L0. apply rabs_le in L0. apply rabs_le in L2. apply le_rabs.
  destruct (Rle_or_lt 0 (real x)) as [S|S].
  - rewrite (Rabs_right (real x)) in * by lra. assert (0 <= real p). { rewrite Ep. apply nearest_pos, Rmult_le_pos; lra. }
    assert (real q <= real s). { rewrite Es, <- Nq. apply nearest_le. rewrite Nq. lra. }
    assert (nearest d (real q * real (cv a)) <= real dl). { rewrite E. apply nearest_le. apply Rmult_le_compat_r; lra. } lra.
  - rewrite (Rabs_left (real x)) in * by lra. assert (real p <= 0). { rewrite Ep, <- (nearest_0 d). apply nearest_le. assert (0 <= - real x * real (cv l)) by (apply Rmult_le_pos; lra). lra. }
    assert (real s <= real q). { rewrite Es, <- Nq. apply nearest_le. rewrite Nq. lra. }
    assert (real dl <= nearest d (real q * real (cv a))). { rewrite E. apply nearest_le. apply Rmult_le_compat_r; lra. } lra.
Qed.
End Decay.

(** ** Histories of Adam *)
Definition moments_inv (K : R) (r c : nat) (s : moments d) : Prop :=
  moments_shaped d s r c /\ forall i j, (i < r)%nat -> (j < c)%nat -> moments_ok d K (get (mo_1 d s) i j) (get (mo_2 d s) i j).
Lemma moments_inv_0 K r c x : 0 <= K -> shaped d x r c -> moments_inv K r c (moments_fresh d x).
Proof.
  intros HK Sx. destruct (moments_fresh_shaped d x r c Sx) as (S & E1 & E2). split; [exact S|]. intros i j Hi Hj. rewrite E1, E2 by assumption. now apply moments_ok_0.
Qed.
Section Adam.
Variables (K A B : R) (alpha : nat -> val F64) (b1 b2 eps : val F64) (r c : nat) (g : nat -> mat) (x0 : mat).
Hypothesis Hb : averages K b1 b2.
Hypothesis Ha : forall n, rate A (alpha n).
Hypothesis HA : 0 <= A <= 2 ^ 19.
Hypothesis HB : room d (K * A) B.
Hypothesis Hx : within d B r c x0.
Hypothesis Hg : forall n, within d G r c (g n).
Lemma HK : 1 <= K <= 2 ^ 12. Proof. apply Hb. Qed.
Lemma HKA : 0 <= K * A. Proof. pose proof HK. apply Rmult_le_pos; lra. Qed.
Lemma Hka n : 0 <= K * real (alpha n) <= K * A.
Proof. pose proof HK. destruct (Ha n) as (_ & P). split; [apply Rmult_le_pos; lra|apply Rmult_le_compat_l; lra]. Qed.
Lemma moments_next s n : moments_inv K r c s -> forall i j, (i < r)%nat -> (j < c)%nat -> moments_ok d K
  (avg d (cv b1) (get (mo_1 d s) i j) (cv (fsub fone b1)) (get (g n) i j)) (avg d (cv b2) (get (mo_2 d s) i j) (cv (fsub fone b2)) (fmul (get (g n) i j) (get (g n) i j))).
Proof.
  intros (_ & HI) i j Hi Hj. destruct (Hg n) as (_ & _ & _ & H). destruct (H i j Hi Hj) as (Fg & Lg).
  destruct (conv_averages d K b1 b2 Hb) as (F1 & F2 & F3 & F4 & P1 & P2 & P3 & P4 & P5 & P6 & P7 & P8). apply moments_step; auto. apply HK.
Qed.
Lemma adam_bounded (HE : guard eps) lambda : is0 lambda = true -> forall n, exists x x', successive d (fun n => adam_optimize d (alpha n) b1 b2 eps lambda) g x0 n x x' /\
  within d (2 * B) r c x /\ within d (2 * B) r c x' /\ moved_at_most d (K * real (alpha n)) r c x x'.
Proof.
  intros Hl n. destruct (conv_guard d eps HE) as (Fe & He).
  destruct (bounded_steps d (moments d) (fun s => match s with AdamState _ s => Some s | _ => None end) (AdamState d) (moments_fresh d)
    (fun n => adam_update d (alpha n) b1 b2 eps lambda) (fun s => eq_refl) g x0 r c (K * A) B (fun n => K * real (alpha n)) (fun _ => 0) (moments_inv K r c)
    HKA HB Hka) with (n := n) as (x & x' & S & W & W' & M).
  - exact Hx.
  - apply moments_inv_0; [pose proof HK; lra|eapply within_shaped; exact Hx].
  - clear n. intros n s x HI Wx. destruct (adam_elems d (alpha n) b1 b2 eps lambda (g n) s x r c (proj1 HI) (within_shaped _ _ _ _ (Hg n)) (within_shaped _ _ _ _ Wx)) as (delta & s' & E & Ss' & Sd & H).
    exists delta, s'. split; [exact E|]. split; [|split; [exact Sd|]].
    + split; [exact Ss'|]. intros i j Hi Hj. destruct (H i j Hi Hj) as (E1 & E2 & _). rewrite E1, E2. now apply moments_next.
    + intros i j Hi Hj. destruct (H i j Hi Hj) as (_ & _ & E3). rewrite Hl in E3. rewrite E3. destruct (moments_next s n HI i j Hi Hj) as (Fv & _ & Hm & Q).
      destruct (quotient_ok K _ _ (cv eps) HK Fv Hm Q Fe He) as (Fq & Lq). apply (step_plain K A); auto; [apply HK|lra].
  - exists x, x'. split; [exact S|]. split; [exact W|]. split; [exact W'|]. apply moved_plain; [apply Hka|exact M].
Qed.
Lemma adamw_bounded (HE : guard eps) lambda : is0 lambda = false -> rate 1 lambda -> (forall n, real (alpha n) * real lambda <= / 2) ->
  forall n, exists x x', successive d (fun n => adam_optimize d (alpha n) b1 b2 eps lambda) g x0 n x x' /\
  within d (2 * B) r c x /\ within d (2 * B) r c x' /\ moved_decayed d (K * real (alpha n)) (real (alpha n) * real lambda) r c x x'.
Proof.
  intros Hl Hlam Hal n. destruct (conv_guard d eps HE) as (Fe & He).
  assert (Pal : forall n, 0 <= real (alpha n) * real lambda). { intros m. destruct (Ha m) as (_ & ?). destruct Hlam as (_ & ?). apply Rmult_le_pos; lra. }
  destruct (bounded_steps d (moments d) (fun s => match s with AdamState _ s => Some s | _ => None end) (AdamState d) (moments_fresh d)
    (fun n => adam_update d (alpha n) b1 b2 eps lambda) (fun s => eq_refl) g x0 r c (K * A) B (fun n => K * real (alpha n)) (fun n => real (alpha n) * real lambda + / 2 ^ 100) (moments_inv K r c)
    HKA HB Hka) with (n := n) as (x & x' & S & W & W' & M).
  - exact Hx.
  - apply moments_inv_0; [pose proof HK; lra|eapply within_shaped; exact Hx].
  - clear n. intros n s x HI Wx. destruct (adam_elems d (alpha n) b1 b2 eps lambda (g n) s x r c (proj1 HI) (within_shaped _ _ _ _ (Hg n)) (within_shaped _ _ _ _ Wx)) as (delta & s' & E & Ss' & Sd & H).
    exists delta, s'. split; [exact E|]. split; [|split; [exact Sd|]].
    + split; [exact Ss'|]. intros i j Hi Hj. destruct (H i j Hi Hj) as (E1 & E2 & _). rewrite E1, E2. now apply moments_next.
    + intros i j Hi Hj. destruct (H i j Hi Hj) as (_ & _ & E3). rewrite Hl in E3. rewrite E3. destruct (moments_next s n HI i j Hi Hj) as (Fv & _ & Hm & Q).
      destruct (quotient_ok K _ _ (cv eps) HK Fv Hm Q Fe He) as (Fq & Lq). destruct Wx as (_ & _ & _ & Wx). destruct (Wx i j Hi Hj) as (Fx & Lx).
      unfold at_. apply (decay_ok K A); auto; [apply HK|lra|]. destruct HB as ((_ & ?) & _). lra.
  - exists x, x'. split; [exact S|]. split; [exact W|]. split; [exact W'|]. apply moved_with_decay; [apply Hka|apply Pal|exact M].
Qed.
Lemma radam_bounded (root : nat -> val F64) : (forall n, guard (fmul eps (root n))) -> forall n, exists x x', successive d (fun n => radam_optimize d (alpha n) (root n) b1 b2 eps) g x0 n x x' /\
  within d (2 * B) r c x /\ within d (2 * B) r c x' /\ moved_at_most d (K * real (alpha n)) r c x x'.
Proof.
  intros HE n.
  destruct (bounded_steps d (moments d) (fun s => match s with RadamState _ s => Some s | _ => None end) (RadamState d) (moments_fresh d)
    (fun n => radam_update d (alpha n) (root n) b1 b2 eps) (fun s => eq_refl) g x0 r c (K * A) B (fun n => K * real (alpha n)) (fun _ => 0) (moments_inv K r c)
    HKA HB Hka) with (n := n) as (x & x' & S & W & W' & M).
  - exact Hx.
  - apply moments_inv_0; [pose proof HK; lra|eapply within_shaped; exact Hx].
  - clear n. intros n s x HI Wx. destruct (radam_elems d (alpha n) (root n) b1 b2 eps (g n) s x r c (proj1 HI) (within_shaped _ _ _ _ (Hg n))) as (delta & s' & E & Ss' & Sd & H).
    exists delta, s'. split; [exact E|]. split; [|split; [exact Sd|]].
    + split; [exact Ss'|]. intros i j Hi Hj. destruct (H i j Hi Hj) as (E1 & E2 & _). rewrite E1, E2. now apply moments_next.
    + intros i j Hi Hj. destruct (H i j Hi Hj) as (_ & _ & E3). rewrite E3. destruct (moments_next s n HI i j Hi Hj) as (Fv & _ & Hm & Q). destruct (conv_guard d _ (HE n)) as (Fe & He).
      destruct (quotient_ok K _ _ (cv (fmul eps (root n))) HK Fv Hm Q Fe He) as (Fq & Lq). apply (step_plain K A); auto; [apply HK|lra].
  - exists x, x'. split; [exact S|]. split; [exact W|]. split; [exact W'|]. apply moved_plain; [apply Hka|exact M].
Qed.
End Adam.
End Adaptive.
