(** * Relative errors *)
From Coq Require Import ZArith Bool Lia List Arith Reals Lra Psatz.
From Flocq Require Import Core BinarySingleNaN.
From Verif Require Import FloatModel FloatSpec NumModel NumSpec NumLemmas AsmFloatSpec AsmFloat AsmModel AsmCalls AsmSpec OptFloatModel OptFloatNum NormFloatModel.
Import ListNotations.
Local Open Scope R_scope.

Definition rel (e v r : R) : Prop := Rabs (v - r) <= e * Rabs r.
Lemma rel_le e e' v r : rel e v r -> e <= e' -> rel e' v r.
Proof. unfold rel. intros H L. eapply Rle_trans; [exact H|]. apply Rmult_le_compat_r; [apply Rabs_pos|exact L]. Qed.
Lemma rel_abs e v r : rel e v r -> Rabs v <= (1 + e) * Rabs r.
Proof. unfold rel. intros H. pose proof (Rabs_triang (v - r) r) as T. replace (v - r + r) with v in T by ring. lra. Qed.
Lemma rel_trans e1 e2 v w r : 0 <= e1 -> rel e1 v w -> rel e2 w r -> rel (e1 + e2 + e1 * e2) v r.
Proof.
  unfold rel. intros P H1 H2. pose proof (rel_abs _ _ _ H2) as A. pose proof (Rabs_triang (v - w) (w - r)) as T. replace (v - w + (w - r)) with (v - r) in T by ring.
  assert (e1 * Rabs w <= e1 * ((1 + e2) * Rabs r)) by (apply Rmult_le_compat_l; auto). lra.
Qed.
Lemma rel_mul e1 e2 v1 r1 v2 r2 : 0 <= e1 -> rel e1 v1 r1 -> rel e2 v2 r2 -> rel (e1 + e2 + e1 * e2) (v1 * v2) (r1 * r2).
Proof.
  unfold rel. intros P H1 H2. pose proof (rel_abs _ _ _ H2) as A. replace (v1 * v2 - r1 * r2) with ((v1 - r1) * v2 + r1 * (v2 - r2)) by ring.
  eapply Rle_trans; [apply Rabs_triang|]. rewrite !Rabs_mult.
  assert (X1 : Rabs (v1 - r1) * Rabs v2 <= e1 * Rabs r1 * ((1 + e2) * Rabs r2)) by (apply Rmult_le_compat; auto; apply Rabs_pos).
  assert (X2 : Rabs r1 * Rabs (v2 - r2) <= Rabs r1 * (e2 * Rabs r2)) by (apply Rmult_le_compat_l; auto; apply Rabs_pos). lra.
Qed.
Lemma rel_inv e v r : 0 <= e <= / 4 -> r <> 0 -> rel e v r -> v <> 0 /\ rel (e + 2 * e * e) (/ v) (/ r).
Proof.
  unfold rel. intros E R0 H. pose proof (Rabs_pos_lt r R0) as Pr. assert (Vl : (1 - e) * Rabs r <= Rabs v).
  { pose proof (Rabs_triang (r - v) v) as T. replace (r - v + v) with r in T by ring. rewrite Rabs_minus_sym in T. lra. }
  assert (Pv : 0 < Rabs v) by nra. assert (V0 : v <> 0) by (intros ->; rewrite Rabs_R0 in Pv; lra). split; [exact V0|].
  replace (/ v - / r) with ((r - v) * / (v * r)) by (field; auto). rewrite Rabs_mult, Rabs_inv, Rabs_mult, Rabs_minus_sym, Rabs_inv.
  set (a := Rabs v) in *. set (b := Rabs r) in *. set (c := Rabs (v - r)) in *. clearbody a b c.
  rewrite Rinv_mult, <- Rmult_assoc. apply Rmult_le_compat_r; [left; now apply Rinv_0_lt_compat|].
  apply (Rmult_le_reg_r a); [exact Pv|]. rewrite Rmult_assoc, Rinv_l, Rmult_1_r by lra.
  assert ((e + 2 * e * e) * ((1 - e) * b) <= (e + 2 * e * e) * a) by (apply Rmult_le_compat_l; nra).
  assert (e * b <= (e + 2 * e * e) * ((1 - e) * b)) by (rewrite <- Rmult_assoc; apply Rmult_le_compat_r; nra). lra.
Qed.
(** rounding to a number that is not too small *)
Lemma near_rel d v r : near_to d v r -> half_tiny d <= u d * Rabs r -> rel (2 * u d) v r.
Proof. unfold near_to, rel. intros H1 H2. lra. Qed.
Lemma u64_le d : u F64 <= u d.
Proof. destruct d; [|lra]. unfold u. apply Rinv_le_contravar; [apply pow_lt; lra|apply Rle_pow; [lra|lia]]. Qed.
Lemma tiny64_le d : half_tiny F64 <= half_tiny d.
Proof. destruct d; [|lra]. unfold half_tiny. apply Rinv_le_contravar; [apply pow_lt; lra|apply Rle_pow; [lra|lia]]. Qed.
Lemma near_64 d v r : near_to F64 v r -> near_to d v r.
Proof. unfold near_to. intros H. pose proof (u64_le d). pose proof (tiny64_le d). pose proof (Rabs_pos r). nra. Qed.

(** (1 + u)^n - 1 *)
Lemma gamma_bound d n : INR n * u d <= 1 -> gamma d n <= INR n * u d + (INR n * u d) * (INR n * u d).
Proof.
  unfold gamma. pose proof (u_pos d) as Pu. set (a := u d) in *. clearbody a. induction n as [|n IH]; intros H; [cbn; lra|]. rewrite S_INR in *.
  pose proof (pos_INR n) as Pn. assert (Hn : INR n * a <= 1) by nra. specialize (IH Hn). cbn [pow]. set (k := INR n) in *. clearbody k.
  assert ((1 + a) ^ n <= 1 + k * a + k * a * (k * a)) by lra. set (q := (1 + a) ^ n) in *. clearbody q.
  assert ((1 + a) * q <= (1 + a) * (1 + k * a + k * a * (k * a))) by (apply Rmult_le_compat_l; lra). nra.
Qed.
(** a sum of numbers that are not negative is at least each of them *)
Lemma sum_dominates d (v : val d) l : sum_of (floats d) v l -> finite v -> Forall (fun x => 0 <= real x) l -> 0 <= real v /\ Forall (fun x => real x <= real v) l.
Proof.
  induction 1 as [|x|a b l k mm Ha IHa Hb IHb P]; intros F N.
  - split; [cbn; lra|constructor].
  - inversion N; subst. split; [assumption|]. constructor; [lra|constructor].
  - change (bin (floats d) Add a b) with (fadd a b) in *. destruct (add_back d a b F) as (Fa & Fb & E).
    assert (N' : Forall (fun x => 0 <= real x) (l ++ k)) by (eapply Permutation.Permutation_Forall; [apply Permutation.Permutation_sym; exact P|exact N]).
    apply Forall_app in N' as (Nl & Nk). destruct (IHa Fa Nl) as (Pa & La). destruct (IHb Fb Nk) as (Pb & Lb).
    assert (Ra : real a <= real (fadd a b)). { rewrite E. rewrite <- (proj1 (rep_real d a Fa)) at 1. apply nearest_le. lra. }
    assert (Rb : real b <= real (fadd a b)). { rewrite E. rewrite <- (proj1 (rep_real d b Fb)) at 1. apply nearest_le. lra. }
    split; [lra|]. eapply Permutation.Permutation_Forall; [exact P|]. apply Forall_app. split; [eapply Forall_impl; [|exact La]|eapply Forall_impl; [|exact Lb]]; cbn; intros; lra.
Qed.
