(** * Cross entropy in floating point: the loss *)
From Coq Require Import ZArith Bool Lia List Arith Reals Lra Psatz Permutation.
From Flocq Require Import Core BinarySingleNaN Relative.
From Verif Require Import DenseModel ArithModel AsmModel AsmCode AsmCalls AsmSpec FloatModel FloatSpec FloatProofs NumModel NumSpec NumLemmas NumProofs NumProofs2 NumProofs4 AsmFloatSpec AsmFloat AsmFloat2 SoftModel SoftSpec SoftProofs SoftFloat SoftFloat2 OptFloatNum NormFloatModel NormFloatNum NormFloatBack LossFloatModel LossFloatSpec LossFloatProofs.
Import ListNotations.
Local Open Scope list_scope.
Local Open Scope R_scope.

Lemma ln_le_minus y : 0 < y -> ln y <= y - 1.
Proof. intros H. pose proof (exp_ineq1_le (ln y)) as X. rewrite exp_ln in X by exact H. lra. Qed.
Lemma ln_div a b : 0 < a -> 0 < b -> ln (a / b) = ln a - ln b.
Proof. intros A B. unfold Rdiv. rewrite ln_mult, ln_Rinv by (auto; now apply Rinv_0_lt_compat). reflexivity. Qed.
Lemma ln_near s S0 e : 1 <= S0 -> 0 < s -> Rabs (s - S0) <= e * S0 -> 0 <= e <= 0.15 -> Rabs (ln s - ln S0) <= 1.2 * e.
Proof.
  intros H1 H2 H E. apply Rabs_le_inv in H. apply Rabs_le. assert (I : 0 < / S0) by (apply Rinv_0_lt_compat; lra). assert (J : 0 < / s) by (apply Rinv_0_lt_compat; lra). split.
  - assert (X : ln S0 - ln s <= S0 / s - 1). { rewrite <- ln_div by lra. apply ln_le_minus. unfold Rdiv. apply Rmult_lt_0_compat; lra. }
    assert (Y : S0 / s <= / (1 - e)). { unfold Rdiv. apply Rmult_le_reg_r with (s * (1 - e)); [apply Rmult_lt_0_compat; lra|]. replace (S0 * / s * (s * (1 - e))) with (S0 * (1 - e)) by (field; lra). replace (/ (1 - e) * (s * (1 - e))) with s by (field; lra). lra. }
    assert (Z : / (1 - e) <= 1 + 1.2 * e). { apply Rmult_le_reg_r with (1 - e); [lra|]. rewrite Rinv_l by lra. nra. } lra.
  - assert (X : ln s - ln S0 <= s / S0 - 1). { rewrite <- ln_div by lra. apply ln_le_minus. unfold Rdiv. apply Rmult_lt_0_compat; lra. }
    assert (Y : s / S0 <= 1 + e). { unfold Rdiv. apply Rmult_le_reg_r with S0; [lra|]. rewrite Rmult_assoc, Rinv_l by lra. lra. } lra.
Qed.
Lemma add_nonneg d (a b : val d) : finite a -> finite b -> 0 <= real a + real b -> fadd a b = NumSpec.infinity \/ finite (fadd a b) /\ 0 <= real (fadd a b).
Proof.
  intros Fa Fb P. pose proof (@Bplus_correct (prec d) (emax d) (prec_pos d) (prec_emax d) mode_NE a b Fa Fb) as C. fold (fadd a b) in C.
  rewrite <- nearest_eq, <- limit_eq in C. destruct (Rlt_bool_spec (Rabs (nearest d (B2R a + B2R b))) (limit d)) as [L|L].
  - destruct C as (V & Fc & _). right. split; [exact Fc|]. unfold real. rewrite V. apply nearest_pos. exact P.
  - destruct C as (O & Sg). left. apply over_nan in O. rewrite O. destruct (Bsign a) eqn:Sa; [|reflexivity]. exfalso.
    pose proof (sign_nonpos d a Fa Sa). pose proof (sign_nonpos d b Fb (eq_sym Sg)). assert (Z : B2R a + B2R b = 0) by (unfold real in *; lra). rewrite Z, nearest_0, Rabs_R0, limit_eq in L. pose proof (bpow_gt_0 radix2 (emax d)). lra.
Qed.
Lemma log_budget d : 53.2 * u d + 54 * / 2 ^ 50 <= eta d / 2.
Proof. unfold u, eta. destruct d; cbn [pow]; lra. Qed.

Section Value.
Variable g : libm.
Hypothesis G : go_math g.
Variable d : dtype.
Lemma log_near (s : val d) : finite s -> 1 <= real s <= cap d -> let L := log_elem g d s in finite L /\ 0 <= real L <= 64 /\ Rabs (real L - ln (real s)) <= eta d / 2.
Proof.
  intros Fs B L. destruct (log_elem_in g G d s Fs B) as (FL & BL). fold L in FL, BL. split; [exact FL|]. split; [exact BL|].
  destruct (conv_up d s Fs) as (F1 & V1). pose proof (ln_cap d _ B) as Lc. pose proof (log_value g G (conv d F64 s) F1 ltac:(lra)) as A. rewrite V1, (Rabs_right (ln (real s))) in A by lra.
  assert (F2 : finite (Log g (conv d F64 s))) by (apply (log_finite g G); auto; lra).
  assert (T50 : / 2 ^ 1074 <= / 2 ^ 50) by (apply inv_le; lia). pose proof (inv_pos 50) as P50. assert (S50 : / 2 ^ 50 <= / 1000) by (apply inv_small; lia).
  assert (A' : Rabs (real (Log g (conv d F64 s)) - ln (real s)) <= 54 * / 2 ^ 50). { eapply Rle_trans; [exact A|]. unfold Rdiv. assert (ln (real s) * / 2 ^ 50 <= 53 * / 2 ^ 50) by (apply Rmult_le_compat_r; lra). lra. }
  apply Rabs_le_inv in A'. destruct (@conv_op d (Log g (conv d F64 s)) 64 F2 (rep_int d 64 ltac:(cbn; lia))) as (_ & _ & Nr); [apply Rabs_le; lra|]. unfold near_to in Nr. fold (log_elem g d s) in Nr. fold L in Nr.
  pose proof (log_budget d) as Lb. pose proof (u_pos d) as U. pose proof (tiny_small d) as (Ht & Ht'). assert (Htu : half_tiny d <= 0.05 * u d). { unfold half_tiny, u. assert (K : forall k, / 2 ^ (6 + k) <= 0.05 * / 2 ^ k) by (intros k; rewrite inv_split; pose proof (inv_pos k); set (a := / 2 ^ k) in *; cbn [pow]; lra). destruct d; (eapply Rle_trans; [apply inv_le|apply K]); lia. }
  assert (X : Rabs (real (Log g (conv d F64 s))) <= 53.1) by (apply Rabs_le; lra). assert (u d * Rabs (real (Log g (conv d F64 s))) <= u d * 53.1) by (apply Rmult_le_compat_l; lra).
  apply Rabs_le_inv in Nr. apply Rabs_le. lra.
Qed.
Lemma ce_real U n h B S0 s L p v m0 xc : 0 < U <= h / 128 -> 0 <= h <= / 1000 -> 0 <= n * U <= / 8 -> 0 <= B -> 1 <= S0 -> 1 <= s -> Rabs (s - S0) <= (9 / 7 * h + 8 / 7 * (n * U)) * S0 -> 9 / 7 * h + 8 / 7 * (n * U) <= 0.15 ->
  0 <= L <= 64 -> Rabs (L - ln s) <= h / 2 -> Rabs m0 <= B -> Rabs xc <= B -> Rabs (p - (m0 + L)) <= U * Rabs (m0 + L) -> Rabs (v - (- xc + p)) <= U * Rabs (- xc + p) ->
  Rabs (v - (m0 + ln S0 - xc)) <= 4 * h + 2 * (n * U) + 8 * (U * B).
Proof.
  intros HU Hh Hn HB HS Hs E1 E2 HL E3 Hm Hx E4 E5. pose proof (ln_near s S0 _ HS ltac:(lra) E1 ltac:(lra)) as E6. apply Rabs_le_inv in Hm, Hx, E3, E6.
  assert (M : Rabs (m0 + L) <= B + 64) by (apply Rabs_le; lra). assert (UM : U * Rabs (m0 + L) <= U * B + 64 * U) by nra. apply Rabs_le_inv in E4.
  assert (U2 : 0 <= U * B) by (apply Rmult_le_pos; lra). assert (U3 : U * (U * B) <= / 1000 * (U * B)) by (apply Rmult_le_compat_r; lra).
  assert (P : Rabs (- xc + p) <= 2 * B + 64 + (U * B + 64 * U)) by (apply Rabs_le; lra). assert (UP : U * Rabs (- xc + p) <= 2 * (U * B) + 64 * U + (U * (U * B) + 64 * (U * U))) by nra.
  assert (UU : U * U <= / 1000 * U) by (apply Rmult_le_compat_r; lra). apply Rabs_le_inv in E5. apply Rabs_le. lra.
Qed.
End Value.

Lemma safe_ok d B : B <= safe d -> rep d (4 * safe d) /\ B + 64 <= 4 * safe d /\ 2 * B + 64 + u d * (B + 64) <= 4 * safe d.
Proof.
  intros HB. pose proof (u_small d) as (U1 & U2). assert (Us : / 2 ^ 24 <= / 1000) by (apply inv_small; lia). assert (S64 : 2 ^ 10 <= safe d) by (unfold safe; destruct d; apply Rle_pow; lra || lia).
  assert (S1024 : 1024 <= safe d) by (eapply Rle_trans; [|exact S64]; cbn; lra). split.
  - replace (4 * safe d) with (2 ^ match d with F32 => 122 | F64 => 1002 end); [apply rep_big; destruct d; cbn; lia|]. replace 4 with (2 ^ 2) by (cbn; lra). unfold safe. destruct d; rewrite <- pow_add; reflexivity.
  - split; [lra|]. destruct (Rle_or_lt 0 (B + 64)) as [P|P].
    + assert (u d * (B + 64) <= / 1000 * (B + 64)) by (apply Rmult_le_compat_r; lra). lra.
    + assert (u d * (B + 64) <= 0) by (rewrite <- (Rmult_0_r (u d)); apply Rmult_le_compat_l; lra). lra.
Qed.
Section Loss.
Variable g : libm.
Hypothesis G : go_math g.
Variable d : dtype.
Variable c : cpu.
Variable sum : nat -> list (val d) -> val d.
Variable vexp : list (val d) -> list (val d).
Hypothesis Hsum : forall k l, sum_of (floats d) (sum k l) l.
Hypothesis Hexp : forall l, exps g d c l (vexp l).
Variable x : list (val d).
Hypothesis F : Forall finite x.
Variable k : nat.
Hypothesis K : (k < length x)%nat.
Notation n := (INR (length x)).
Hypothesis Hn : n * u d <= / 8.
Notation mx := (top d x).
Notation xc := (nth k x fzero).
Notation ce := (cross_entropy g d sum vexp x k).
Lemma not_empty : x <> []. Proof. intros E. rewrite E in K. cbn in K. lia. Qed.
Lemma class_finite : finite xc /\ real xc <= real mx.
Proof.
  pose proof (nth_In x fzero K) as I. destruct (arg_ok d x F not_empty) as (_ & _ & _ & M). split; [rewrite Forall_forall in F; now apply F|now apply M].
Qed.
Lemma lse_ok : let s := partition d sum vexp x in let L := log_elem g d s in finite s /\ 1 <= real s <= cap d /\ finite L /\ 0 <= real L <= 64 /\ Rabs (real L - ln (real s)) <= eta d / 2 /\
  finite (lse g d sum vexp x) /\ real mx <= real (lse g d sum vexp x).
Proof.
  intros s L. destruct (sums g G d c sum vexp Hsum Hexp x F not_empty Hn 0) as (Fs & Bs & _). fold (partition d sum vexp x) in Fs, Bs. fold s in Fs, Bs.
  destruct (log_near g G d s Fs Bs) as (FL & BL & EL). destruct (arg_ok d x F not_empty) as (_ & Fm & _). destruct (add_small d mx L Fm FL BL) as (A & B & _). auto 10.
Qed.
Lemma ce_sign : ce = NumSpec.infinity \/ finite ce /\ 0 <= real ce.
Proof.
  destruct lse_ok as (_ & _ & _ & _ & _ & Fl & Ml). destruct class_finite as (Fx & Mx). unfold cross_entropy, neg_op. rewrite conv_neg. apply add_nonneg; [now apply neg_finite|exact Fl|]. rewrite neg_eq. lra.
Qed.
Lemma softmax_pos v : In v x -> softmax_of x v = exp (real v - real mx) / exact mx x.
Proof.
  intros I. unfold softmax_of. rewrite (exact_shift d mx x). pose proof (exact_ge d x F not_empty) as X. replace (real v) with (real mx + (real v - real mx)) at 1 by ring. rewrite exp_plus. pose proof (exp_pos (real mx)). field. split; lra.
Qed.
Lemma ce_exact : cross_entropy_of x k = real mx + ln (exact mx x) - real xc.
Proof.
  unfold cross_entropy_of. rewrite softmax_pos by (now apply nth_In). pose proof (exact_ge d x F not_empty) as X. rewrite ln_div by (try apply exp_pos; lra). rewrite ln_exp. ring.
Qed.
Lemma ce_value B : (forall v, In v x -> Rabs (real v) <= B) -> B <= safe d -> finite ce /\ Rabs (real ce - cross_entropy_of x k) <= soft_rel d (length x) + 8 * (u d * B).
Proof.
  intros HB HS. destruct lse_ok as (Fs & Bs & FL & BL & EL & Fl & Ml). destruct class_finite as (Fx & Mx). destruct (arg_ok d x F not_empty) as (_ & Fm & Im & _). pose proof (HB mx Im) as Bm. pose proof (HB xc ltac:(now apply nth_In)) as Bx.
  destruct (safe_ok d B HS) as (R4 & C1 & C2). pose proof (u_small d) as (U1 & _). set (s := partition d sum vexp x) in *. set (L := log_elem g d s) in *.
  assert (M : Rabs (real mx + real L) <= B + 64) by (eapply Rle_trans; [apply Rabs_triang|]; rewrite (Rabs_right (real L)) by lra; lra).
  destruct (@add_op d mx L (4 * safe d) Fm FL R4 ltac:(lra)) as (_ & _ & E4). change (fadd mx L) with (lse g d sum vexp x) in E4. set (p := lse g d sum vexp x) in *.
  assert (P : Rabs (real (fneg xc) + real p) <= 4 * safe d).
  { rewrite neg_eq. assert (u d * Rabs (real mx + real L) <= u d * (B + 64)) by (apply Rmult_le_compat_l; lra). pose proof (Rabs_triang (- real xc) (real p)) as T1. rewrite Rabs_Ropp in T1.
    pose proof (Rabs_triang (real p - (real mx + real L)) (real mx + real L)) as T2. replace (real p - (real mx + real L) + (real mx + real L)) with (real p) in T2 by ring. lra. }
  destruct (@add_op d (fneg xc) p (4 * safe d) (neg_finite d xc Fx) Fl R4 P) as (Fc & _ & E5). assert (Ec : ce = fadd (fneg xc) p) by (unfold cross_entropy, neg_op; now rewrite conv_neg). rewrite Ec. split; [exact Fc|].
  rewrite neg_eq in E5. rewrite ce_exact, soft_rel_eq. destruct (eta_tau d) as (Eh & _). pose proof (u_eta d) as Ue. pose proof (pos_INR (length x)) as Pn. destruct (sum_near_exact g G d c sum vexp Hsum Hexp x F not_empty Hn 0) as (En & Er). fold s in En.
  apply (ce_real (u d) n (eta d) B (exact mx x) (real s) (real L) (real p) (real (fadd (fneg xc) p)) (real mx) (real xc)); auto; try lra.
  - split; [apply Rmult_le_pos; lra|exact Hn].
  - eapply Rle_trans; [apply Rabs_pos|exact Bm].
  - exact (exact_ge d x F not_empty).
Qed.
End Loss.
