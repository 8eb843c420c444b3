(** * Cross entropy in floating point: the sum of the exponentials *)
From Coq Require Import ZArith Bool Lia List Arith Reals Lra Psatz Permutation.
From Flocq Require Import Core BinarySingleNaN Relative.
From Verif Require Import DenseModel ArithModel AsmModel AsmCode AsmCalls AsmSpec FloatModel FloatSpec FloatProofs NumModel NumSpec NumLemmas NumProofs NumProofs2 AsmFloatSpec AsmFloat AsmFloat2 AsmWords AsmWordsSpec AsmExp AsmExp2 AsmExp4 AsmLog5 AsmLog6 AsmProofs7 SoftModel SoftSpec SoftProofs SoftFloat SoftFloat2 OptFloatNum NormFloatModel NormFloatNum LossFloatModel.
Import ListNotations.
Local Open Scope list_scope.
Local Open Scope R_scope.

(** the kernels and package math give e^0 = 1 *)
Lemma kernel_zero w : decode w = B754_zero false -> decode (exp_avx_w w) = fone.
Proof.
  intros E. assert (C : clamp_w w = w). { unfold clamp_w. cbn [bin words]. assert (X : flt (decode w) (decode hi_w) = true) by (rewrite E; vm_compute; reflexivity). rewrite X. assert (Y : flt (decode lo_w) (decode w) = true) by (rewrite E; vm_compute; reflexivity). rewrite Y. reflexivity. }
  unfold exp_avx_w. rewrite C. unfold poly_w, reduce_w, scaled_w. cbn [bin un fma words]. unfold arith. rewrite !E. apply B2SF_inj. vm_compute. reflexivity.
Qed.
Lemma cancel d (x : val d) : finite x -> fadd x (fneg x) = B754_zero false.
Proof.
  intros F. destruct (shifted_zero d x F) as (A & B). destruct x as [s|s| |s m e H]; try discriminate; [destruct s; reflexivity|].
  apply B2R_Bsign_inj; [exact A|reflexivity|exact B|]. unfold fadd. pose proof (@Bplus_correct (prec d) (emax d) (prec_pos d) (prec_emax d) mode_NE (B754_finite s m e H) (fneg (B754_finite s m e H)) eq_refl eq_refl) as C.
  assert (Z : B2R (B754_finite s m e H : val d) + B2R (fneg (B754_finite s m e H) : val d) = 0). { pose proof (neg_eq d (B754_finite s m e H)) as N. unfold real in N. rewrite N. lra. }
  rewrite Z, round_0 in C by apply valid_rnd_round_mode. rewrite Rabs_R0, Rlt_bool_true in C by apply bpow_gt_0. destruct C as (_ & _ & C). rewrite Rcompare_Eq in C by reflexivity. etransitivity; [exact C|]. destruct s; reflexivity.
Qed.
Lemma exp_of_zero g d c i n (e : val d) : go_math g -> SoftProofs.exp_value g d c i n (B754_zero false) e -> finite e /\ real e = 1.
Proof.
  intros G. unfold SoftProofs.exp_value. destruct d.
  - intros (w & Ew & ->). destruct (i <? whole (width c) n)%nat.
    + rewrite exp_lane, (kernel_zero w Ew). apply one_eq.
    + unfold scalar. rewrite decode_encode, Ew. pose proof (exp_elem_zero g G F32 (B754_zero false) eq_refl eq_refl) as X. pose proof (exp_elem_le g G F32 (B754_zero false) eq_refl ltac:(intros _; unfold real; cbn; lra) (or_intror eq_refl)) as (Y & _). split; [exact Y|exact X].
  - intros ->. assert (F : finite (Exp g (B754_zero false))) by (apply (exp_finite g G); [reflexivity|unfold real; cbn; lra]). split; [exact F|].
    apply Rle_antisym; [apply (exp_below_one g G); [reflexivity|unfold real; cbn; lra]|apply (exp_above_one g G); [reflexivity|exact F|unfold real; cbn; lra]].
Qed.

(** the element at ArgMax *)
Lemma arg_ok d (x : list (val d)) : Forall finite x -> x <> [] -> (arg d x < length x)%nat /\ finite (top d x) /\ In (top d x) x /\ forall y, In y x -> real y <= real (top d x).
Proof.
  intros F N. destruct (arg_max_finite d (mkDense (length x) 1 x)) as (i & E & L & Fi & M); cbn [data] in *; auto.
  { unfold is_vector. cbn. destruct (length x =? 1)%nat; reflexivity. }
  assert (Ei : i = arg d x). { unfold arg_max in E. cbn [is_vector] in E. destruct (negb _) in E; [discriminate|]. cbn [data] in E. destruct x as [|v x]; [contradiction|]. injection E as <-. reflexivity. }
  subst i. split; [exact L|]. split; [exact Fi|]. split; [now apply nth_In|exact M].
Qed.
Lemma sub_scalar_eq d (x : list (val d)) n : sub_scalar d x n = map (fun w => fadd w (fneg n)) x.
Proof. unfold sub_scalar. now rewrite conv_neg. Qed.

(** small constants *)
Lemma count_tau d n : INR n * u d <= / 8 -> INR n * tau d <= eta d / 8.
Proof.
  intros Ha. pose proof (u_pos d) as U. destruct (eta_tau d) as (Eh & Et & _). apply Rle_trans with (/ 8 * / u d * tau d).
  { apply Rmult_le_compat_r; [lra|]. apply Rmult_le_reg_r with (u d); [exact U|]. replace (/ 8 * / u d * u d) with (/ 8) by (field; lra). exact Ha. }
  assert (Q : / u d * tau d <= eta d); [|lra]. unfold u, tau, eta. rewrite Rinv_inv. destruct d.
  - change 125%nat with (24 + (17 + 84))%nat. rewrite (inv_split 24), <- Rmult_assoc, Rinv_r, Rmult_1_l by (apply pow_nonzero; lra). apply inv_le. lia.
  - change 1021%nat with (53 + 968)%nat. rewrite (inv_split 53), <- Rmult_assoc, Rinv_r, Rmult_1_l by (apply pow_nonzero; lra). apply inv_le. lia.
Qed.
Lemma u_eta d : u d <= eta d / 128.
Proof. unfold u, eta, Rdiv. replace (/ 128) with (/ 2 ^ 7) by (cbn; lra). destruct d; rewrite <- inv_split; apply inv_le; lia. Qed.
Lemma tiny_tau d : half_tiny d <= tau d / 2.
Proof. unfold half_tiny, tau, Rdiv. replace (/ 2) with (/ 2 ^ 1) by (cbn; lra). destruct d; rewrite <- inv_split; apply inv_le; lia. Qed.
Lemma soft_rel_eq d n : soft_rel d n = 4 * eta d + 2 * (INR n * u d).
Proof.
  unfold soft_rel. f_equal. unfold eta. replace 4 with (2 ^ 2) by (cbn; lra). destruct d; [change 17%nat with (2 + 15)%nat|change 42%nat with (2 + 40)%nat]; rewrite inv_split, <- Rmult_assoc, Rinv_r, Rmult_1_l by (apply pow_nonzero; lra); reflexivity.
Qed.
Lemma soft_abs_eq d : soft_abs d = 2 * tau d.
Proof.
  assert (K : forall k, / 2 ^ k = 2 * / 2 ^ (1 + k)) by (intros k; rewrite inv_split; set (a := / 2 ^ k); cbn [pow]; lra).
  unfold soft_abs, tau. destruct d; [apply (K 124%nat)|apply (K 1020%nat)].
Qed.
Lemma size_cap d n : INR n * u d <= / 8 -> 16 / 7 * INR n <= cap d.
Proof.
  intros H. pose proof (u_pos d) as U. apply Rmult_le_reg_r with (u d); [exact U|]. assert (C : cap d * u d = 1). { unfold cap. rewrite u_eq. destruct d.
    - change (prec F32) with 24%Z. change (bpow radix2 (-(24) + 1)) with (bpow radix2 (1 - 24)). replace (bpow radix2 24) with (2 * bpow radix2 23) by (change 2 with (bpow radix2 1); rewrite <- bpow_plus; reflexivity).
      change (1 - 24)%Z with (- (23))%Z. rewrite bpow_opp. pose proof (bpow_gt_0 radix2 23). field. lra.
    - change (prec F64) with 53%Z. replace (bpow radix2 53) with (2 * bpow radix2 52) by (change 2 with (bpow radix2 1); rewrite <- bpow_plus; reflexivity).
      change (- (53) + 1)%Z with (- (52))%Z. rewrite bpow_opp. pose proof (bpow_gt_0 radix2 52). field. lra. }
  lra.
Qed.

Section Sums.
Variable g : libm.
Hypothesis G : go_math g.
Variable d : dtype.
Variable c : cpu.
Variable sum : nat -> list (val d) -> val d.
Variable vexp : list (val d) -> list (val d).
Hypothesis Hsum : forall k l, sum_of (floats d) (sum k l) l.
Hypothesis Hexp : forall l, exps g d c l (vexp l).
Variable x : list (val d).
Hypothesis F : Forall finite x.
Hypothesis N : x <> [].
Notation n := (INR (length x)).
Hypothesis Hn : n * u d <= / 8.
Notation mx := (top d x).
Notation es := (powers d vexp x).
Notation E v := (exp (real v - real mx)).

Lemma powers_exps : exps g d c (map (fun w => fadd w (fneg mx)) x) es.
Proof. unfold powers. rewrite sub_scalar_eq. apply Hexp. Qed.
Lemma powers_near : length es = length x /\ Forall2 (fun v e => finite e /\ 0 <= real e /\ Rabs (real e - E v) <= eta d * E v + tau d) x es.
Proof. destruct (arg_ok d x F N) as (_ & Fm & _ & M). apply (exps_near g G d c mx x es Fm F M powers_exps). Qed.
Lemma powers_range : Forall (fun e => finite e /\ 0 <= real e <= 2) es.
Proof.
  destruct (arg_ok d x F N) as (_ & Fm & _ & M). destruct powers_near as (_ & Ne). destruct (eta_tau d) as (Eh & Et & Et').
  assert (M' : forall v, In v x -> real v - real mx <= 0) by (intros v Hv; specialize (M v Hv); lra). revert Ne M'. generalize es. generalize mx. generalize x. clear - Eh Et Et'.
  intros l mx es Ne M. induction Ne as [|v e l' es (A & B & C) Ne IH]; constructor; [|apply IH; intros; apply M; now right].
  split; [exact A|]. split; [exact B|]. pose proof (exp_le_1 _ (M v (or_introl eq_refl))) as X. apply Rabs_le_inv in C. pose proof (exp_pos (real v - real mx)). assert (eta d * exp (real v - real mx) <= / 1000 * 1) by (apply Rmult_le_compat; lra). lra.
Qed.
Lemma powers_one : exists e, nth_error es (arg d x) = Some e /\ real e = 1.
Proof.
  destruct (arg_ok d x F N) as (L & Fm & _ & _). destruct powers_exps as (Le & He). rewrite map_length in *. assert (Q : nth_error x (arg d x) = Some mx) by (apply nth_error_nth'; exact L).
  destruct (nth_error es (arg d x)) as [e|] eqn:Ee; [|apply nth_error_None in Ee; rewrite Le in Ee; lia]. exists e. split; [reflexivity|].
  specialize (He (arg d x) (fadd mx (fneg mx)) e). rewrite nth_error_map, Q in He. specialize (He eq_refl Ee). rewrite cancel in He by exact Fm. apply (exp_of_zero g d c _ _ e G He).
Qed.
Lemma powers_nonneg : Forall (fun e => 0 <= real e) es.
Proof. eapply Forall_impl; [|apply powers_range]. cbv beta. intros ? (? & ? & ?). assumption. Qed.
Lemma powers_finite : Forall finite es.
Proof. eapply Forall_impl; [|apply powers_range]. cbv beta. tauto. Qed.

(** any sum of the exponentials: finite, at least 1, near the exact sum of the computed ones *)
Lemma sums k : let s := sum k es in finite s /\ 1 <= real s <= cap d /\ Rabs (real s - total es) <= gamma d (length x - 1) * total es.
Proof.
  intros s. destruct powers_near as (Le & _). pose proof powers_range as B2. pose proof powers_nonneg as Pe. pose proof powers_finite as Fe.
  assert (T2 : total es <= 2 * n). { rewrite <- Le. apply total_count. eapply Forall_impl; [|exact B2]. cbv beta; tauto. }
  pose proof (gamma_small d (length x) Hn) as Gs. pose proof (gamma_pos d (length x)) as Gp. pose proof (pos_INR (length x)) as Pn.
  assert (T0 : 0 <= total es) by (rewrite <- total_abs_nonneg by exact Pe; apply total_abs_pos).
  assert (Sz : (1 + gamma d (length es)) * total_abs es <= cap d).
  { rewrite total_abs_nonneg, Le by exact Pe. eapply Rle_trans; [|apply (size_cap d (length x) Hn)]. replace (16 / 7 * n) with ((1 + / 7) * (2 * n)) by lra. apply Rmult_le_compat; lra. }
  assert (Fs : finite s).
  { apply (sum_finite d s es (Hsum k es) Fe). eapply Rle_trans; [exact Sz|]. unfold cap, AsmFloatSpec.largest. destruct d.
    - change (prec F32) with (Z.of_nat 24). rewrite <- pow2. apply Rle_trans with (1 * 2 ^ 104); [rewrite Rmult_1_l; apply Rle_pow; [lra|lia]|]. apply Rmult_le_compat_r; [apply pow_le; lra|]. cbn. lra.
    - change (prec F64) with (Z.of_nat 53). rewrite <- pow2. apply Rle_trans with (1 * 2 ^ 971); [rewrite Rmult_1_l; apply Rle_pow; [lra|lia]|]. apply Rmult_le_compat_r; [apply pow_le; lra|]. cbn. lra. }
  split; [exact Fs|]. destruct (sum_above d s es (Hsum k es) Fs Pe) as (Ps & As). pose proof (sum_size d s es (Hsum k es) Fs) as Ss. rewrite Rabs_right in Ss by lra.
  destruct powers_one as (e & Ie & Ve). apply nth_error_In in Ie. rewrite Forall_forall in As. specialize (As e Ie). rewrite Ve in As. split; [split; [exact As|eapply Rle_trans; [exact Ss|exact Sz]]|].
  destruct (sum_error d s es (Hsum k es) Fs) as (_ & Er). rewrite total_abs_nonneg in Er by exact Pe. rewrite <- Le. exact Er.
Qed.
Lemma exact_ge : 1 <= exact mx x.
Proof. destruct (arg_ok d x F N) as (_ & _ & I & _). pose proof (exact_in d mx mx x I) as X. now rewrite Rminus_eq_0, exp_0 in X. Qed.
Lemma total_ok : Rabs (total es - exact mx x) <= 9 / 8 * eta d * exact mx x.
Proof.
  destruct powers_near as (Le & Ne). pose proof (total_near d mx (eta d) (tau d) x es) as Tn. specialize (Tn ltac:(eapply Forall2_weaken; [|exact Ne]; cbv beta; tauto)).
  pose proof (count_tau d (length x) Hn) as Ct. pose proof exact_ge as Ge. destruct (eta_tau d) as (Eh & Et & _). eapply Rle_trans; [exact Tn|]. assert (eta d / 8 * 1 <= eta d / 8 * exact mx x) by (apply Rmult_le_compat_l; lra). lra.
Qed.
(** relatively *)
Definition sum_rel : R := 9 / 7 * eta d + 8 / 7 * (n * u d).
Lemma gamma_ok : 0 <= gamma d (length x - 1) <= 8 / 7 * (n * u d) /\ gamma d (length x - 1) <= / 7.
Proof.
  pose proof (gamma_pos d (length x - 1)) as G0. pose proof (gamma_le d (length x - 1) (length x) ltac:(lia)) as G1. pose proof (gamma_small d (length x) Hn) as G2. lra.
Qed.
Lemma sum_near_exact k : Rabs (real (sum k es) - exact mx x) <= sum_rel * exact mx x /\ sum_rel <= 0.15.
Proof.
  destruct (sums k) as (_ & _ & Er). pose proof total_ok as T. destruct gamma_ok as ((G0 & G1) & G2). pose proof exact_ge as Ge. destruct (eta_tau d) as (Eh & _). unfold sum_rel. split; [|lra].
  pose proof (Rabs_triang (real (sum k es) - total es) (total es - exact mx x)) as Tr. replace (real (sum k es) - total es + (total es - exact mx x)) with (real (sum k es) - exact mx x) in Tr by ring.
  set (S := exact mx x) in *. apply Rabs_le_inv in T. assert (A : gamma d (length x - 1) * total es <= gamma d (length x - 1) * ((1 + 9 / 8 * eta d) * S)) by (apply Rmult_le_compat_l; lra).
  assert (T' : Rabs (total es - S) <= 9 / 8 * eta d * S) by (apply Rabs_le; lra).
  assert (B : gamma d (length x - 1) * ((1 + 9 / 8 * eta d) * S) + 9 / 8 * eta d * S <= (9 / 7 * eta d + 8 / 7 * (n * u d)) * S).
  { replace (gamma d (length x - 1) * ((1 + 9 / 8 * eta d) * S) + 9 / 8 * eta d * S) with ((gamma d (length x - 1) + 9 / 8 * eta d * (1 + gamma d (length x - 1))) * S) by ring. apply Rmult_le_compat_r; [lra|].
    assert (9 / 8 * eta d * (1 + gamma d (length x - 1)) <= 9 / 8 * eta d * (8 / 7)) by (apply Rmult_le_compat_l; lra). lra. }
  lra.
Qed.
End Sums.
