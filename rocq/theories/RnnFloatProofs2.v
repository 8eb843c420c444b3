(** * Recurrent networks in floating point: the states *)
From Coq Require Import ZArith Bool Lia List Arith Reals Lra.
From Flocq Require Import Core BinarySingleNaN.
From Verif Require Import AsmModel AsmCalls AsmSpec FloatModel FloatSpec FloatProofs NumModel NumSpec NumLemmas NumProofs AsmFloatSpec AsmFloat AsmFloat2 SoftSpec SoftFloat SoftFloat2 SoftFloat3 OptFloatNum OptFloatNum3 NormFloatModel NormFloatBack NormFloatBack5 LossFloatModel LossFloatSpec LossFloatProofs2 LossFloatProofs4 LossFloatProofs6 LossFloatProofs9 LossFloatProofs10 RnnFloatModel RnnFloatSpec RnnFloatProofs.
Import ListNotations.
Local Open Scope list_scope.
Local Open Scope R_scope.

(** ** Numbers *)
Section Elem.
Variable d : dtype.
Lemma u_bpow : u d = bpow radix2 (- prec d).
Proof. rewrite u_eq, bpow_plus. change (bpow radix2 1) with 2. field. Qed.
Lemma one_saturates : nearest d (1 + u d) = 1.
Proof.
  assert (A : finite (lit 1 (- prec d) : val d) /\ real (lit 1 (- prec d) : val d) = u d) by (apply lit_eq; [rewrite u_bpow; now rewrite Rmult_1_l|destruct d; cbn; lia..]).
  destruct A as (Fc & Vc). destruct (one_eq d) as (Fo & Vo).
  pose proof (@Bplus_correct (prec d) (emax d) (prec_pos d) (prec_emax d) mode_NE fone (lit 1 (- prec d)) Fo Fc) as C.
  assert (E : @Bplus (prec d) (emax d) (prec_pos d) (prec_emax d) mode_NE fone (lit 1 (- prec d)) = fone) by (apply B2SF_inj; destruct d; vm_compute; reflexivity).
  rewrite E in C. rewrite <- nearest_eq in C. fold (real (lit 1 (- prec d) : val d)) (real (fone : val d)) in C. rewrite Vc, Vo in C.
  destruct (Rlt_bool _ _); [symmetry; apply C|]. destruct C as (C & _). exfalso. apply over_nan in C. unfold finite in Fo. rewrite C in Fo. discriminate.
Qed.
(** a sum that may exceed M by half of the last place *)
Lemma add_saturates (a b : val d) M : finite a -> finite b -> rep d (2 * M) -> 0 <= M -> Rabs (real a + real b) <= 2 * M -> nearest d (Rabs (real a + real b)) <= M ->
  finite (fadd a b) /\ Rabs (real (fadd a b)) <= M /\ Rabs (real (fadd a b) - (real a + real b)) <= u d * Rabs (real a + real b).
Proof.
  intros Fa Fb R2 M0 H N. destruct (add_in d a b (- (2 * M)) (2 * M) Fa Fb (rep_opp _ _ R2) R2 (Rabs_le_inv _ _ H)) as (F & _ & V). split; [exact F|]. rewrite V. split; [|apply plus_error_rel].
  unfold Rabs in N at 1. destruct (Rcase_abs (real a + real b)) as [L|L].
  - rewrite nearest_opp in N. apply Rabs_le. split; [lra|]. apply Rle_trans with (nearest d 0); [apply nearest_le; lra|]. rewrite (proj1 (rep_0 d)). exact M0.
  - apply Rabs_le. split; [|exact N]. apply Rle_trans with (nearest d 0); [rewrite (proj1 (rep_0 d)); lra|apply nearest_le; lra].
Qed.
Lemma prod_in (p c : val d) P : finite p -> finite c -> rep d P -> Rabs (real p) <= P -> Rabs (real c) <= 1 ->
  finite (fmul p c) /\ Rabs (real (fmul p c)) <= P /\ Rabs (real (fmul p c) - real p * real c) <= u d * Rabs (real p * real c) + half_tiny d.
Proof. intros Fp Fc R H1 H2. apply (mul_near d p c P 1 P Fp Fc H1 H2 R). lra. Qed.
Lemma abs_prod a b A B : Rabs a <= A -> Rabs b <= B -> Rabs (a * b) <= A * B.
Proof. intros H1 H2. rewrite Rabs_mult. apply Rmult_le_compat; auto; apply Rabs_pos. Qed.
Lemma small : 0 < u d <= / 1000 /\ 0 < half_tiny d <= u d / 1000.
Proof.
  pose proof (u_small d) as (U0 & U1). pose proof (half_tiny_pos d). pose proof (tiny_u d) as (T & _). split; [split; [exact U0|]|lra].
  eapply Rle_trans; [exact U1|]; apply Rle_trans with (/ 2 ^ 10); [apply Rinv_le_contravar; [apply pow_lt; lra|apply Rle_pow; [lra|lia]]|lra].
Qed.

(** *** The output of a GRU *)
Lemma gru_first (p c : val d) : finite p -> finite c -> 0 <= real p <= 1 -> Rabs (real c) <= 1 ->
  finite (fmul p c) /\ Rabs (real (fmul p c)) <= 1 /\ Rabs (real (fmul p c) - (real p * real c + 0)) <= 4 * u d.
Proof.
  intros Fp Fc Bp Bc. destruct (prod_in p c 1 Fp Fc (rep_1 d)) as (A & C & E); [apply Rabs_le; lra|exact Bc|]. split; [exact A|]. split; [exact C|]. rewrite Rplus_0_r. eapply Rle_trans; [exact E|].
  destruct small as (U & T). assert (Rabs (real p * real c) <= 1 * 1) by (apply abs_prod; [apply Rabs_le; lra|exact Bc]). assert (u d * Rabs (real p * real c) <= u d * 1) by (apply Rmult_le_compat_l; lra). lra.
Qed.
Lemma gru_elem (p c y : val d) : finite p -> finite c -> finite y -> 0 <= real p <= 1 -> Rabs (real c) <= 1 -> Rabs (real y) <= 1 ->
  let r := fadd (fmul p c) (fmul (one_minus d p) y) in finite r /\ Rabs (real r) <= 1 /\ Rabs (real r - (real p * real c + (1 - real p) * real y)) <= 4 * u d.
Proof.
  intros Fp Fc Fy Bp Bc By r. destruct small as (U & T).
  destruct (one_minus_in d p Fp Bp) as (Fq & Bq).
  assert (Eq : Rabs (real (one_minus d p) - (1 - real p)) <= u d * (1 - real p)).
  { destruct (minus_eq d p Fp) as (Fm & Vm). destruct (unit_eq d) as (Fo & Vo). unfold one_minus. set (o := conv F64 d (conv d F64 (conv F64 d fone))) in *.
    destruct (@add_op d (minus d p) o 1 Fm Fo (rep_1 d)) as (_ & _ & C); [rewrite Vm, Vo; apply Rabs_le; lra|]. rewrite Vm, Vo in C. replace (1 - real p) with (- real p + 1) by ring. rewrite (Rabs_right (- real p + 1)) in C by lra. exact C. }
  set (q := one_minus d p) in *.
  destruct (prod_in p c (real p) Fp Fc (rep_real d p Fp)) as (Fa & Ba & Ea); [apply Rabs_le; lra|exact Bc|].
  destruct (prod_in q y (real q) Fq Fy (rep_real d q Fq)) as (Fb & Bb & Eb); [apply Rabs_le; lra|exact By|].
  assert (UP : 0 <= u d * (1 - real p) <= u d * 1) by (split; [apply Rmult_le_pos; lra|apply Rmult_le_compat_l; lra]).
  assert (Q1 : real q <= 1 - real p + u d) by (apply Rabs_le_inv in Eq; lra).
  assert (H : Rabs (real (fmul p c) + real (fmul q y)) <= 1 + u d) by (eapply Rle_trans; [apply Rabs_triang|]; lra).
  destruct (add_saturates (fmul p c) (fmul q y) 1 Fa Fb) as (Fr & Br & Er).
  - replace (2 * 1) with (2 ^ 1) by (cbn; lra). apply rep_pow2. destruct d; cbn; lia.
  - lra.
  - lra.
  - rewrite <- one_saturates. apply nearest_le. exact H.
  - fold r in Fr, Br, Er. split; [exact Fr|]. split; [exact Br|].
    assert (E1 : u d * Rabs (real p * real c) <= u d * real p). { apply Rmult_le_compat_l; [lra|]. rewrite <- (Rmult_1_r (real p)) at 2. apply abs_prod; [apply Rabs_le; lra|exact Bc]. }
    assert (E2 : u d * Rabs (real q * real y) <= u d * real q). { apply Rmult_le_compat_l; [lra|]. rewrite <- (Rmult_1_r (real q)) at 2. apply abs_prod; [apply Rabs_le; lra|exact By]. }
    assert (E3 : Rabs (real q * real y - (1 - real p) * real y) <= u d). { replace (real q * real y - (1 - real p) * real y) with ((real q - (1 - real p)) * real y) by ring. rewrite <- (Rmult_1_r (u d)). apply abs_prod; [lra|exact By]. }
    assert (E4 : u d * Rabs (real (fmul p c) + real (fmul q y)) <= u d * (1 + / 1000)) by (apply Rmult_le_compat_l; lra).
    assert (E5 : u d * real q <= u d * (1 - real p + / 1000)) by (apply Rmult_le_compat_l; lra).
    pose proof (rabs_tri _ _ _ _ _ Eb E3) as X. replace (real r - (real p * real c + (1 - real p) * real y)) with ((real r - (real (fmul p c) + real (fmul q y))) + ((real (fmul p c) - real p * real c) + (real (fmul q y) - (1 - real p) * real y))) by ring.
    eapply Rle_trans; [apply Rabs_triang|]. eapply Rle_trans; [apply Rplus_le_compat_l, Rabs_triang|]. lra.
Qed.

(** *** The cell of an LSTM *)
Record scale (G M : R) : Prop := { sc_G : rep d G; sc_M : rep d M; sc_2M : rep d (2 * M); sc_1 : 1 <= G; sc_le : G <= M; sc_sat : nearest d (M + G) <= M }.
Lemma scale_one : scale 1 (cap d).
Proof.
  assert (C1 : 1 <= cap d) by (unfold cap; change 1 with (bpow radix2 0); apply bpow_le; destruct d; cbn; lia).
  constructor; [apply rep_1|apply rep_cap| |lra|exact C1|rewrite cap_saturates; lra].
  replace (2 * cap d) with (bpow radix2 (prec d + 1)) by (unfold cap; rewrite bpow_plus; change (bpow radix2 1) with 2; ring). apply rep_pow; destruct d; cbn; lia.
Qed.
Lemma scale_refined k : (k <= 100)%nat -> scale (2 ^ k) (2 * (2 ^ k * cap d)).
Proof.
  intros Hk. assert (EM : 2 * (2 ^ k * cap d) = bpow radix2 (Z.of_nat k + prec d + 1)). { rewrite !bpow_plus. change (bpow radix2 1) with 2. rewrite <- (IZR_Zpower radix2) by lia. change (IZR (radix2 ^ Z.of_nat k)) with (IZR (2 ^ Z.of_nat k)). rewrite <- pow_IZR. unfold cap. ring. }
  assert (EG : 2 ^ k = bpow radix2 (Z.of_nat k)). { rewrite <- (IZR_Zpower radix2) by lia. change (IZR (radix2 ^ Z.of_nat k)) with (IZR (2 ^ Z.of_nat k)). now rewrite <- pow_IZR. }
  assert (RB : forall j, (j <= 126)%nat -> rep d (2 ^ j)) by (intros j Hj; apply rep_big; destruct d; cbn; lia).
  assert (EC : cap d = 2 ^ (Z.to_nat (prec d))). { unfold cap. rewrite <- (IZR_Zpower radix2) by (destruct d; cbn; lia). rewrite pow_IZR. rewrite Z2Nat.id by (destruct d; cbn; lia). reflexivity. }
  assert (RM : forall j, (j <= 2)%nat -> rep d (2 ^ (k + Z.to_nat (prec d) + j))) by (intros j Hj; apply rep_big; destruct d; cbn; lia).
  constructor.
  - apply RB. lia.
  - replace (2 * (2 ^ k * cap d)) with (2 ^ (k + Z.to_nat (prec d) + 1)) by (rewrite EC, !pow_add; cbn; ring). apply RM. lia.
  - replace (2 * (2 * (2 ^ k * cap d))) with (2 ^ (k + Z.to_nat (prec d) + 2)) by (rewrite EC, !pow_add; cbn; ring). apply RM. lia.
  - apply pow_R1_Rle. lra.
  - rewrite EM, EG. apply bpow_le. destruct d; cbn; lia.
  - rewrite EM, EG, nearest_eq. assert (VE : Valid_exp (SpecFloat.fexp (prec d) (emax d))) by (apply FLT_exp_valid; destruct d; reflexivity).
    change (round_mode mode_NE) with (Znearest (fun x => negb (Z.even x))). apply round_N_le_midp; [exact VE|apply generic_format_bpow; unfold SpecFloat.fexp, SpecFloat.emin; destruct d; cbn; lia|].
    rewrite succ_eq_pos by apply bpow_ge_0. rewrite ulp_bpow.
    replace (SpecFloat.fexp (prec d) (emax d) (Z.of_nat k + prec d + 1 + 1)) with (Z.of_nat k + 2)%Z by (unfold SpecFloat.fexp, SpecFloat.emin; destruct d; cbn; lia).
    rewrite (bpow_plus radix2 (Z.of_nat k) 2). change (bpow radix2 2) with 4. pose proof (bpow_gt_0 radix2 (Z.of_nat k)). lra.
Qed.
Lemma cell_first (a c : val d) G M : scale G M -> finite a -> finite c -> Rabs (real a) <= G -> Rabs (real c) <= 1 ->
  finite (fmul a c) /\ Rabs (real (fmul a c)) <= M /\ Rabs (real (fmul a c) - (real a * real c + 0)) <= 3 * u d * (Rabs (real a * real c) + Rabs 0) + 3 * half_tiny d.
Proof.
  intros S Fa Fc Ba Bc. destruct (prod_in a c G Fa Fc (sc_G _ _ S) Ba Bc) as (A & C & E). split; [exact A|]. split; [pose proof (sc_le _ _ S); lra|]. rewrite Rabs_R0, !Rplus_0_r. destruct small as (U & T).
  pose proof (Rmult_le_pos (u d) _ ltac:(lra) (Rabs_pos (real a * real c))). lra.
Qed.
Lemma cell_elem (a c f p : val d) G M : scale G M -> finite a -> finite c -> finite f -> finite p -> Rabs (real a) <= G -> Rabs (real c) <= 1 -> 0 <= real f <= 1 -> Rabs (real p) <= M ->
  let r := fadd (fmul a c) (fmul f p) in finite r /\ Rabs (real r) <= M /\
  Rabs (real r - (real a * real c + real f * real p)) <= 3 * u d * (Rabs (real a * real c) + Rabs (real f * real p)) + 3 * half_tiny d.
Proof.
  intros S Fa Fc Ff Fp Ba Bc Bf Bp r. destruct small as (U & T). destruct S as [SG SM S2 S1 Sl Ss].
  destruct (prod_in a c G Fa Fc SG Ba Bc) as (F1 & B1 & E1).
  destruct (mul_near d f p 1 M M Ff Fp) as (F2 & B2 & E2); [apply Rabs_le; lra|exact Bp|exact SM|lra|].
  assert (H : Rabs (real (fmul a c) + real (fmul f p)) <= M + G) by (eapply Rle_trans; [apply Rabs_triang|]; lra).
  destruct (add_saturates (fmul a c) (fmul f p) M F1 F2 S2) as (Fr & Br & Er); [lra..| |].
  { eapply Rle_trans; [|exact Ss]. apply nearest_le. exact H. }
  fold r in Fr, Br, Er. split; [exact Fr|]. split; [exact Br|].
  set (A := Rabs (real a * real c)) in *. set (B := Rabs (real f * real p)) in *. assert (A0 : 0 <= A) by apply Rabs_pos. assert (B0 : 0 <= B) by apply Rabs_pos.
  pose proof (rabs_near _ _ _ E1) as N1. pose proof (rabs_near _ _ _ E2) as N2. fold A in N1. fold B in N2.
  assert (UA : 0 <= u d * A <= / 1000 * A) by (split; [apply Rmult_le_pos; lra|apply Rmult_le_compat_r; lra]).
  assert (UB : 0 <= u d * B <= / 1000 * B) by (split; [apply Rmult_le_pos; lra|apply Rmult_le_compat_r; lra]).
  assert (E4 : u d * Rabs (real (fmul a c) + real (fmul f p)) <= u d * (1.001 * A + 1.001 * B + 2 * half_tiny d)) by (apply Rmult_le_compat_l; [lra|]; eapply Rle_trans; [apply Rabs_triang|]; lra).
  assert (E5 : u d * half_tiny d <= / 1000 * half_tiny d) by (apply Rmult_le_compat_r; lra).
  replace (real r - (real a * real c + real f * real p)) with ((real r - (real (fmul a c) + real (fmul f p))) + ((real (fmul a c) - real a * real c) + (real (fmul f p) - real f * real p))) by ring.
  eapply Rle_trans; [apply Rabs_triang|]. eapply Rle_trans; [apply Rplus_le_compat_l, Rabs_triang|]. lra.
Qed.
(** the output *)
Lemma out_elem (o t : val d) G c : rep d G -> finite o -> finite t -> Rabs (real o) <= G -> Rabs (real t) <= 1 ->
  finite (fmul o t) /\ Rabs (real (fmul o t)) <= G /\ (Rabs (real t - c) <= 10 * u d -> Rabs (real (fmul o t) - real o * c) <= 12 * u d * Rabs (real o) + half_tiny d).
Proof.
  intros RG Fo Ft Bo Bt. destruct (prod_in o t G Fo Ft RG Bo Bt) as (A & C & E). split; [exact A|]. split; [exact C|]. intros H. destruct small as (U & T).
  assert (X : Rabs (real o * real t - real o * c) <= Rabs (real o) * (10 * u d)) by (rewrite <- Rmult_minus_distr_l, Rabs_mult; apply Rmult_le_compat_l; [apply Rabs_pos|exact H]).
  assert (Y : u d * Rabs (real o * real t) <= u d * (Rabs (real o) * 1)) by (apply Rmult_le_compat_l; [lra|]; apply abs_prod; [apply Rle_refl|exact Bt]).
  pose proof (rabs_tri _ _ _ _ _ E X). pose proof (Rmult_le_pos (u d) _ ltac:(lra) (Rabs_pos (real o))). lra.
Qed.
End Elem.
