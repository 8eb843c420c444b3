(** * LAMB in floating point: every update of a history *)
From Coq Require Import Reals.
From Coq Require Import ZArith Bool Lia List Arith Lra Psatz.
From Flocq Require Import Core BinarySingleNaN Relative.
From Verif Require Import DenseModel DenseSpec ArithModel ArithSpec ArithProofs FloatModel FloatSpec NumModel NumSpec NumLemmas AsmFloatSpec AsmFloat
  OptFloatModel OptFloatSpec OptFloatNum OptFloatNum2 OptFloatNum3 OptFloatProofs OptFloatNum4 OptFloatProofs2 OptFloatProofs3
  NormFloatModel NormFloatSpec NormFloatNum NormFloatProofs NormFloatBack NormFloatEdge LambFloatModel LambFloatSpec LambFloatProofs LambFloatProofs2 LambFloatProofs3.
Import ListNotations.
Local Open Scope R_scope.

Lemma fone_1 : finite (fone (d := F64)) /\ real (fone (d := F64)) = 1.
Proof. apply one_eq. Qed.
Section Main.
Variables (d : dtype) (sum : nat -> list (val d) -> val d) (K : R) (alpha : nat -> val F64) (b1 b2 eps lambda : val F64) (r c : nat) (g : nat -> dense (val d)) (x0 : dense (val d)).
Notation mat := (dense (val d)).
Notation cv := (conv F64 d).
Notation get m i j := (get fzero m i j).
Hypothesis A : adds_all sum.
Hypothesis Hb : averages K b1 b2.
Hypothesis He : guard eps.
Hypothesis Hl : rate 1 lambda.
Hypothesis Ha : forall n, rate (2 ^ 8) (alpha n).
Hypothesis Few : few d (r * c).
Hypothesis Hx : shaped d x0 r c.
Hypothesis Hg : forall n, within d (grad_max d) r c (g n).
Definition lamb_claim (n : nat) (x x' : mat) : Prop :=
  exists q, direction d b1 b2 eps lambda r c g n x q /\ (within d (lamb_max d) r c x -> seen r c x ->
    moved_by d (1.5 * (real (alpha n) * mat_length x)) r c x x' /\
    within d (2 * lamb_max d) r c q /\ decayed_direction d K (real lambda) r c x q /\
    (seen r c q -> stepped d (real (alpha n) * mat_length x) (2.5 * rho d (r * c)) r c x q x')) /\ (within d (invisible d) r c x ->
    within d (2 * lamb_max d) r c q /\ decayed_direction d K (real lambda) r c x q /\ adam_stepped d (real (alpha n)) r c x q x').
Lemma within_more B B' (x : mat) : B <= B' -> within d B r c x -> within d B' r c x.
Proof. intros L (W & R1 & C1 & H). repeat split; auto; [apply (H i j H0 H1)|]. destruct (H i j H0 H1) as (_ & ?). lra. Qed.

(** one step from x along q *)
Section One.
Variables (a : val F64) (x q x' : mat).
Hypothesis Hal : rate (2 ^ 8) a.
Hypothesis Wx : within d (lamb_max d) r c x.
Hypothesis Sx : seen r c x.
Hypothesis Wq : within d (2 * lamb_max d) r c q.
Hypothesis E' : forall i j, (i < r)%nat -> (j < c)%nat -> get x' i j = fsub (get x i j) (fmul (get q i j) (cv (fmul a (trust_ratio (norm_of d sum 0 x) (norm_of d sum 1 q))))).
Let wn := norm_of d sum 0 x.
Let qn := norm_of d sum 1 q.
Lemma lamb_pos : 0 < lamb_max d. Proof. unfold lamb_max. destruct d; apply pow_lt; lra. Qed.
Lemma wn_facts : is0 wn = false /\ finite wn /\ 0 <= real wn <= n_high d /\ 0 < mat_length x /\ rel (0.9 * rho d (r * c)) (real wn) (mat_length x) /\ visible d <= mat_length x /\ real wn <= 1.01 * mat_length x.
Proof.
  pose proof lamb_pos as LP. destruct (within_sized d _ r c x (within_more (lamb_max d) (2 * lamb_max d) x ltac:(lra) Wx)) as (Z & L). assert (F : few d (length (data x))) by (rewrite L; exact Few).
  destruct (norm_close d sum 0 (data x) A F Z (seen_exists d r c x (within_shaped _ _ _ _ _ Wx) Sx)) as (N1 & N2 & N3 & N4). destruct (norm_real d sum 0 (data x) A F Z) as (F1 & _ & P1). pose proof (norm_size d sum 0 (data x) A F Z) as N5.
  rewrite L in N3. repeat split; auto. destruct (few_small d _ Few) as (R1 & _). unfold rel in N3. rewrite (Rabs_right (length_of _)) in N3 by lra. apply rabs_le in N3.
  unfold mat_length. change (real wn) with (real (sqrt64 (conv d F64 (sum 0%nat (square d (data x)))))). assert (0.9 * rho d (r * c) * length_of (reals (data x)) <= 0.01 * length_of (reals (data x))) by (apply Rmult_le_compat_r; lra). lra.
Qed.
Lemma trust_cases : exists T, finite (trust_ratio wn qn) /\ near_to F64 (real (trust_ratio wn qn)) T /\ 0 <= T <= t_max d /\
  (forall i j, (i < r)%nat -> (j < c)%nat -> Rabs (at_ d q i j) * T <= 1.35 * n_high d /\ Rabs (at_ d q i j) * T <= 1.35 * mat_length x) /\
  (seen r c q -> 0 < mat_length q /\ rel (1.9 * rho d (r * c)) T (mat_length x / mat_length q)).
Proof.
  destruct wn_facts as (W0 & Fw & Pw & Lx & Ex & Vx & Wl). destruct (within_sized d _ r c q Wq) as (Z & L). assert (F : few d (length (data q))) by (rewrite L; exact Few).
  assert (Sq : shaped d q r c) by (eapply within_shaped; exact Wq). destruct (norm_real d sum 1 (data q) A F Z) as (Fq & _ & Pq). change (finite qn) in Fq. destruct (t_facts d) as (_ & T1 & _ & _ & _ & _ & N40 & _ & _ & _ & _ & N3).
  unfold trust_ratio. rewrite W0. cbn [orb]. destruct (is0 qn) eqn:Q0.
  - exists 1. destruct fone_1 as (F1 & E1). split; [exact F1|]. split; [unfold near_to; rewrite E1, Rminus_diag_eq, Rabs_R0 by reflexivity; rewrite Rabs_right by lra; pose proof (u_small F64); pose proof (tiny_small F64); lra|].
    split; [lra|]. split.
    + intros i j Hi Hj. rewrite Rmult_1_r. pose proof (norm_is0 d sum 1 (data q) A F Z Q0) as H. pose proof (forall_get d _ r c q i j Sq H Hi Hj) as G. cbn beta in G. fold (at_ d q i j) in G. pose proof (visible_facts d) as (_ & _ & V). pose proof (n_low_facts d) as (NL & _). split; lra.
    + intros Hs. exfalso. destruct (norm_close d sum 1 (data q) A F Z (seen_exists d r c q Sq Hs)) as (N1 & _). unfold qn, norm_of in Q0. congruence.
  - pose proof (norm_not0 d sum 1 (data q) A F Z Q0) as P. destruct (norm_positive d sum 1 (data q) A F Z P) as (LQ & _). change (0.99 * n_low d <= real qn) in LQ.
    destruct (ratio_near d wn qn Fw Fq Pw LQ) as (F1 & N1 & B1). exists (real wn / real qn). split; [exact F1|]. split; [exact N1|]. split; [exact B1|]. pose proof (n_low_facts d) as (NL & _). split.
    + intros i j Hi Hj. pose proof (norm_each d sum 1 (data q) A F Z Q0) as H. pose proof (forall_get d _ r c q i j Sq H Hi Hj) as G. cbn beta in G. change (Rabs (at_ d q i j) <= 1.3 * real qn) in G.
      assert (X : Rabs (at_ d q i j) * (real wn / real qn) <= 1.3 * real wn). { apply Rle_trans with (1.3 * real qn * (real wn / real qn)); [apply Rmult_le_compat_r; lra|]. right. field. lra. }
      split; lra.
    + intros Hs. destruct (norm_close d sum 1 (data q) A F Z (seen_exists d r c q Sq Hs)) as (_ & N2 & N3' & _). split; [exact N2|]. rewrite L in N3'. change (rel (0.9 * rho d (r * c)) (real qn) (mat_length q)) in N3'. change (0 < mat_length q) in N2.
      destruct (few_small d _ Few) as (R1 & _). pose proof (u_pos d). destruct (rel_inv (0.9 * rho d (r * c)) (real qn) (mat_length q) ltac:(lra) ltac:(lra) N3') as (_ & I).
      assert (P0 : 0 <= 0.9 * rho d (r * c)) by lra. pose proof (rel_mul _ _ _ _ _ _ P0 Ex I) as X. eapply rel_le; [exact X|].
      set (e := rho d (r * c)) in *. assert (0 <= e) by lra. clearbody e. assert (e * e <= e * / 200) by (apply Rmult_le_compat_l; lra). assert (e * (e * e) <= e * (e * / 200)) by (apply Rmult_le_compat_l; lra). lra.
Qed.
Lemma lamb_step : moved_by d (1.5 * (real a * mat_length x)) r c x x' /\ (seen r c q -> stepped d (real a * mat_length x) (2.5 * rho d (r * c)) r c x q x').
Proof.
  destruct trust_cases as (T & Ft & Nt & HT & Bq & Cl). assert (Pa : 0 <= real a <= 2 ^ 8) by apply Hal. destruct wn_facts as (_ & _ & _ & Lx & _). destruct (few_small d _ Few) as (R1 & _). pose proof (u_small d) as HU.
  assert (New : forall i j, (i < r)%nat -> (j < c)%nat -> let t := at_ d q i j * (real a * T) in finite (get x' i j) /\ Rabs (at_ d x' i j - (at_ d x i j - t)) <= 5.2 * u d * Rabs t + u d * Rabs (at_ d x i j) + / 2 ^ 104).
  { intros i j Hi Hj. unfold at_. rewrite (E' i j Hi Hj). destruct Wx as (_ & _ & _ & Wx'). destruct (Wx' i j Hi Hj) as (Fx & Bx). destruct Wq as (_ & _ & _ & Wq'). destruct (Wq' i j Hi Hj) as (Fq & Bq').
    apply (step_new d a _ (get q i j) T Hal Ft Nt HT Fq Bq' (proj1 (Bq i j Hi Hj)) (get x i j) Fx Bx). }
  assert (At : forall i j, Rabs (at_ d q i j * (real a * T)) = real a * (Rabs (at_ d q i j) * T)). { intros i j. rewrite !Rabs_mult, (Rabs_right (real a)), (Rabs_right T) by lra. ring. }
  split.
  - intros i j Hi Hj. destruct (New i j Hi Hj) as (F & E). split; [exact F|]. rewrite At in E. destruct (Bq i j Hi Hj) as (_ & B).
    assert (X : real a * (Rabs (at_ d q i j) * T) <= 1.35 * (real a * mat_length x)). { apply Rle_trans with (real a * (1.35 * mat_length x)); [apply Rmult_le_compat_l; lra|lra]. }
    set (t := at_ d q i j * (real a * T)) in *. pose proof (Rabs_triang (at_ d x' i j - (at_ d x i j - t)) (- t)) as Y. replace (at_ d x' i j - (at_ d x i j - t) + - t) with (at_ d x' i j - at_ d x i j) in Y by ring. rewrite Rabs_Ropp in Y.
    unfold t at 2 in Y. rewrite At in Y. assert (PX : 0 <= real a * (Rabs (at_ d q i j) * T)) by (apply Rmult_le_pos; [lra|apply Rmult_le_pos; [apply Rabs_pos|lra]]).
    set (z := real a * (Rabs (at_ d q i j) * T)) in *. assert (u d * z <= / 2 ^ 24 * z) by (apply Rmult_le_compat_r; lra). lra.
  - intros Hs i j Hi Hj. destruct (Cl Hs) as (Lq & R). destruct (New i j Hi Hj) as (_ & E). cbv zeta in E. cbv zeta.
    set (t0 := real a * mat_length x * (at_ d q i j / mat_length q)). set (t := at_ d q i j * (real a * T)) in *.
    assert (D : Rabs (t - t0) <= 1.9 * rho d (r * c) * Rabs t0).
    { replace (t - t0) with (at_ d q i j * real a * (T - mat_length x / mat_length q)) by (unfold t, t0; field; lra). replace t0 with (at_ d q i j * real a * (mat_length x / mat_length q)) by (unfold t0; field; lra).
      rewrite !Rabs_mult. unfold rel in R. pose proof (Rmult_le_pos _ _ (Rabs_pos (at_ d q i j)) (Rabs_pos (real a))) as PP. set (w := Rabs (at_ d q i j) * Rabs (real a)) in *.
      apply Rle_trans with (w * (1.9 * rho d (r * c) * Rabs (mat_length x / mat_length q))); [apply Rmult_le_compat_l; [exact PP|exact R]|right; ring]. }
    pose proof (Rabs_pos t0) as P0. pose proof (Rabs_triang (t - t0) t0) as Y. replace (t - t0 + t0) with t in Y by ring.
    pose proof (Rabs_triang (at_ d x' i j - (at_ d x i j - t)) (- (t - t0))) as Y2. replace (at_ d x' i j - (at_ d x i j - t) + - (t - t0)) with (at_ d x' i j - (at_ d x i j - t0)) in Y2 by ring. rewrite Rabs_Ropp in Y2.
    set (e := rho d (r * c)) in *. assert (E1 : e * Rabs t0 <= / 200 * Rabs t0) by (apply Rmult_le_compat_r; lra). assert (E2 : u d * Rabs t <= u d * (1.01 * Rabs t0)) by (apply Rmult_le_compat_l; lra).
    assert (E3 : 16 * u d * Rabs t0 <= e * Rabs t0) by (apply Rmult_le_compat_r; lra). assert (0 <= e * Rabs t0) by (apply Rmult_le_pos; lra). lra.
Qed.
End One.

(** the step of Adam, when the squares of the weights vanish *)
Lemma invisible_max : invisible d <= lamb_max d.
Proof.
  unfold invisible, lamb_max. clear. destruct d; [lra|]. apply Rle_trans with 1; [|apply pow_R1_Rle; lra]. rewrite <- Rinv_1. apply Rinv_le_contravar; [lra|apply pow_R1_Rle; lra].
Qed.
Lemma two_lamb : 2 * lamb_max d <= n_high d.
Proof. unfold lamb_max, n_high. clear. destruct d; [lra|]. change (2 * 2 ^ 400) with (2 ^ 401). apply Rle_pow; [lra|lia]. Qed.
Lemma no_norm (x : mat) : within d (invisible d) r c x -> is0 (norm_of d sum 0 x) = true.
Proof.
  intros W. destruct (within_sized d _ r c x W) as (Z & _). pose proof (zero_sum _ _ (A 0%nat (square d (data x))) (tiny_squares d (data x) Z)) as H. apply is_zero_eq in H. destruct H as (s & H).
  unfold norm_of. rewrite H. destruct s; destruct d; vm_compute; reflexivity.
Qed.
Lemma lamb_zero_step (a : val F64) (x q x' : mat) : rate (2 ^ 8) a -> within d (invisible d) r c x -> within d (2 * lamb_max d) r c q ->
  (forall i j, (i < r)%nat -> (j < c)%nat -> get x' i j = fsub (get x i j) (fmul (get q i j) (cv (fmul a (trust_ratio (norm_of d sum 0 x) (norm_of d sum 1 q)))))) ->
  adam_stepped d (real a) r c x q x'.
Proof.
  intros Hal Wx Wq E i j Hi Hj. cbv zeta. unfold trust_ratio in E. rewrite (no_norm x Wx) in E. cbn [orb] in E. destruct fone_1 as (F1 & E1). destruct (t_facts d) as (_ & T1 & _). pose proof (u_small d) as HU.
  assert (N1 : near_to F64 (real fone) 1) by (unfold near_to; rewrite E1, Rminus_diag_eq, Rabs_R0 by reflexivity; rewrite Rabs_right by lra; pose proof (u_small F64); pose proof (tiny_small F64); lra).
  destruct Wx as (_ & _ & _ & Wx). destruct (Wx i j Hi Hj) as (Fx & Bx). destruct Wq as (_ & _ & _ & Wq). destruct (Wq i j Hi Hj) as (Fq & Bq). pose proof two_lamb as L. pose proof invisible_max as I. pose proof (Rabs_pos (real (get q i j))) as Pq.
  destruct (step_new d a fone (get q i j) 1 Hal F1 N1 ltac:(lra) Fq Bq ltac:(lra) (get x i j) Fx ltac:(lra)) as (F & B). unfold at_. rewrite (E i j Hi Hj). split; [exact F|].
  rewrite Rmult_1_r, (Rmult_comm (real (get q i j))) in B. pose proof (Rabs_pos (real a * real (get q i j))) as P. assert (0 <= u d * Rabs (real a * real (get q i j))) by (apply Rmult_le_pos; lra). lra.
Qed.
Definition averaged (n : nat) (s : moments d) : Prop := forall i j, (i < r)%nat -> (j < c)%nat ->
  get (mo_1 d s) i j = moving (cv b1) (cv (fsub fone b1)) (fun k => get (g k) i j) n /\
  get (mo_2 d s) i j = moving (cv b2) (cv (fsub fone b2)) (fun k => fmul (get (g k) i j) (get (g k) i j)) n.
Lemma lamb_history n : exists x x', successive d (fun n => lamb_optimize d sum (alpha n) b1 b2 eps lambda) g x0 n x x' /\ lamb_claim n x x'.
Proof.
  assert (HK : 1 <= K <= 2 ^ 12) by apply Hb. destruct (conv_guard d eps He) as (Fe & Ge).
  apply (run_successive d (moments d) (lamb_state d) (LambState d) (moments_fresh d) (fun n => lamb_update d sum (alpha n) b1 b2 eps lambda) (fun s => eq_refl) g x0
    (fun n s x => moments_inv d K r c s /\ averaged n s /\ shaped d x r c) lamb_claim).
  - split; [apply moments_inv_0; [lra|exact Hx]|]. split; [|exact Hx]. destruct (moments_fresh_shaped d x0 r c Hx) as (_ & Z1 & Z2). intros i j Hi Hj. rewrite (Z1 i j Hi Hj), (Z2 i j Hi Hj). split; reflexivity.
  - clear n. intros n s x (HI & HA & Sx). destruct (lamb_elems d sum (alpha n) b1 b2 eps lambda (g n) s x r c (proj1 HI) (within_shaped _ _ _ _ _ (Hg n)) Sx) as (delta & s' & q & E & Ss' & Sd & Sq & H).
    destruct (sub_elems d x delta r c Sx Sd) as (x' & E2 & Sx' & H2). exists delta, s', x'. split; [exact E|]. split; [exact E2|].
    assert (HN : forall i j, (i < r)%nat -> (j < c)%nat -> moments_ok d K (avg d (cv b1) (get (mo_1 d s) i j) (cv (fsub fone b1)) (get (g n) i j)) (avg d (cv b2) (get (mo_2 d s) i j) (cv (fsub fone b2)) (fmul (get (g n) i j) (get (g n) i j)))).
    { intros i j Hi Hj. eapply moments_next; eauto. }
    split; [split; [split; [exact Ss'|]|split; [|exact Sx']]|].
    { intros i j Hi Hj. destruct (H i j Hi Hj) as (E3 & E4 & _). rewrite E3, E4. now apply HN. }
    { intros i j Hi Hj. destruct (H i j Hi Hj) as (E3 & E4 & _). destruct (HA i j Hi Hj) as (A1 & A2). rewrite E3, E4, A1, A2. split; reflexivity. }
    exists q. split.
    { destruct Sq as (Q1 & Q2 & Q3). split; [exact Q1|]. split; [exact Q2|]. split; [exact Q3|]. intros i j Hi Hj. cbv zeta. cbn [moving]. destruct (H i j Hi Hj) as (_ & _ & E5 & _). destruct (HA i j Hi Hj) as (A1 & A2). rewrite <- A1, <- A2. exact E5. }
    assert (Dir : within d (lamb_max d) r c x -> forall i j, (i < r)%nat -> (j < c)%nat -> finite (get q i j) /\ Rabs (at_ d q i j - real lambda * at_ d x i j) <= 1.01 * K + 4 * u d * (real lambda * Rabs (at_ d x i j)) /\ Rabs (at_ d q i j) <= 2 * lamb_max d).
    { intros (_ & _ & _ & Wx') i j Hi Hj. destruct (H i j Hi Hj) as (_ & _ & E5 & _). destruct (HN i j Hi Hj) as (Fv & _ & Hm & Q). destruct (quotient_ok d K _ _ (cv eps) HK Fv Hm Q Fe Ge) as (Fq & Lq). destruct (Wx' i j Hi Hj) as (Fx & Bx).
      unfold at_. rewrite E5. apply (direction_ok d K _ _ lambda HK Hl Fq Lq Fx Bx). }
    assert (Wq : within d (lamb_max d) r c x -> within d (2 * lamb_max d) r c q). { intros Wx. destruct Sq as (Q1 & Q2 & Q3). repeat split; auto; apply (Dir Wx i j); assumption. }
    assert (Ex : forall i j, (i < r)%nat -> (j < c)%nat -> get x' i j = fsub (get x i j) (fmul (get q i j) (cv (fmul (alpha n) (trust_ratio (norm_of d sum 0 x) (norm_of d sum 1 q)))))).
    { intros i j Hi Hj. rewrite (H2 i j Hi Hj). destruct (H i j Hi Hj) as (_ & _ & _ & E6). rewrite E6. reflexivity. }
    split.
    + intros Wx Seen. destruct (lamb_step (alpha n) x q x' (Ha n) Wx Seen (Wq Wx) Ex) as (M & St).
      split; [exact M|]. split; [exact (Wq Wx)|]. split; [intros i j Hi Hj; destruct (Dir Wx i j Hi Hj) as (? & ? & _); auto|exact St].
    + intros Wi. assert (Wx : within d (lamb_max d) r c x) by (eapply within_more; [apply invisible_max|exact Wi]).
      split; [exact (Wq Wx)|]. split; [intros i j Hi Hj; destruct (Dir Wx i j Hi Hj) as (? & ? & _); auto|]. apply (lamb_zero_step (alpha n) x q x' (Ha n) Wi (Wq Wx) Ex).
Qed.
End Main.
