(** * Recurrent networks in floating point: the gates *)
From Coq Require Import ZArith Bool Reals.
From Coquelicot Require Import Coquelicot.
From Coq Require Import Lia List Arith Lra.
From Flocq Require Import Core BinarySingleNaN.
From Verif Require Import AsmModel AsmCalls AsmSpec FloatModel FloatSpec FloatProofs NumModel NumSpec NumLemmas AsmFloatSpec AsmFloat AsmFloat2 SoftSpec SoftFloat SoftFloat2 SoftFloat3 OptFloatNum NormFloatModel NormFloatBack NormFloatBack5 LossFloatModel LossFloatSpec LossFloatProofs2 LossFloatProofs4 LossFloatProofs6 LossFloatProofs9 RnnFloatModel RnnFloatSpec.
From Verif Require GradGelu GradProofs3.
Import ListNotations.
Local Open Scope list_scope.
Local Open Scope R_scope.

Lemma sigma_lipschitz a b : Rabs (sigma a - sigma b) <= Rabs (a - b).
Proof.
  assert (E : forall v, sigma v = 1 / (1 + exp (- v))) by (intros v; unfold sigma, Rdiv; ring).
  assert (P : forall v, 0 < sigma v < 1). { intros v. unfold sigma. pose proof (exp_pos (- v)). split; [apply Rinv_0_lt_compat; lra|]. rewrite <- Rinv_1. apply Rinv_lt_contravar; lra. }
  assert (D : forall v, is_derive sigma v (sigma v * (1 - sigma v))).
  { intros v. rewrite !E. apply (is_derive_ext (fun v => 1 / (1 + exp (- v)))); [intros t; symmetry; apply E|apply GradProofs3.sigmoid_d]. }
  assert (H : forall a b, a < b -> Rabs (sigma a - sigma b) <= Rabs (a - b)).
  { clear a b. intros a b Hab. destruct (MVT_gen sigma a b (fun v => sigma v * (1 - sigma v))) as (c & _ & Hc).
    - intros x _. apply D.
    - intros x _. apply continuity_pt_filterlim. apply (ex_derive_continuous sigma). eexists. apply D.
    - rewrite <- (Rabs_Ropp (sigma a - sigma b)), <- (Rabs_Ropp (a - b)), !Ropp_minus_distr, Hc, Rabs_mult.
      rewrite <- (Rmult_1_l (Rabs (b - a))) at 2. apply Rmult_le_compat_r; [apply Rabs_pos|]. pose proof (P c). apply Rabs_le. nra. }
  destruct (Rtotal_order a b) as [Hl|[->|Hg]]; auto.
  - rewrite !Rminus_eq_0. lra.
  - rewrite <- (Rabs_Ropp (sigma a - sigma b)), <- (Rabs_Ropp (a - b)), !Ropp_minus_distr. auto.
Qed.
Lemma rabs_tri x y z a b : Rabs (x - y) <= a -> Rabs (y - z) <= b -> Rabs (x - z) <= a + b.
Proof. intros A B. replace (x - z) with ((x - y) + (y - z)) by ring. eapply Rle_trans; [apply Rabs_triang|]. lra. Qed.
Lemma rabs_near x y a : Rabs (x - y) <= a -> Rabs x <= Rabs y + a.
Proof. intros A. replace x with ((x - y) + y) by ring. eapply Rle_trans; [apply Rabs_triang|]. lra. Qed.

Lemma safe_1 d : 1 <= safe d.
Proof. unfold safe. destruct d; apply pow_R1_Rle; lra. Qed.
Lemma sigm_rel_pos d : 0 <= sigm_rel d.
Proof. unfold sigm_rel. destruct d; left; apply Rinv_0_lt_compat, pow_lt; lra. Qed.

Section Gate.
Variable d : dtype.
Notation vec := (list (val d)).
Lemma total_abs_pos (l : vec) : 0 <= total_abs l.
Proof. induction l as [|x l IH]; unfold total_abs in *; cbn [fold_right]; [lra|]. pose proof (Rabs_pos (real x)). lra. Qed.
Lemma product_abs_bound (r x : vec) B : 0 <= B -> Forall (fun e => finite e /\ Rabs (real e) <= B) x -> product_abs (combine r x) <= B * total_abs r.
Proof.
  intros HB. revert x. induction r as [|a r IH]; intros x F; unfold product_abs, total_abs in *; cbn [combine fold_right]; [lra|].
  destruct x as [|b x]; cbn [fold_right].
  - pose proof (total_abs_pos r) as P. unfold total_abs in P. pose proof (Rabs_pos (real a)). apply Rmult_le_pos; lra.
  - inversion F as [|? ? (_ & H) F']; subst. specialize (IH x F'). cbn [fst snd]. rewrite Rabs_mult. pose proof (Rmult_le_compat_l (Rabs (real a)) _ _ (Rabs_pos _) H). lra.
Qed.
Lemma combine_finite (r x : vec) : Forall finite r -> Forall finite x -> Forall (fun p => finite (fst p) /\ finite (snd p)) (combine r x).
Proof. intros Fr. revert x. induction Fr as [|a r Fa Fr IH]; intros x Fx; [constructor|]. destruct Fx as [|b x Fb Fx]; constructor; [split; assumption|auto]. Qed.

(** a product of a row and a vector *)
Lemma dot_ok v (r x : vec) P : dot_of (floats d) v (combine r x) -> Forall finite r -> Forall finite x -> INR (length (combine r x)) * u d <= / 8 -> product_abs (combine r x) <= P -> P <= safe d ->
  finite v /\ Rabs (real v - product (combine r x)) <= 8 / 7 * (INR (length (combine r x)) * u d * P) + 8 / 7 * (INR (length (combine r x)) * half_tiny d).
Proof.
  intros Hv Fr Fx N HP Hs. pose proof (combine_finite r x Fr Fx) as Fc. set (l := combine r x) in *. clearbody l. pose proof (product_abs_pos d l) as P0. pose proof (gamma_small d _ N) as G. pose proof (gamma_pos d (length l)) as G0.
  pose proof (tiny_small d) as T. pose proof (u_small d) as U. pose proof (pos_INR (length l)) as I0. set (n := INR (length l)) in *.
  assert (NT : 0 <= n * half_tiny d <= / 8). { split; [apply Rmult_le_pos; lra|]. apply Rle_trans with (n * u d); [|lra]. apply Rmult_le_compat_l; [lra|]. pose proof (tiny_u d). lra. }
  assert (NU : 0 <= n * u d) by (apply Rmult_le_pos; lra).
  assert (SL : 4 * safe d <= largest d) by apply safe_largest. pose proof (safe_1 d) as S1.
  assert (Fv : finite v). { apply (dot_finite d v l Hv Fc). change (size d (length l) (product_abs l) <= largest d). unfold size. fold n. assert (gamma d (length l) * product_abs l <= / 7 * safe d) by (apply Rmult_le_compat; lra). assert (gamma d (length l) * (n * half_tiny d) <= / 7 * 1) by (apply Rmult_le_compat; lra). lra. }
  split; [exact Fv|]. destruct (dot_error d v l Hv Fv) as (_ & E). change (Rabs (real v - product l) <= dbound d (length l) (product_abs l)) in E. unfold dbound in E. fold n in E. eapply Rle_trans; [exact E|].
  assert (gamma d (length l) * product_abs l <= 8 / 7 * (n * u d) * P) by (apply Rmult_le_compat; lra). assert (gamma d (length l) * (n * half_tiny d) <= / 7 * (n * half_tiny d)) by (apply Rmult_le_compat_r; lra). lra.
Qed.

Variable dot : list nat -> list (val d * val d) -> val d.
Hypothesis D : dots_all dot.
Lemma mul_rows_length k rows x : forall i, length (mul_rows d dot k i rows x) = length rows.
Proof. induction rows as [|r rows IH]; intros i; cbn; [reflexivity|]. now rewrite IH. Qed.
Lemma mul_rows_nth k rows x : forall i j, (j < length rows)%nat -> dot_of (floats d) (nth j (mul_rows d dot k i rows x) fzero) (combine (nth j rows []) x).
Proof.
  induction rows as [|r rows IH]; intros i j H; cbn in H; [lia|]. destruct j as [|j]; cbn [mul_rows nth]; [apply D|]. apply IH. lia.
Qed.

(** *** The affine map *)
Variables (k n : nat) (B Y : R) (g : gate d).
Hypothesis HB : 0 <= B.
Hypothesis HY : 0 <= Y.
Hypothesis Q : good_gate k n B Y g.
Hypothesis Nk : INR k * u d <= / 8.
Hypothesis Nn : INR n * u d <= / 8.
Definition before (y : option vec) : Prop := match y with None => True | Some y => vector_in n Y y end.

Lemma vector_finite m C (v : vec) : vector_in m C v -> Forall finite v.
Proof. intros (_ & F). eapply Forall_impl; [|exact F]. now intros e (H & _). Qed.
Lemma row_ok rows m i : length rows = n -> Forall (fun r : vec => length r = m /\ Forall finite r) rows -> (i < n)%nat -> length (nth i rows []) = m /\ Forall finite (nth i rows []).
Proof. intros L F H. rewrite Forall_forall in F. apply F. apply nth_In. lia. Qed.

Lemma affine_length t j x y : before y -> length (affine d dot t j g x y) = n.
Proof.
  intros Hy. destruct (rows_in _ _ _ _ _ Q) as (L1 & _), (rows_rec _ _ _ _ _ Q) as (L2 & _), (bias_in _ _ _ _ _ Q) as (L3 & _). unfold affine.
  assert (L : length (zip fadd (mul_rows d dot [0%nat; j; t] 0 (W g) x) (Bias g)) = n) by (rewrite zip_length; rewrite mul_rows_length; lia).
  destruct y as [y|]; [|exact L]. rewrite zip_length; rewrite ?mul_rows_length; lia.
Qed.
Lemma net_safe x y i : vector_in k B x -> before y -> (i < n)%nat -> net_size g x y i <= safe d.
Proof.
  intros (_ & Fx) Hy H. eapply Rle_trans; [|exact (rows_size _ _ _ _ _ Q i H)]. unfold net_size. pose proof (product_abs_bound (nth i (W g) []) x B HB Fx) as P1.
  destruct y as [y|]; [destruct Hy as (_ & Fy); pose proof (product_abs_bound (nth i (WRec g) []) y Y HY Fy); lra|]. pose proof (total_abs_pos (nth i (WRec g) [])) as P. pose proof (Rmult_le_pos Y _ HY P). lra.
Qed.
Lemma affine_nth t j x y i : vector_in k B x -> before y -> (i < n)%nat ->
  let a := nth i (affine d dot t j g x y) fzero in finite a /\ Rabs (real a - net_input g x y i) <= net_error d k n (net_size g x y i).
Proof.
  intros Hx Hy H a. pose proof (net_safe x y i Hx Hy H) as S0. destruct (rows_in _ _ _ _ _ Q) as (L1 & F1), (rows_rec _ _ _ _ _ Q) as (L2 & F2), (bias_in _ _ _ _ _ Q) as (L3 & F3).
  destruct (row_ok (W g) k i L1 F1 H) as (l1 & f1). destruct (row_ok (WRec g) n i L2 F2 H) as (l2 & f2).
  assert (Fb : finite (nth i (Bias g) fzero)) by (rewrite Forall_forall in F3; apply F3, nth_In; lia).
  pose proof (mul_rows_nth [0%nat; j; t] (W g) x 0 i ltac:(lia)) as D1. pose proof (product_abs_pos d (combine (nth i (W g) []) x)) as P1.
  unfold net_size in S0. pose proof (Rabs_pos (real (nth i (Bias g) fzero))) as Pb.
  assert (C1 : length (combine (nth i (W g) []) x) = k) by (rewrite combine_length, l1, (proj1 Hx); lia).
  assert (Lz : length (zip fadd (mul_rows d dot [0%nat; j; t] 0 (W g) x) (Bias g)) = n) by (rewrite zip_length; rewrite mul_rows_length; lia).
  assert (Nz : nth i (zip fadd (mul_rows d dot [0%nat; j; t] 0 (W g) x) (Bias g)) fzero = fadd (nth i (mul_rows d dot [0%nat; j; t] 0 (W g) x) fzero) (nth i (Bias g) fzero)) by (apply nth_zip; rewrite ?mul_rows_length; lia).
  pose proof (tiny_u d) as (T & _). pose proof (half_tiny_pos d) as T0. pose proof (u_small d) as (U0 & U1). assert (U : u d <= / 1000) by (eapply Rle_trans; [exact U1|]; apply Rle_trans with (/ 2 ^ 10); [apply Rinv_le_contravar; [apply pow_lt; lra|apply Rle_pow; [lra|lia]]|lra]).
  assert (R4 : rep d (4 * safe d)) by (apply (safe_ok d (safe d)); lra). pose proof (safe_1 d) as S1.
  pose proof (pos_INR k) as K0. pose proof (pos_INR n) as N0.
  assert (NT1 : 0 <= INR k * half_tiny d <= / 8) by (split; [apply Rmult_le_pos; lra|]; apply Rle_trans with (INR k * u d); [apply Rmult_le_compat_l; lra|lra]).
  assert (NT2 : 0 <= INR n * half_tiny d <= / 8) by (split; [apply Rmult_le_pos; lra|]; apply Rle_trans with (INR n * u d); [apply Rmult_le_compat_l; lra|lra]).
  assert (P0 : 0 <= match y with Some y0 => product_abs (combine (nth i (WRec g) []) y0) | None => 0 end) by (destruct y; [apply product_abs_pos|lra]).
  destruct (dot_ok _ _ _ (product_abs (combine (nth i (W g) []) x)) D1 f1 (vector_finite _ _ _ Hx)) as (Fd & Ed); [rewrite C1; exact Nk|lra..|]. rewrite C1 in Ed.
  set (v := nth i (mul_rows d dot [0%nat; j; t] 0 (W g) x) fzero) in *. set (b := nth i (Bias g) fzero) in *. unfold net_input, net_size, net_error. fold b. set (p1 := product_abs (combine (nth i (W g) []) x)) in *. set (q1 := product (combine (nth i (W g) []) x)) in *.
  assert (Q1 : Rabs q1 <= p1) by apply product_le. rewrite plus_INR. set (K := INR k) in *. set (N := INR n) in *. set (h := half_tiny d) in *. set (U2 := u d) in *. set (sf := safe d) in *.
  assert (A1 : 0 <= K * U2 * p1 <= / 8 * p1) by (split; [apply Rmult_le_pos; [apply Rmult_le_pos; lra|lra]|apply Rmult_le_compat_r; lra]).
  assert (V : Rabs (real v) <= 8 / 7 * p1 + 8 / 7 * (K * h)) by (pose proof (rabs_near _ _ _ Ed); lra).
  destruct (@add_op d v b (4 * sf) Fd Fb R4) as (Fs & Bs & Es). { eapply Rle_trans; [apply Rabs_triang|]. lra. }
  fold U2 in Es. set (s := fadd v b) in *. pose proof (Rabs_triang (real v) (real b)) as Tb.
  assert (E1 : Rabs (real s - (q1 + real b)) <= 8 / 7 * (K * U2 * p1) + 8 / 7 * (K * h) + U2 * (8 / 7 * p1 + 8 / 7 * (K * h) + Rabs (real b))).
  { assert (X : Rabs ((real v + real b) - (q1 + real b)) <= 8 / 7 * (K * U2 * p1) + 8 / 7 * (K * h)) by (replace (real v + real b - (q1 + real b)) with (real v - q1) by ring; exact Ed).
    assert (Z : U2 * Rabs (real v + real b) <= U2 * (8 / 7 * p1 + 8 / 7 * (K * h) + Rabs (real b))) by (apply Rmult_le_compat_l; lra). pose proof (rabs_tri _ _ _ _ _ Es X). lra. }
  assert (UK : 0 <= U2 * (K * h) <= / 1000 * (K * h)) by (split; [apply Rmult_le_pos; lra|apply Rmult_le_compat_r; lra]).
  assert (Up : 0 <= U2 * p1 <= / 1000 * p1) by (split; [apply Rmult_le_pos; lra|apply Rmult_le_compat_r; lra]).
  assert (Ub : 0 <= U2 * Rabs (real b) <= / 1000 * Rabs (real b)) by (split; [apply Rmult_le_pos; lra|apply Rmult_le_compat_r; lra]).
  unfold a, affine. destruct y as [y|].
  - pose proof (mul_rows_nth [1%nat; j; t] (WRec g) y 0 i ltac:(lia)) as D2.
    assert (C2 : length (combine (nth i (WRec g) []) y) = n) by (rewrite combine_length, l2, (proj1 Hy); lia).
    rewrite nth_zip by (rewrite ?mul_rows_length; lia). rewrite Nz.
    destruct (dot_ok _ _ _ (product_abs (combine (nth i (WRec g) []) y)) D2 f2 (vector_finite _ _ _ Hy)) as (Fe & Ee); [rewrite C2; exact Nn|apply Rle_refl|fold sf; lra|]. rewrite C2 in Ee. fold U2 h N in Ee.
    set (w := nth i (mul_rows d dot [1%nat; j; t] 0 (WRec g) y) fzero) in *. set (p2 := product_abs (combine (nth i (WRec g) []) y)) in *. set (q2 := product (combine (nth i (WRec g) []) y)) in *.
    assert (Q2 : Rabs q2 <= p2) by apply product_le.
    assert (A2 : 0 <= N * U2 * p2 <= / 8 * p2) by (split; [apply Rmult_le_pos; [apply Rmult_le_pos; lra|lra]|apply Rmult_le_compat_r; lra]).
    assert (Vw : Rabs (real w) <= 8 / 7 * p2 + 8 / 7 * (N * h)) by (pose proof (rabs_near _ _ _ Ee); lra).
    assert (Vs : Rabs (real s) <= 1.3 * (p1 + Rabs (real b)) + 1.3 * (K * h)). { pose proof (rabs_near _ _ _ E1). pose proof (Rabs_triang q1 (real b)). lra. }
    destruct (@add_op d s w (4 * sf) Fs Fe R4) as (Fr & Br & Er). { eapply Rle_trans; [apply Rabs_triang|]. lra. }
    fold U2 in Er. split; [exact Fr|].
    assert (X : Rabs ((real s + real w) - (q1 + real b + q2)) <= 8 / 7 * (K * U2 * p1) + 8 / 7 * (K * h) + U2 * (8 / 7 * p1 + 8 / 7 * (K * h) + Rabs (real b)) + (8 / 7 * (N * U2 * p2) + 8 / 7 * (N * h))).
    { replace (real s + real w - (q1 + real b + q2)) with ((real s - (q1 + real b)) + (real w - q2)) by ring. eapply Rle_trans; [apply Rabs_triang|]. lra. }
    assert (Z : U2 * Rabs (real s + real w) <= U2 * (1.3 * (p1 + Rabs (real b) + p2) + 1.3 * (K * h) + 1.3 * (N * h))) by (apply Rmult_le_compat_l; [lra|]; pose proof (Rabs_triang (real s) (real w)); lra).
    assert (UN : 0 <= U2 * (N * h) <= / 1000 * (N * h)) by (split; [apply Rmult_le_pos; lra|apply Rmult_le_compat_r; lra]).
    assert (Up2 : 0 <= U2 * p2 <= / 1000 * p2) by (split; [apply Rmult_le_pos; lra|apply Rmult_le_compat_r; lra]).
    assert (M1 : 0 <= K * U2 * p2) by (apply Rmult_le_pos; [apply Rmult_le_pos; lra|lra]). assert (M2 : 0 <= K * U2 * Rabs (real b)) by (apply Rmult_le_pos; [apply Rmult_le_pos; lra|lra]).
    assert (M3 : 0 <= N * U2 * p1) by (apply Rmult_le_pos; [apply Rmult_le_pos; lra|lra]). assert (M4 : 0 <= N * U2 * Rabs (real b)) by (apply Rmult_le_pos; [apply Rmult_le_pos; lra|lra]).
    pose proof (rabs_tri _ _ _ _ _ Er X) as F. eapply Rle_trans; [exact F|].
    replace ((2 * (K + N) + 3) * U2 * (p1 + Rabs (real b) + p2) + 3 * (K + N) * h) with (2 * (K * U2 * p1) + 2 * (K * U2 * Rabs (real b)) + 2 * (K * U2 * p2) + 2 * (N * U2 * p1) + 2 * (N * U2 * Rabs (real b)) + 2 * (N * U2 * p2) + 3 * (U2 * p1) + 3 * (U2 * Rabs (real b)) + 3 * (U2 * p2) + 3 * (K * h) + 3 * (N * h)) by ring. lra.
  - rewrite Nz. fold s. split; [exact Fs|]. rewrite !Rplus_0_r. eapply Rle_trans; [exact E1|].
    assert (M2 : 0 <= K * U2 * Rabs (real b)) by (apply Rmult_le_pos; [apply Rmult_le_pos; lra|lra]).
    assert (M3 : 0 <= N * U2 * p1) by (apply Rmult_le_pos; [apply Rmult_le_pos; lra|lra]). assert (M4 : 0 <= N * U2 * Rabs (real b)) by (apply Rmult_le_pos; [apply Rmult_le_pos; lra|lra]).
    replace ((2 * (K + N) + 3) * U2 * (p1 + Rabs (real b)) + 3 * (K + N) * h) with (2 * (K * U2 * p1) + 2 * (K * U2 * Rabs (real b)) + 2 * (N * U2 * p1) + 2 * (N * U2 * Rabs (real b)) + 3 * (U2 * p1) + 3 * (U2 * Rabs (real b)) + 3 * (K * h) + 3 * (N * h)) by ring. lra.
Qed.
Lemma affine_finite t j x y : vector_in k B x -> before y -> Forall finite (affine d dot t j g x y).
Proof.
  intros Hx Hy. apply Forall_forall. intros e He. apply (In_nth _ _ fzero) in He. destruct He as (i & Hi & <-). rewrite affine_length in Hi by exact Hy. exact (proj1 (affine_nth t j x y i Hx Hy Hi)).
Qed.

(** *** Sigmoid and Tanh of it *)
Variable m : libm.
Hypothesis G : go_math m.
Lemma sigmoid_gate c t j x y : vector_in k B x -> before y ->
  let v := sigmoid d (vector_exp m d c) (affine d dot t j g x y) in
  length v = n /\ forall i, (i < n)%nat -> finite (nth i v fzero) /\ 0 <= at_ v i <= 1 /\ Rabs (at_ v i - sigma (net_input g x y i)) <= sigma_error d k n (net_size g x y i).
Proof.
  intros Hx Hy v. pose proof (affine_finite t j x y Hx Hy) as F. pose proof (affine_length t j x y Hy) as L.
  destruct (sigmoid_values m d c _ _ G F (vector_exp_ok m d c _)) as (Lv & H). fold (sigmoid d (vector_exp m d c) (affine d dot t j g x y)) in Lv, H. fold v in Lv, H. rewrite L in Lv. split; [exact Lv|]. intros i Hi.
  destruct (affine_nth t j x y i Hx Hy Hi) as (_ & E).
  assert (N : forall (a b : vec) P, Forall2 P a b -> forall i, (i < length a)%nat -> P (nth i a fzero) (nth i b fzero)). { clear. intros a b P H. induction H as [|p q a b Hp H IH]; intros i Hi; cbn in Hi; [lia|]. destruct i; cbn; [exact Hp|apply IH; lia]. }
  destruct (N _ _ _ H i ltac:(lia)) as (F1 & F2 & F3). split; [exact F1|]. split; [exact F2|]. unfold sigma_error.
  set (a := nth i (affine d dot t j g x y) fzero) in *. change (sigmoid_of a) with (sigma (real a)) in F3. pose proof (sigma_lipschitz (real a) (net_input g x y i)) as Lp.
  assert (S1 : 0 <= sigma (real a) <= 1). { unfold sigma. pose proof (exp_pos (- real a)). split; [left; apply Rinv_0_lt_compat; lra|]. rewrite <- Rinv_1. apply Rinv_le_contravar; lra. }
  pose proof (sigm_rel_pos d) as R0. assert (sigm_rel d * sigma (real a) <= sigm_rel d * 1) by (apply Rmult_le_compat_l; lra).
  eapply Rle_trans; [apply (rabs_tri _ (sigma (real a)) _ _ _ F3 Lp)|]. lra.
Qed.
Lemma tanh_elem (v : val d) : finite v -> let e := conv F64 d (go_tanh m (conv d F64 v)) in finite e /\ Rabs (real e) <= 1 /\ (tanh_accurate m -> Rabs (real e - tanh (real v)) <= 10 * u d).
Proof.
  intros Fv e. destruct (conv_up d v Fv) as (Fu & Vu). destruct (tanh_range m G (conv d F64 v)) as (Ft & Bt). { unfold finite in Fu. destruct (conv d F64 v); cbn in *; auto; discriminate. }
  destruct (conv_error d (Tanh m (conv d F64 v)) (-1) 1 Ft) as (A & C & E); [apply rep_opp, rep_1|apply rep_1|apply Rabs_le_inv, Bt|]. fold e in A, C, E. split; [exact A|]. split; [apply Rabs_le; exact C|].
  intros T. unfold e, go_tanh. specialize (T _ Fu). rewrite Vu in T. pose proof (rabs_tri _ _ _ _ _ E T) as F. pose proof (fifty d). pose proof (tiny_u d). pose proof (u_pos d). assert (u d * Rabs (real (Tanh m (conv d F64 v))) <= u d * 1) by (apply Rmult_le_compat_l; lra). lra.
Qed.
Lemma tanh_op_ok (x : vec) : Forall finite x -> vector_in (length x) 1 (tanh_op m d x) /\ (tanh_accurate m -> forall i, (i < length x)%nat -> Rabs (at_ (tanh_op m d x) i - tanh (at_ x i)) <= 10 * u d).
Proof.
  intros F. split; [split; [apply map_length|]; apply Forall_forall; intros e He; apply in_map_iff in He; destruct He as (v & <- & Hv); rewrite Forall_forall in F; destruct (tanh_elem v (F v Hv)) as (A & C & _); split; assumption|].
  intros T i Hi. unfold tanh_op. rewrite (nth_indep _ fzero (conv F64 d (go_tanh m (conv d F64 fzero)))) by (rewrite map_length; exact Hi). rewrite (map_nth (fun v => conv F64 d (go_tanh m (conv d F64 v)))). apply tanh_elem; [|exact T]. rewrite Forall_forall in F. apply F, nth_In, Hi.
Qed.
Lemma tanh_gate t j x y : vector_in k B x -> before y ->
  let v := tanh_op m d (affine d dot t j g x y) in vector_in n 1 v /\ (tanh_accurate m -> forall i, (i < n)%nat -> Rabs (at_ v i - tanh (net_input g x y i)) <= tanh_error d k n (net_size g x y i)).
Proof.
  intros Hx Hy v. pose proof (affine_finite t j x y Hx Hy) as F. pose proof (affine_length t j x y Hy) as L. destruct (tanh_op_ok _ F) as (A & C). rewrite L in A, C. fold v in A, C. split; [exact A|].
  intros T i Hi. destruct (affine_nth t j x y i Hx Hy Hi) as (_ & E). unfold tanh_error. apply (rabs_tri _ _ _ _ _ (C T i Hi)). eapply Rle_trans; [apply GradGelu.tanh_lipschitz|]. exact E.
Qed.
End Gate.
