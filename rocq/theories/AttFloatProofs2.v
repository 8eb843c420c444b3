(** * Attention in floating point: the scores and the weights *)
From Coq Require Import ZArith Bool Lia List Arith Reals Lra Permutation.
From Flocq Require Import Core BinarySingleNaN.
From Verif Require Import AsmModel AsmCalls AsmSpec FloatModel FloatSpec FloatProofs NumModel NumSpec NumLemmas AsmFloatSpec AsmFloat AsmFloat2 SoftSpec SoftProofs SoftFloat SoftFloat2 OptFloatNum NormFloatModel NormFloatSpec NormFloatBack NormFloatBack5 LossFloatModel LossFloatSpec LossFloatProofs LossFloatProofs2 LossFloatProofs4 LossFloatProofs9 RnnFloatModel RnnFloatSpec RnnFloatProofs RnnFloatProofs3 AttFloatModel AttFloatSpec AttFloatProofs.
Import ListNotations.
Local Open Scope list_scope.
Local Open Scope R_scope.

(** ** Sums *)
Lemma fold_app (f : nat -> R) a b : fold_right (fun j s => f j + s) 0 (a ++ b) = fold_right (fun j s => f j + s) 0 a + fold_right (fun j s => f j + s) 0 b.
Proof. induction a as [|x a IH]; cbn [app fold_right]; [lra|]. rewrite IH. lra. Qed.
Lemma sum_to_S n f : sum_to (S n) f = sum_to n f + f n.
Proof. unfold sum_to. rewrite seq_S, fold_app. cbn [fold_right plus]. lra. Qed.
Lemma sum_to_ext n f h : (forall j, (j < n)%nat -> f j = h j) -> sum_to n f = sum_to n h.
Proof. induction n as [|n IH]; intros E; [reflexivity|]. rewrite !sum_to_S, IH by (intros; apply E; lia). rewrite E by lia. reflexivity. Qed.
Lemma sum_to_le n f h : (forall j, (j < n)%nat -> f j <= h j) -> sum_to n f <= sum_to n h.
Proof. induction n as [|n IH]; intros E; [apply Rle_refl|]. rewrite !sum_to_S. apply Rplus_le_compat; [apply IH; intros; apply E; lia|apply E; lia]. Qed.
Lemma sum_to_near n f h e : (forall j, (j < n)%nat -> Rabs (f j - h j) <= e j) -> Rabs (sum_to n f - sum_to n h) <= sum_to n e.
Proof.
  induction n as [|n IH]; intros E; [unfold sum_to; cbn; rewrite Rminus_0_r, Rabs_R0; lra|]. rewrite !sum_to_S.
  replace (sum_to n f + f n - (sum_to n h + h n)) with ((sum_to n f - sum_to n h) + (f n - h n)) by ring. eapply Rle_trans; [apply Rabs_triang|]. apply Rplus_le_compat; [apply IH; intros; apply E; lia|apply E; lia].
Qed.
Lemma sum_to_lin n f a b : sum_to n (fun j => a * f j + b) = a * sum_to n f + INR n * b.
Proof. induction n as [|n IH]; [unfold sum_to; cbn; lra|]. rewrite !sum_to_S, S_INR, IH. lra. Qed.
Lemma sum_to_scal n f a : sum_to n (fun j => a * f j) = a * sum_to n f.
Proof. induction n as [|n IH]; [unfold sum_to; cbn; lra|]. rewrite !sum_to_S, IH. lra. Qed.
Lemma sum_to_pos n f : (0 < n)%nat -> (forall j, (j < n)%nat -> 0 < f j) -> 0 < sum_to n f.
Proof. intros H E. induction n as [|n IH]; [lia|]. rewrite sum_to_S. pose proof (E n ltac:(lia)). destruct n as [|n]; [unfold sum_to; cbn; lra|]. assert (0 < sum_to (S n) f) by (apply IH; [lia|intros; apply E; lia]). lra. Qed.
Lemma sum_to_part n m f : (m <= n)%nat -> (forall j, (m <= j < n)%nat -> f j = 0) -> sum_to n f = sum_to m f.
Proof. intros L E. induction n as [|n IH]; [replace m with O by lia; reflexivity|]. destruct (Nat.eq_dec m (S n)) as [->|N]; [reflexivity|]. rewrite sum_to_S, E, IH by (try lia; intros; apply E; lia). lra. Qed.
Lemma sum_to_shift n f : sum_to (S n) f = f 0%nat + sum_to n (fun j => f (S j)).
Proof. induction n as [|n IH]; [unfold sum_to; cbn; lra|]. rewrite sum_to_S, IH, sum_to_S. lra. Qed.
Lemma fold_sum {A} (z : A) (f : A -> R) l : fold_right (fun x s => f x + s) 0 l = sum_to (length l) (fun j => f (nth j l z)).
Proof. induction l as [|x l IH]; [reflexivity|]. cbn [length]. rewrite sum_to_shift. cbn [fold_right nth]. now rewrite IH. Qed.
Lemma Forall2_nth {A B} (P : A -> B -> Prop) a b l k : Forall2 P l k -> length k = length l /\ forall j, (j < length l)%nat -> P (nth j l a) (nth j k b).
Proof. induction 1 as [|x y l k H F (L & IH)]; [split; [reflexivity|cbn; intros; lia]|]. cbn [length]. split; [now rewrite L|]. intros [|j] Hj; cbn [nth]; [exact H|apply IH; lia]. Qed.

(** ** Shares *)
Lemma share_sum f n : (0 < n)%nat -> sum_to n (share f n) = 1.
Proof.
  intros H. unfold share, Rdiv. assert (P : 0 < sum_to n (fun l => exp (f l))) by (apply sum_to_pos; [exact H|intros; apply exp_pos]).
  rewrite (sum_to_ext n _ (fun j => / sum_to n (fun l => exp (f l)) * exp (f j))) by (intros; ring). rewrite sum_to_scal. field. lra.
Qed.
Lemma share_pos f n j : (0 < n)%nat -> 0 < share f n j.
Proof. intros H. apply Rdiv_lt_0_compat; [apply exp_pos|apply sum_to_pos; [exact H|intros; apply exp_pos]]. Qed.
Lemma exp_small x : 0 <= x <= / 4 -> exp x <= 1 + 4 / 3 * x.
Proof.
  intros H. assert (E : exp (- x) >= 1 - x). { pose proof (exp_ineq1_le (- x)). lra. }
  rewrite exp_Ropp in E. assert (P : 0 < exp x) by apply exp_pos. assert (L : exp x * (1 - x) <= 1). { apply Rmult_le_reg_r with (/ exp x); [now apply Rinv_0_lt_compat|]. replace (exp x * (1 - x) * / exp x) with (1 - x) by (field; lra). lra. }
  destruct (Rle_or_lt (exp x) (1 + 4 / 3 * x)) as [A|A]; [exact A|]. exfalso. assert (B : (1 + 4 / 3 * x) * (1 - x) < exp x * (1 - x)) by (apply Rmult_lt_compat_r; lra).
  assert (C : 0 <= x * (/ 4 - x)) by (apply Rmult_le_pos; lra). lra.
Qed.
Lemma share_near f h n j a : (j < n)%nat -> 0 <= a <= / 8 -> (forall l, (l < n)%nat -> Rabs (f l - h l) <= a) -> Rabs (share f n j - share h n j) <= 8 / 3 * a * share h n j.
Proof.
  intros Hj Ha E. assert (P : forall f, 0 < sum_to n (fun l => exp (f l))) by (intros; apply sum_to_pos; [lia|intros; apply exp_pos]).
  assert (U : forall f h, (forall l, (l < n)%nat -> Rabs (f l - h l) <= a) -> share f n j <= exp (2 * a) * share h n j).
  { clear f h E. intros f h E. unfold share. assert (A : exp (f j) <= exp a * exp (h j)). { rewrite <- exp_plus. specialize (E j Hj). apply Rabs_le_inv in E. destruct (Req_dec (f j) (a + h j)) as [->|N]; [apply Rle_refl|]. left. apply exp_increasing. lra. }
    assert (B : sum_to n (fun l => exp (h l)) <= exp a * sum_to n (fun l => exp (f l))).
    { rewrite <- sum_to_scal. apply sum_to_le. intros l Hl. rewrite <- exp_plus. specialize (E l Hl). apply Rabs_le_inv in E. destruct (Req_dec (h l) (a + f l)) as [->|N]; [apply Rle_refl|]. left. apply exp_increasing. lra. }
    replace (2 * a) with (a + a) by ring. rewrite exp_plus. pose proof (P f) as Pf. pose proof (P h) as Ph. pose proof (exp_pos a). pose proof (exp_pos (h j)).
    apply Rle_trans with (exp a * exp (h j) / sum_to n (fun l => exp (f l))); [apply Rmult_le_compat_r; [left; now apply Rinv_0_lt_compat|exact A]|].
    replace (exp a * exp a * (exp (h j) / sum_to n (fun l => exp (h l)))) with (exp a * exp (h j) * (exp a * / sum_to n (fun l => exp (h l)))) by (field; lra). apply Rmult_le_compat_l; [apply Rmult_le_pos; lra|].
    apply Rmult_le_reg_r with (sum_to n (fun l => exp (h l))); [exact Ph|]. rewrite Rmult_assoc, Rinv_l, Rmult_1_r by lra. apply Rmult_le_reg_l with (sum_to n (fun l => exp (f l))); [exact Pf|]. rewrite <- Rmult_assoc, Rinv_r, Rmult_1_l by lra. lra. }
  pose proof (U f h E) as U1. pose proof (U h f ltac:(intros; rewrite <- Rabs_Ropp, Ropp_minus_distr; now apply E)) as U2. pose proof (exp_small (2 * a) ltac:(lra)) as X. pose proof (share_pos f n j ltac:(lia)) as Sf. pose proof (share_pos h n j ltac:(lia)) as Sh.
  set (x := share f n j) in *. set (y := share h n j) in *. clearbody x y. assert (V1 : x <= (1 + 4 / 3 * (2 * a)) * y) by (eapply Rle_trans; [exact U1|apply Rmult_le_compat_r; lra]).
  assert (V2 : exp (- (2 * a)) * y <= x). { rewrite exp_Ropp. apply Rmult_le_reg_l with (exp (2 * a)); [apply exp_pos|]. rewrite <- Rmult_assoc, Rinv_r, Rmult_1_l by (pose proof (exp_pos (2 * a)); lra). exact U2. }
  pose proof (exp_ineq1_le (- (2 * a))) as V3. assert (V4 : (1 - 2 * a) * y <= x) by (eapply Rle_trans; [apply Rmult_le_compat_r; [lra|]|exact V2]; lra).
  assert (0 <= a * y) by (apply Rmult_le_pos; lra). apply Rabs_le. lra.
Qed.

Section Scores.
Variable d : dtype.
Notation vec := (list (val d)).
Variable dot : list nat -> list (val d * val d) -> val d.
Hypothesis D : dots_all dot.
Variables (a b n : nat) (B V : R) (q k v : list vec) (scale : val F64).
Hypothesis Q : good_inputs a b n B V q k v scale.
Notation sg := (real (conv F64 d scale)).

Lemma score_ok t i j : (i < length q)%nat -> (j < n)%nat -> let s := fmul (nth j (mul_rows d dot t 0 k (nth i q [])) fzero) (conv F64 d scale) in
  finite s /\ Rabs (real s - score k scale (nth i q []) j) <= score_error (d := d) a B scale.
Proof.
  intros Hi Hj s. destruct (in_keys _ _ _ _ _ _ _ _ _ Q) as (Lk & Fk). pose proof (in_queries _ _ _ _ _ _ _ _ _ Q) as Fq. destruct (in_scale _ _ _ _ _ _ _ _ _ Q) as (Fs & Ss). destruct (in_range _ _ _ _ _ _ _ _ _ Q) as ((B0 & B1) & B2 & _). destruct (in_count _ _ _ _ _ _ _ _ _ Q) as (_ & _ & Na).
  assert (Ik : In (nth j k []) k) by (apply nth_In; lia). assert (Iq : In (nth i q []) q) by (now apply nth_In).
  rewrite Forall_forall in Fk, Fq. destruct (Fk _ Ik) as (l1 & f1). destruct (Fq _ Iq) as (l2 & f2).
  pose proof (in_scores _ _ _ _ _ _ _ _ _ Q _ _ Ik Iq) as PB. pose proof (mul_rows_nth d dot D t k (nth i q []) 0 j ltac:(lia)) as D1.
  assert (C1 : length (combine (nth j k []) (nth i q [])) = a) by (rewrite combine_length; lia).
  destruct (dot_ok d _ _ _ B D1 f1 f2) as (Fx & Ex); [now rewrite C1|exact PB|exact B1|]. rewrite C1 in Ex. unfold s. set (x := nth j (mul_rows d dot t 0 k (nth i q [])) fzero) in *. clear s. clearbody x.
  unfold score, score_error. set (P := product (combine (nth j k []) (nth i q []))) in *. set (PA := product_abs (combine (nth j k []) (nth i q []))) in *.
  assert (HP : Rabs P <= B) by (eapply Rle_trans; [apply product_le|exact PB]).
  assert (U : 0 < u d <= / 100) by (pose proof (u_small d) as (X1 & X2); pose proof (inv_small 24 ltac:(lia)); lra). pose proof (half_tiny_pos d) as T. pose proof (proj1 (tiny_u d)) as TU. pose proof (pos_INR a) as I0. pose proof (Rabs_pos sg) as S0. pose proof (safe_1 d) as S1. pose proof (safe_largest d) as SL.
  assert (AT : 0 <= INR a * half_tiny d <= / 8). { split; [apply Rmult_le_pos; lra|]. apply Rle_trans with (INR a * u d); [apply Rmult_le_compat_l; lra|exact Na]. }
  assert (AU : 0 <= INR a * u d) by (apply Rmult_le_pos; lra).
  assert (AB : 0 <= INR a * u d * B <= / 8 * B) by (split; [apply Rmult_le_pos; lra|apply Rmult_le_compat_r; lra]).
  assert (Hx : Rabs (real x) <= B + (8 / 7 * (INR a * u d * B) + 8 / 7 * (INR a * half_tiny d))) by (pose proof (rabs_near _ _ _ Ex); lra).
  assert (Hp : Rabs (real x * sg) <= Rabs sg * (B + (8 / 7 * (INR a * u d * B) + 8 / 7 * (INR a * half_tiny d)))) by (rewrite Rabs_mult, Rmult_comm; apply Rmult_le_compat_l; lra).
  assert (SB : Rabs sg * (8 / 7 * (INR a * u d * B)) <= / 7 * safe d). { apply Rle_trans with (/ 7 * (Rabs sg * B)); [|lra]. replace (/ 7 * (Rabs sg * B)) with (Rabs sg * (/ 7 * B)) by ring. apply Rmult_le_compat_l; lra. }
  assert (ST : Rabs sg * (8 / 7 * (INR a * half_tiny d)) <= safe d * / 7) by (apply Rmult_le_compat; lra).
  destruct (mul_op x (conv F64 d scale) (4 * safe d) Fx Fs (proj1 (safe_ok d 0 ltac:(lra)))) as (Fm & _ & Em); [rewrite !Rmult_plus_distr_l in Hp; lra|]. unfold near_to in Em. split; [exact Fm|].
  replace (real (fmul x (conv F64 d scale)) - sg * P) with ((real (fmul x (conv F64 d scale)) - real x * sg) + sg * (real x - P)) by ring. eapply Rle_trans; [apply Rabs_triang|]. rewrite Rabs_mult.
  assert (E1 : Rabs sg * Rabs (real x - P) <= Rabs sg * (8 / 7 * (INR a * u d * B) + 8 / 7 * (INR a * half_tiny d))) by (apply Rmult_le_compat_l; lra).
  assert (E2 : u d * Rabs (real x * sg) <= u d * (Rabs sg * (B + (8 / 7 * (INR a * u d * B) + 8 / 7 * (INR a * half_tiny d))))) by (apply Rmult_le_compat_l; lra).
  set (y := INR a * u d * B) in *. set (w := INR a * half_tiny d) in *. set (sa := Rabs sg) in *.
  assert (E3 : u d * (sa * (8 / 7 * y + 8 / 7 * w)) <= / 100 * (sa * (8 / 7 * y + 8 / 7 * w))) by (apply Rmult_le_compat_r; [apply Rmult_le_pos; lra|lra]).
  assert (Y0 : 0 <= sa * y) by (apply Rmult_le_pos; lra). assert (W0 : 0 <= sa * w) by (apply Rmult_le_pos; lra).
  replace (sa * ((2 * INR a + 1) * u d * B + 2 * INR a * half_tiny d)) with (2 * (sa * y) + u d * (sa * B) + 2 * (sa * w)) by (unfold y, w; ring). lra.
Qed.
End Scores.
