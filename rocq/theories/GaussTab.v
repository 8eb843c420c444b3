(** * The tables of NormFloat64 against the bell curve *)
From Coq Require Import List ZArith Reals Lia Lra Bool.
From Flocq Require Import Core BinarySingleNaN.
From Coquelicot Require Import Coquelicot.
From Verif Require Import RandModel FloatModel NumModel NumSpec GaussTables GaussModel GaussSpec.
Import ListNotations.
Open Scope R_scope.

(** ** Bounds of exp by repeated squaring *)
Definition one64 : Z := 2 ^ 64.
Fixpoint squares (n : nat) (l : Z) : Z := match n with O => l | S n => squares n (l * l / one64)%Z end.
Lemma one64_pos : 0 < IZR one64. Proof. now apply IZR_lt. Qed.
Lemma div_le a b : (0 < b)%Z -> IZR (a / b) <= IZR a / IZR b.
Proof.
  intros Hb. assert (0 < IZR b) by now apply IZR_lt. apply (Rmult_le_reg_r (IZR b)); [assumption|]. field_simplify; [|lra].
  rewrite <- mult_IZR. apply IZR_le. rewrite Z.mul_comm. now apply Z.mul_div_le.
Qed.
Lemma squares_le n : forall l y, (0 <= l)%Z -> IZR l / IZR one64 <= y -> IZR (squares n l) / IZR one64 <= y ^ (2 ^ n).
Proof.
  induction n as [|n IH]; intros l y Hl H; [cbn [squares]; change (2 ^ 0)%nat with 1%nat; rewrite pow_1; exact H|].
  change (squares (S n) l) with (squares n (l * l / one64)%Z). replace (2 ^ S n)%nat with (2 * 2 ^ n)%nat by (cbn; lia).
  rewrite pow_mult. pose proof one64_pos as Hu.
  assert (P : 0 <= IZR l / IZR one64) by (apply Rmult_le_pos; [now apply IZR_le|left; now apply Rinv_0_lt_compat]).
  apply IH; [apply Z.div_pos; [apply Z.mul_nonneg_nonneg; lia|reflexivity]|].
  apply Rle_trans with ((IZR l / IZR one64) * (IZR l / IZR one64)).
  - apply Rle_trans with ((IZR (l * l) / IZR one64) / IZR one64).
    + apply Rmult_le_compat_r; [left; now apply Rinv_0_lt_compat|]. now apply div_le.
    + rewrite mult_IZR. right. field. lra.
  - replace (y ^ 2) with (y * y) by ring. apply Rmult_le_compat; assumption.
Qed.
Lemma pow2_pos n : 0 < 2 ^ n. Proof. apply pow_lt. lra. Qed.
Lemma INR_pow2 n : INR (2 ^ n) = 2 ^ n. Proof. rewrite pow_INR. reflexivity. Qed.
Lemma exp_power t n : exp t = exp (t / 2 ^ n) ^ (2 ^ n).
Proof.
  assert (G : forall k s, exp s ^ k = exp (INR k * s)).
  { induction k as [|k IH]; intros s; [cbn [pow]; replace (INR 0 * s) with 0 by (cbn; ring); symmetry; apply exp_0|].
    cbn [pow]. rewrite IH, <- exp_plus. f_equal. rewrite S_INR. ring. }
  rewrite G, INR_pow2. f_equal. field. pose proof (pow2_pos n). lra.
Qed.
Lemma from_zero (g g' : R -> R) t : (forall x : R, is_derive g x (g' x)) -> g 0 = 0 -> exists c, Rmin 0 t <= c <= Rmax 0 t /\ g t = g' c * t.
Proof.
  intros H H0. destruct (MVT_gen g 0 t g') as (c & Hc & E).
  - intros x _. apply H.
  - intros x _. apply continuity_pt_filterlim, (ex_derive_continuous g x). now exists (g' x).
  - exists c. split; [exact Hc|]. rewrite H0 in E. lra.
Qed.
Lemma exp_ge_2 t : (0 <= t -> 1 + t + t * t / 2 <= exp t) /\ (t <= 0 -> exp t <= 1 + t + t * t / 2).
Proof.
  destruct (from_zero (fun x => exp x - (1 + x + x * x / 2)) (fun x => exp x - (1 + x)) t) as (c & _ & E).
  - intros x. auto_derive; [trivial|]. field.
  - rewrite exp_0. lra.
  - pose proof (exp_ineq1_le c) as Hc. assert (0 <= exp c - (1 + c)) as Hp by lra.
    split; intros Ht; [pose proof (Rmult_le_pos _ _ Hp Ht)|pose proof (Rmult_le_pos _ (- t) Hp ltac:(lra))]; lra.
Qed.
Lemma exp_ge_3 t : 1 + t + t * t / 2 + t * t * t / 6 <= exp t.
Proof.
  destruct (from_zero (fun x => exp x - (1 + x + x * x / 2 + x * x * x / 6)) (fun x => exp x - (1 + x + x * x / 2)) t) as (c & Hc & E).
  - intros x. auto_derive; [trivial|]. field.
  - rewrite exp_0. lra.
  - destruct (exp_ge_2 c) as (H1 & H2). destruct (Rle_lt_dec 0 t) as [Ht|Ht].
    + rewrite Rmin_left in Hc by lra. specialize (H1 ltac:(lra)).
      assert (0 <= exp c - (1 + c + c * c / 2)) as Hp by lra. pose proof (Rmult_le_pos _ _ Hp Ht). lra.
    + rewrite Rmax_left in Hc by lra. specialize (H2 ltac:(lra)).
      assert (0 <= - (exp c - (1 + c + c * c / 2))) as Hp by lra. pose proof (Rmult_le_pos _ (- t) Hp ltac:(lra)). lra.
Qed.
(** exp (n / D * 2^10) from below *)
Definition start (n D : Z) : Z := (one64 * (6 * D * D * D + 6 * n * D * D + 3 * n * n * D + n * n * n) / (6 * D * D * D))%Z.
Definition low (n D : Z) : Z := squares 10 (start n D).
Lemma low_le n D : (0 < D)%Z -> (0 <=? start n D)%Z = true -> IZR (low n D) / IZR one64 <= exp (IZR n / IZR D * 2 ^ 10).
Proof.
  intros HD Hl. apply Z.leb_le in Hl. assert (0 < IZR D) as RD by now apply IZR_lt. pose proof one64_pos as Hu.
  rewrite (exp_power _ 10). apply squares_le; [assumption|].
  replace (IZR n / IZR D * 2 ^ 10 / 2 ^ 10) with (IZR n / IZR D) by (field; lra).
  eapply Rle_trans; [|apply exp_ge_3]. unfold start.
  assert (0 < 6 * D * D * D)%Z as P by (rewrite <- !Z.mul_assoc; repeat apply Z.mul_pos_pos; lia).
  eapply Rle_trans; [apply Rmult_le_compat_r; [left; now apply Rinv_0_lt_compat|now apply div_le]|].
  rewrite !mult_IZR, !plus_IZR, !mult_IZR. right. set (o := IZR one64) in *. clearbody o. field. lra.
Qed.

(** ** The tables as integers *)
Definition scaled (d : dtype) (k : Z) (v : val d) : Z :=
  match B2SF v with SpecFloat.S754_finite false m e => (Zpos m * 2 ^ (e + k))%Z | _ => 0%Z end.
Definition fits (d : dtype) (k : Z) (v : val d) : bool :=
  match B2SF v with SpecFloat.S754_finite false m e => (0 <=? e + k)%Z | _ => false end.
Lemma scaled_real d k v : (0 <= k)%Z -> fits d k v = true -> finite v /\ real v = IZR (scaled d k v) / 2 ^ Z.to_nat k.
Proof.
  intros Hk H. unfold fits, scaled in *. destruct v as [s|s| |s m e B]; cbn [B2SF] in *; try discriminate. destruct s; [discriminate|].
  apply Z.leb_le in H. split; [reflexivity|]. unfold real. cbn [B2R]. unfold F2R. cbn [Fnum Fexp SpecFloat.cond_Zopp].
  assert (E : bpow radix2 e = IZR (2 ^ (e + k)) / 2 ^ Z.to_nat k).
  { replace (2 ^ Z.to_nat k) with (bpow radix2 k).
    - change 2%Z with (radix_val radix2) at 1. rewrite (IZR_Zpower radix2) by lia. rewrite bpow_plus. field. pose proof (bpow_gt_0 radix2 k). lra.
    - rewrite <- (Z2Nat.id k) at 1 by assumption. rewrite <- IZR_Zpower by lia. rewrite pow_IZR. reflexivity. }
  rewrite mult_IZR, E. unfold Rdiv. ring.
Qed.

Definition w60 : list Z := Eval vm_compute in map (scaled F32 60) wn.
Definition f40 : list Z := Eval vm_compute in map (scaled F32 40) fn.
Lemma tables_fit : forallb (fits F32 60) wn = true /\ forallb (fits F32 40) fn = true /\ map (scaled F32 60) wn = w60 /\ map (scaled F32 40) fn = f40.
Proof. vm_compute. repeat split. Qed.
Lemma lengths : length wn = 128%nat /\ length fn = 128%nat /\ length kn = 128%nat.
Proof. unfold wn, fn, kn. rewrite !map_length. repeat split. Qed.
Lemma nth_scaled k (l : list (val F32)) i : (0 <= k)%Z -> forallb (fits F32 k) l = true -> (i < length l)%nat ->
  finite (nth i l fzero) /\ real (nth i l fzero) = IZR (nth i (map (scaled F32 k) l) 0%Z) / 2 ^ Z.to_nat k.
Proof.
  intros Hk H Hi. rewrite forallb_forall in H. specialize (H _ (nth_In l fzero Hi)).
  rewrite (nth_indep _ 0%Z (scaled F32 k fzero)) by now rewrite map_length. rewrite map_nth. now apply scaled_real.
Qed.
Lemma w_real i : (i < 128)%nat -> finite (nth i wn fzero) /\ real (nth i wn fzero) = IZR (nth i w60 0%Z) / 2 ^ 60.
Proof.
  intros Hi. destruct tables_fit as (A & _ & B & _). rewrite <- B. change 60%nat with (Z.to_nat 60).
  apply nth_scaled; [lia|exact A|]. destruct lengths as (-> & _). exact Hi.
Qed.
Lemma f_real i : (i < 128)%nat -> finite (nth i fn fzero) /\ real (nth i fn fzero) = IZR (nth i f40 0%Z) / 2 ^ 40.
Proof.
  intros Hi. destruct tables_fit as (_ & A & _ & B). rewrite <- B. change 40%nat with (Z.to_nat 40).
  apply nth_scaled; [lia|exact A|]. destruct lengths as (_ & -> & _). exact Hi.
Qed.

(** ** The checks *)
Definition area_num : Z := 99125630.
Definition area_den : Z := 10 ^ 10.
(** X * (F' - F) is the common area up to 2^-17 of it *)
Definition area_ok (w df : Z) : bool := (Z.abs (area_num * 2 ^ 69 - area_den * (w * df)) * 2 ^ 17 <=? area_num * 2 ^ 69)%Z.
(** the curve at the edge of the strip is not above its lower level, up to 2^-21 *)
Definition edge_ok (w f : Z) : bool :=
  (one64 * 2 ^ 61 <=? f * (2 ^ 21 + 1) * low (w * w) (2 ^ 69))%Z.
(** the curve at the end of what is accepted without a test is not below the upper level, up to 2^-21 *)
Definition inner_ok (w k f' : Z) : bool :=
  ((0 <=? start (- (k * k * (w * w))) (2 ^ 131)) && (f' * (2 ^ 21 - 1) * one64 <=? low (- (k * k * (w * w))) (2 ^ 131) * 2 ^ 61))%Z.
Definition strip_ok (i : nat) : bool :=
  let w := nth i w60 0%Z in let f := nth i f40 0%Z in let f' := nth (i - 1) f40 0%Z in let k := nth i kn 0%Z in
  ((0 <? w) && (0 <? f) && (f <? f') && (0 <=? k) && (k <? 2 ^ 31))%Z && area_ok w (f' - f) && edge_ok w f && inner_ok w k f'.
Lemma strips_ok : forallb strip_ok (seq 1 127) = true.
Proof. vm_compute. reflexivity. Qed.
Lemma base_ok : (let w := nth 0 w60 0%Z in (0 <? w)%Z && area_ok w (nth 127 f40 0%Z) && edge_ok (nth 127 w60 0%Z) (nth 127 f40 0%Z)) = true.
Proof. vm_compute. reflexivity. Qed.
