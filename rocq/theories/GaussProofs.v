(** * The strips add up to the bell curve *)
From Coq Require Import List ZArith Reals Lia Lra Bool.
From Verif Require Import RandModel FloatModel NumModel NumSpec GaussTables GaussModel GaussSpec GaussTab GaussReal.
Import ListNotations.
Open Scope R_scope.

Lemma bell_pos x : 0 < bell x. Proof. apply exp_pos. Qed.
Lemma bell_abs x : bell (Rabs x) = bell x.
Proof. unfold bell. do 3 f_equal. rewrite <- Rabs_mult. apply Rabs_right. nra. Qed.
Lemma bell_le x y : Rabs x <= Rabs y -> bell y <= bell x.
Proof.
  intros H. rewrite <- (bell_abs x), <- (bell_abs y). unfold bell. pose proof (Rabs_pos x). set (a := Rabs x) in *. set (b := Rabs y) in *. clearbody a b.
  destruct (Req_dec a b) as [->|N]; [lra|]. left. apply exp_increasing. nra.
Qed.
Lemma bell_1 x : bell x <= 1.
Proof. unfold bell. rewrite <- exp_0. destruct (Req_dec x 0) as [->|N]; [right; f_equal; field|]. left. apply exp_increasing. nra. Qed.

(** the base is below the curve *)
Lemma base_check : (let n := (- (34426 * 34426))%Z in let D := (2 * 10 ^ 8 * 2 ^ 10)%Z in
  (0 <=? start n D) && (nth 127 f40 0 * one64 <=? low n D * 2 ^ 40))%Z = true.
Proof. vm_compute. reflexivity. Qed.
Lemma base_below x : Rabs x <= 3.4426 -> level 127 <= bell x.
Proof.
  intros H. apply Rle_trans with (bell 3.4426); [|apply bell_le; rewrite (Rabs_right 3.4426); lra].
  pose proof base_check as A. cbv zeta in A. apply andb_true_iff in A as (S & A). apply Z.leb_le, IZR_le in A. rewrite !mult_IZR, (powZ 40 40 eq_refl) in A.
  pose proof (low_le _ _ (eq_refl : (0 < 2 * 10 ^ 8 * 2 ^ 10)%Z) S) as L. clear S. rewrite (level_eq 127) by lia.
  unfold bell. replace (- (3.4426 * 3.4426 / 2)) with (IZR (- (34426 * 34426)) / IZR (2 * 10 ^ 8 * 2 ^ 10) * 2 ^ 10)
    by (rewrite opp_IZR, !mult_IZR, (powZ 10 10 eq_refl); change (IZR (10 ^ 8)) with 100000000; cbn [pow]; lra).
  set (E := exp _) in *. set (S := IZR (low _ _)) in *. pose proof one64_pos as O. set (o := IZR one64) in *. set (g := IZR (nth 127 f40 0%Z)) in *. clearbody E S o g.
  assert (S <= E * o) by (apply (Rmult_le_reg_r (/ o)); [now apply Rinv_0_lt_compat|]; replace (E * o * / o) with E by (field; lra); exact L).
  apply (Rmult_le_reg_r (2 ^ 40 * o)); [pose proof (pow2_pos 40); nra|].
  replace (g / 2 ^ 40 * (2 ^ 40 * o)) with (g * o) by field. eapply Rle_trans; [exact A|].
  replace (E * (2 ^ 40 * o)) with (E * o * 2 ^ 40) by ring. apply Rmult_le_compat_r; [left; apply pow2_pos|assumption].
Qed.

(** ** One strip *)
Definition part (b : R) (i : nat) : R := Rmin b (level (i - 1)) - Rmin b (level i).
Ltac mins := unfold Rmin, Rmax in *; repeat match goal with |- context [Rle_dec ?a ?b] => destruct (Rle_dec a b)
                              | H : context [Rle_dec ?a ?b] |- _ => destruct (Rle_dec a b) end.
Lemma part_sum n b : (n < 128)%nat -> sum_f_R0 (fun i => match i with O => 0 | _ => part b i end) n = Rmin b (level 0) - Rmin b (level n).
Proof.
  induction n as [|n IH]; intros Hn; [cbn [sum_f_R0]; ring|]. cbn [sum_f_R0]. rewrite IH by lia. unfold part.
  replace (S n - 1)%nat with n by lia. ring.
Qed.
Lemma ratio_close A e a : 0 < A -> 0 < e -> 0 < a -> Rabs (A - e * a) <= A / 2 ^ 17 -> Rabs (A / e - a) <= a / 2 ^ 16.
Proof.
  intros HA He Ha H. assert (H' : - (A / 2 ^ 17) <= A - e * a <= A / 2 ^ 17) by (apply Rabs_def2 in H || (revert H; unfold Rabs; destruct (Rcase_abs _); intros; lra)).
  assert (0 < e * a) by nra. replace (A / e - a) with ((A - e * a) / e) by (field; lra).
  unfold Rdiv at 1. rewrite Rabs_mult, (Rabs_right (/ e)) by (left; now apply Rinv_0_lt_compat).
  apply (Rmult_le_reg_r e); [assumption|]. rewrite Rmult_assoc, Rinv_l, Rmult_1_r by lra.
  replace (a / 2 ^ 16 * e) with (e * a / 2 ^ 16) by field. apply Rle_trans with (A / 2 ^ 17); [exact H|].
  set (p := e * a) in *. clearbody p. cbn [pow] in *. lra.
Qed.
Lemma strip_close i x : (1 <= i < 128)%nat ->
  0 <= part (bell x) i /\ Rabs (area * (share i x / edge i) - part (bell x) i) <= part (bell x) i / 2 ^ 16 + bell x / 2 ^ 20.
Proof.
  intros Hi. destruct (strip_facts i Hi) as (He & (L1 & L2) & _ & _ & Ha & Hb & Hc).
  pose proof (ratio_close area (edge i) (level (i - 1) - level i) area_pos He ltac:(lra) Ha) as Hr. clear Ha.
  pose proof (bell_pos x) as Bp. unfold part. set (b := bell x) in *.
  set (l := level i) in *. set (l' := level (i - 1)) in *. set (e := edge i) in *.
  assert (Pp : 0 <= Rmin b l' - Rmin b l) by (mins; lra). split; [exact Pp|].
  replace (area * (share i x / e)) with (share i x * (area / e)) by (field; lra).
  set (q := area / e) in *. unfold share. fold e l l' b.
  assert (Hq : - ((l' - l) / 2 ^ 16) <= q - (l' - l) <= (l' - l) / 2 ^ 16) by (revert Hr; clear; unfold Rabs; destruct (Rcase_abs _); intros; lra).
  destruct (Rlt_dec (Rabs x) (inner i)) as [F|F].
  - assert (Hb' : l' * (1 - / 2 ^ 21) <= b).
    { eapply Rle_trans; [exact Hc|]. apply bell_le. eapply Rle_trans; [left; exact F|]. apply Rle_abs. }
    clear - Hq Hb' Bp L1 L2 Pp. clearbody b l l' q. rewrite Rmult_1_l. cbn [pow] in *. apply Rabs_le. mins; lra.
  - replace (Nat.eqb i 0) with false by (symmetry; apply Nat.eqb_neq; lia).
    destruct (Rle_dec e (Rabs x)) as [G|G].
    + assert (Hb' : b <= l * (1 + / 2 ^ 21)).
      { eapply Rle_trans; [|exact Hb]. apply bell_le. rewrite Rabs_right by lra. exact G. }
      clear - Hb' Bp L1 L2 Pp. clearbody b l l'. cbn [pow] in *. apply Rabs_le. mins; lra.
    + clear - Hq Bp L1 L2 Pp. clearbody b l l' q. unfold clamp.
      assert (E : Rmax 0 (Rmin 1 ((b - l) / (l' - l))) * (l' - l) = Rmin b l' - Rmin b l).
      { assert (P : (b - l) / (l' - l) * (l' - l) = b - l) by (field; lra). set (t := (b - l) / (l' - l)) in *.
        destruct (Rle_lt_dec 1 t) as [T|T].
        - rewrite (Rmin_left 1 t) by lra. rewrite Rmax_right by lra. assert (l' - l <= b - l) by (rewrite <- P; rewrite <- (Rmult_1_l (l' - l)) at 1; apply Rmult_le_compat_r; lra).
          rewrite Rmin_right, Rmin_right by lra. lra.
        - rewrite (Rmin_right 1 t) by lra. assert (b - l < l' - l) by (rewrite <- P; rewrite <- (Rmult_1_l (l' - l)) at 2; apply Rmult_lt_compat_r; lra).
          rewrite (Rmin_left b l') by lra. destruct (Rle_lt_dec 0 t) as [T'|T'].
          + rewrite Rmax_right by lra. assert (0 <= b - l) by (rewrite <- P; apply Rmult_le_pos; lra). rewrite Rmin_right by lra. lra.
          + rewrite Rmax_left by lra. assert (b - l <= 0) by (rewrite <- P; assert (0 <= - t * (l' - l)) by (apply Rmult_le_pos; lra); lra). rewrite Rmin_left by lra. lra. }
      set (s := Rmax 0 (Rmin 1 ((b - l) / (l' - l)))) in *. assert (S0 : 0 <= s) by apply Rmax_l. clearbody s.
      set (p := Rmin b l' - Rmin b l) in *. clearbody p.
      assert (M1 : s * (q - (l' - l)) <= s * ((l' - l) / 2 ^ 16)) by (apply Rmult_le_compat_l; [assumption|apply Hq]).
      assert (M2 : s * - ((l' - l) / 2 ^ 16) <= s * (q - (l' - l))) by (apply Rmult_le_compat_l; [assumption|apply Hq]).
      replace (s * ((l' - l) / 2 ^ 16)) with (p / 2 ^ 16) in M1 by (rewrite <- E; field).
      replace (s * - ((l' - l) / 2 ^ 16)) with (- (p / 2 ^ 16)) in M2 by (rewrite <- E; field).
      assert (0 <= b / 2 ^ 20) by (apply Rmult_le_pos; [lra|left; apply Rinv_0_lt_compat, pow2_pos]).
      apply Rabs_le. lra.
Qed.

Lemma density_close n x : (1 <= n <= 128)%nat -> Rabs x <= 3.4426 ->
  Rabs (area * density_upto n x - (level 127 + (1 - Rmin (bell x) (level (n - 1))) - (1 - Rmin (bell x) 1))) <=
  (level 127 + (1 - Rmin (bell x) (level (n - 1))) - (1 - Rmin (bell x) 1)) / 2 ^ 16 + INR n * (bell x / 2 ^ 20).
Proof.
  intros Hn Hx. destruct n as [|n]; [lia|]. replace (S n - 1)%nat with n by lia. induction n as [|n IH].
  - destruct base_facts as (He & Ha & L0 & Hi & _). cbn [density_upto]. unfold share.
    destruct (Rlt_dec (Rabs x) (inner 0)) as [_|N]; [|lra]. rewrite L0.
    assert (P : 0 < level 127) by (apply (strip_facts 127); lia).
    pose proof (ratio_close area (edge 0) (level 127) area_pos He P Ha) as Hr.
    replace (area * (0 + 1 / edge 0)) with (area / edge 0) by (field; lra).
    replace (level 127 + (1 - Rmin (bell x) 1) - (1 - Rmin (bell x) 1)) with (level 127) by ring.
    assert (0 <= INR 1 * (bell x / 2 ^ 20)). { rewrite Rmult_1_l. apply Rmult_le_pos; [left; apply bell_pos|left; apply Rinv_0_lt_compat, pow2_pos]. }
    lra.
  - specialize (IH ltac:(lia)). destruct (strip_close (S n) x ltac:(lia)) as (Pp & Sc). change (density_upto (S (S n)) x) with (density_upto (S n) x + share (S n) x / edge (S n)).
    unfold part in Pp, Sc. replace (S n - 1)%nat with n in Pp, Sc by lia. rewrite (S_INR (S n)).
    set (b := bell x) in *. set (A := density_upto (S n) x) in *. set (B := share (S n) x / edge (S n)) in *.
    set (p := Rmin b (level (S n))) in *. set (q := Rmin b (level n)) in *. set (r := Rmin b 1) in *. set (N := INR (S n)) in *. clearbody A B p q r N b.
    replace (area * (A + B) - (level 127 + (1 - p) - (1 - r))) with ((area * A - (level 127 + (1 - q) - (1 - r))) + (area * B - (q - p))) by ring.
    eapply Rle_trans; [apply Rabs_triang|]. eapply Rle_trans; [apply Rplus_le_compat; [exact IH|exact Sc]|]. right. field.
Qed.

Theorem attempt_density_bell x : Rabs x <= 3.4426 -> Rabs (attempt_density x - bell x / area) <= bell x / area / 2 ^ 12.
Proof.
  intros Hx. pose proof (density_close 128 x ltac:(lia) Hx) as H. unfold attempt_density. replace (128 - 1)%nat with 127%nat in H by reflexivity.
  rewrite (Rmin_right (bell x) (level 127)) in H by now apply base_below. rewrite (Rmin_left (bell x) 1) in H by apply bell_1.
  replace (level 127 + (1 - level 127) - (1 - bell x)) with (bell x) in H by ring.
  replace (INR 128) with 128 in H by (rewrite INR_IZR_INZ; reflexivity).
  set (D := density_upto 128 x) in *. pose proof area_pos as Ap. pose proof (bell_pos x) as Bp. set (b := bell x) in *. clearbody D b.
  replace (D - b / area) with ((area * D - b) / area) by (field; lra). unfold Rdiv at 1. rewrite Rabs_mult, (Rabs_right (/ area)) by (left; now apply Rinv_0_lt_compat).
  apply (Rmult_le_reg_r area); [assumption|]. rewrite Rmult_assoc, Rinv_l, Rmult_1_r by lra.
  replace (b / area / 2 ^ 12 * area) with (b / 2 ^ 12) by (field; lra). eapply Rle_trans; [exact H|]. cbn [pow]. lra.
Qed.
