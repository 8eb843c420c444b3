(** * The tables of NormFloat64 against the bell curve, in real numbers *)
From Coq Require Import List ZArith Reals Lia Lra Bool.
From Verif Require Import RandModel FloatModel NumModel NumSpec GaussTables GaussModel GaussSpec GaussTab.
Import ListNotations.
Open Scope R_scope.

Definition area : R := IZR area_num / IZR area_den.
Lemma area_pos : 0 < area. Proof. unfold area, area_num, area_den. apply Rdiv_lt_0_compat; now apply IZR_lt. Qed.
Lemma powZ n z : Z.of_nat n = z -> IZR (2 ^ z) = 2 ^ n. Proof. intros <-. rewrite pow_IZR. f_equal. Qed.
Lemma area_real w df : area_ok w df = true -> Rabs (area - (IZR w / 2 ^ 29) * (IZR df / 2 ^ 40)) <= area / 2 ^ 17.
Proof.
  unfold area_ok. intros H. apply Z.leb_le, IZR_le in H. rewrite mult_IZR, abs_IZR, minus_IZR, !mult_IZR in H.
  rewrite (powZ 69 69 eq_refl), (powZ 17 17 eq_refl) in H. unfold area. set (n := IZR area_num) in *. set (D := IZR area_den) in *.
  assert (0 < D) by (apply IZR_lt; reflexivity). set (a := IZR w) in *. set (b := IZR df) in *. clearbody n D a b.
  replace (n / D - a / 2 ^ 29 * (b / 2 ^ 40)) with ((n * 2 ^ 69 - D * (a * b)) / (D * 2 ^ 69)) by (field; lra).
  unfold Rdiv at 1. rewrite Rabs_mult. rewrite (Rabs_right (/ (D * 2 ^ 69))) by (left; apply Rinv_0_lt_compat; pose proof (pow2_pos 69); nra).
  assert (0 < D * 2 ^ 69) by (pose proof (pow2_pos 69); nra). apply (Rmult_le_reg_r (D * 2 ^ 69 * 2 ^ 17)); [pose proof (pow2_pos 17); nra|].
  replace (Rabs (n * 2 ^ 69 - D * (a * b)) * / (D * 2 ^ 69) * (D * 2 ^ 69 * 2 ^ 17)) with (Rabs (n * 2 ^ 69 - D * (a * b)) * 2 ^ 17) by (field; lra).
  replace (n / D / 2 ^ 17 * (D * 2 ^ 69 * 2 ^ 17)) with (n * 2 ^ 69) by (field; lra). exact H.
Qed.
Lemma edge_real w f : (0 < f)%Z -> edge_ok w f = true -> bell (IZR w / 2 ^ 29) <= IZR f / 2 ^ 40 * (1 + / 2 ^ 21).
Proof.
  unfold edge_ok. intros Hf H. apply IZR_lt in Hf. apply Z.leb_le, IZR_le in H. rewrite !mult_IZR, plus_IZR in H. rewrite (powZ 61 61 eq_refl), (powZ 21 21 eq_refl) in H.
  assert (S : (0 <=? start (w * w) (2 ^ 69))%Z = true).
  { apply Z.leb_le, Z.div_pos; [|reflexivity]. apply Z.mul_nonneg_nonneg; [discriminate|].
    pose proof (Z.square_nonneg w). set (q := (w * w)%Z) in *. clearbody q.
    assert (0 <= q * (2 ^ 69 * 2 ^ 69))%Z by (apply Z.mul_nonneg_nonneg; [assumption|discriminate]).
    assert (0 <= q * q * 2 ^ 69)%Z by (repeat apply Z.mul_nonneg_nonneg; try assumption; discriminate).
    assert (0 <= q * q * q)%Z by (repeat apply Z.mul_nonneg_nonneg; assumption).
    assert (0 < 6 * 2 ^ 69 * 2 ^ 69 * 2 ^ 69)%Z by reflexivity.
    replace (6 * q * 2 ^ 69 * 2 ^ 69)%Z with (6 * (q * (2 ^ 69 * 2 ^ 69)))%Z by ring.
    replace (3 * q * q * 2 ^ 69)%Z with (3 * (q * q * 2 ^ 69))%Z by ring. lia. }
  pose proof (low_le (w * w) (2 ^ 69) eq_refl S) as L. clear S.
  unfold bell. replace (IZR w / 2 ^ 29 * (IZR w / 2 ^ 29) / 2) with (IZR (w * w) / IZR (2 ^ 69) * 2 ^ 10)
    by (rewrite mult_IZR, (powZ 69 69 eq_refl); field).
  rewrite exp_Ropp. set (E := exp (IZR (w * w) / IZR (2 ^ 69) * 2 ^ 10)) in *. assert (0 < E) by apply exp_pos.
  set (S := IZR (low (w * w) (2 ^ 69))) in *. pose proof one64_pos as O. set (o := IZR one64) in *. set (g := IZR f) in *. clearbody E S o g.
  assert (o * 2 ^ 61 <= g * (2 ^ 21 + 1) * (E * o)).
  { assert (S <= E * o) by (apply (Rmult_le_reg_r (/ o)); [now apply Rinv_0_lt_compat|]; replace (E * o * / o) with E by (field; lra); exact L).
    eapply Rle_trans; [exact H|]. apply Rmult_le_compat_l; [pose proof (pow2_pos 21); nra|assumption]. }
  apply (Rmult_le_reg_r (E * 2 ^ 61)); [pose proof (pow2_pos 61); nra|].
  replace (/ E * (E * 2 ^ 61)) with (2 ^ 61) by (field; lra).
  apply (Rmult_le_reg_l o); [assumption|]. eapply Rle_trans; [exact H1|]. right. field.
Qed.

Lemma inner_real w k f' : inner_ok w k f' = true -> IZR f' / 2 ^ 40 * (1 - / 2 ^ 21) <= bell (IZR k * (IZR w / 2 ^ 60)).
Proof.
  unfold inner_ok. intros H. apply andb_true_iff in H as (S & H). apply Z.leb_le, IZR_le in H.
  rewrite !mult_IZR, minus_IZR, (powZ 61 61 eq_refl), (powZ 21 21 eq_refl) in H.
  pose proof (low_le _ (2 ^ 131) eq_refl S) as L. clear S.
  unfold bell. replace (- (IZR k * (IZR w / 2 ^ 60) * (IZR k * (IZR w / 2 ^ 60)) / 2)) with (IZR (- (k * k * (w * w))) / IZR (2 ^ 131) * 2 ^ 10)
    by (rewrite opp_IZR, !mult_IZR, (powZ 131 131 eq_refl); field).
  set (E := exp _) in *. set (S := IZR (low _ _)) in *. pose proof one64_pos as O. set (o := IZR one64) in *. set (g := IZR f') in *. clearbody E S o g.
  assert (S <= E * o) by (apply (Rmult_le_reg_r (/ o)); [now apply Rinv_0_lt_compat|]; replace (E * o * / o) with E by (field; lra); exact L).
  apply (Rmult_le_reg_r (2 ^ 61 * o)); [pose proof (pow2_pos 61); nra|].
  replace (g / 2 ^ 40 * (1 - / 2 ^ 21) * (2 ^ 61 * o)) with (g * (2 ^ 21 - 1) * o) by field.
  eapply Rle_trans; [exact H|]. replace (E * (2 ^ 61 * o)) with (E * o * 2 ^ 61) by ring.
  apply Rmult_le_compat_r; [left; apply pow2_pos|assumption].
Qed.

Lemma edge_eq i : (i < 128)%nat -> edge i = IZR (nth i w60 0%Z) / 2 ^ 29.
Proof. intros Hi. unfold edge. destruct (w_real i Hi) as (_ & ->). field. Qed.
Lemma level_eq i : (i < 128)%nat -> level i = IZR (nth i f40 0%Z) / 2 ^ 40.
Proof. intros Hi. unfold level. apply (f_real i Hi). Qed.
Lemma strip_facts i : (1 <= i < 128)%nat ->
  0 < edge i /\ 0 < level i < level (i - 1) /\ 0 <= inner i < edge i /\ (0 <= nth i kn 0 < 2 ^ 31)%Z /\
  Rabs (area - edge i * (level (i - 1) - level i)) <= area / 2 ^ 17 /\
  bell (edge i) <= level i * (1 + / 2 ^ 21) /\ level (i - 1) * (1 - / 2 ^ 21) <= bell (inner i).
Proof.
  intros Hi. pose proof strips_ok as A. rewrite forallb_forall in A. specialize (A i ltac:(apply in_seq; lia)). unfold strip_ok in A.
  rewrite !andb_true_iff in A. destruct A as (((((((Hw & Hf) & Hff) & Hk) & Hk') & Ha) & He) & Hn).
  apply Z.ltb_lt in Hw, Hf, Hff, Hk'. apply Z.leb_le in Hk.
  unfold inner. rewrite (edge_eq i), (level_eq i), (level_eq (i - 1)) by lia. destruct (w_real i ltac:(lia)) as (_ & ->).
  pose proof (area_real _ _ Ha) as R1. pose proof (edge_real _ _ Hf He) as R2. pose proof (inner_real _ _ _ Hn) as R3.
  clear Ha He Hn. set (w := nth i w60 0%Z) in *. set (f := nth i f40 0%Z) in *. set (f' := nth (i - 1) f40 0%Z) in *. set (k := nth i kn 0%Z) in *. clearbody w f f' k.
  rewrite minus_IZR in R1. assert (P1 : 0 < IZR w) by now apply IZR_lt. assert (P2 : 0 < IZR f) by now apply IZR_lt. assert (P3 : IZR f < IZR f') by now apply IZR_lt.
  assert (P4 : 0 <= IZR k) by now apply IZR_le. assert (P5 : IZR k < 2 ^ 31) by (rewrite <- (powZ 31 31 eq_refl); now apply IZR_lt).
  pose proof (Rinv_0_lt_compat _ (pow2_pos 40)) as Q. unfold Rdiv.
  split; [apply Rmult_lt_0_compat; [assumption|apply Rinv_0_lt_compat, pow2_pos]|].
  split; [split; [now apply Rmult_lt_0_compat|now apply Rmult_lt_compat_r]|].
  split; [split|].
  - apply Rmult_le_pos; [assumption|]. apply Rmult_le_pos; [lra|]. left. apply Rinv_0_lt_compat, pow2_pos.
  - replace (IZR w * / 2 ^ 29) with (2 ^ 31 * (IZR w * / 2 ^ 60)) by field. apply Rmult_lt_compat_r; [|assumption].
    apply Rmult_lt_0_compat; [assumption|apply Rinv_0_lt_compat, pow2_pos].
  - split; [lia|]. split; [|split; assumption].
    replace (IZR w * / 2 ^ 29 * (IZR f' * / 2 ^ 40 - IZR f * / 2 ^ 40)) with (IZR w / 2 ^ 29 * ((IZR f' - IZR f) / 2 ^ 40)) by field. exact R1.
Qed.
Lemma base_facts : 0 < edge 0 /\ Rabs (area - edge 0 * level 127) <= area / 2 ^ 17 /\ level 0 = 1 /\ 3.4426 < inner 0 < 3.4427 /\ 3.7 < edge 0 < 3.8 /\
  3.4426 < edge 127 < 3.4427.
Proof.
  pose proof base_ok as A. cbv zeta in A. rewrite !andb_true_iff in A. destruct A as ((Hw & Ha) & He). apply Z.ltb_lt, IZR_lt in Hw.
  unfold inner. rewrite (edge_eq 0), (edge_eq 127), (level_eq 0), (level_eq 127) by lia. destruct (w_real 0 ltac:(lia)) as (_ & ->).
  pose proof (area_real _ _ Ha) as R1. clear Ha He.
  split; [apply Rdiv_lt_0_compat; [assumption|apply pow2_pos]|]. split; [exact R1|]. clear R1 Hw.
  change (nth 0 f40 0%Z) with (2 ^ 40)%Z. rewrite (powZ 40 40 eq_refl).
  split; [field|]. let v := eval vm_compute in (nth 0 w60 0%Z) in change (nth 0 w60 0%Z) with v.
  let v := eval vm_compute in (nth 0 kn 0%Z) in change (nth 0 kn 0%Z) with v.
  let v := eval vm_compute in (nth 127 w60 0%Z) in change (nth 127 w60 0%Z) with v. cbn [pow]. lra.
Qed.
