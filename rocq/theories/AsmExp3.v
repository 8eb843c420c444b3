(** * How near the kernels of Exp32 are to the exponential: the errors together *)
From Coq Require Import ZArith String Bool Lia List Reals Lra.
From Flocq Require Binary Bits.
From Flocq Require Import Core BinarySingleNaN.
From Verif Require Import AsmModel AsmCode AsmCalls DenseModel FloatModel NumModel FloatSpec FloatProofs NumSpec NumLemmas AsmFloatSpec AsmFloat AsmWords AsmExp AsmExp2.
Import ListNotations.
Local Open Scope R_scope.
Local Notation B := (bin words). Local Notation U := (un words).

Definition c1 : R := 355 / 512.
Definition c2 : R := 14581891 / 68719476736.
(** the reduced argument *)
Lemma reduce_ok c n N : finite (decode c) -> decode n = lit N 0 -> (-127 <= N <= 127)%Z ->
  Rabs (real (decode c) * (12102203 / 8388608) - IZR N) <= / 2 + / 50000 ->
  finite (decode (reduce_w c n)) /\ Rabs (real (decode (reduce_w c n)) - (real (decode c) - IZR N * (c1 - c2))) <= 0.9 * eps /\
  Rabs (real (decode (reduce_w c n))) <= 0.347.
Proof.
  intros Fc En HN H. destruct (int_real N) as (Fn & Rn); [lia|]. destruct c1_real as (F1 & E1), c2_real as (F2 & E2).
  unfold reduce_w. cbn [bin words]. unfold arith. rewrite !decode_encode, En.
  set (c' := decode c) in *. set (n' := lit N 0 : val F32) in *. set (k1 := decode c1_w) in *. set (k2 := decode c2_w) in *.
  assert (HNR : -127 <= IZR N <= 127) by (split; apply IZR_le; lia).
  assert (X1 : finite (fmul n' k1) /\ real (fmul n' k1) = - (IZR N * c1)).
  { assert (R : rep F32 (- (IZR N * c1))).
    { apply (rep_dyadic F32 (- (N * 355)) (-9)); [|cbn; lia|cbn; lia|cbn; lia]. change (-9)%Z with (Z.neg 9). rewrite neg_pow. cbn [Zpower_pos Pos.iter Z.mul Pos.mul]. rewrite opp_IZR, mult_IZR. unfold c1. lra. }
    destruct (mul_in F32 n' k1 _ _ Fn F1 R R) as (F & Bd & _); [rewrite Rn, E1; unfold c1; lra|]. split; [exact F|lra]. }
  destruct X1 as (X1 & Y1). apply Rabs_le_inv in H. pose proof tiny_small as TS.
  destruct (add_step c' (fmul n' k1) 0.3737 Fc X1) as (X2 & Y2); [rewrite Y1; unfold c1; apply Rabs_le; lra|lra|].
  destruct (mul_step n' k2 0.027 Fn F2) as (X3 & Y3); [rewrite Rn, E2; apply Rabs_le; lra|lra|].
  rewrite Y1 in Y2. rewrite Rn, E2 in Y3. apply Rabs_le_inv in Y2, Y3.
  assert (Y2' : Rabs (real (fadd c' (fmul n' k1)) + real (fmul n' k2)) <= 0.34665). { unfold c1, eps in *. apply Rabs_le. lra. }
  destruct (add_step _ _ _ X2 X3 Y2') as (X4 & Y4); [lra|]. split; [exact X4|].
  apply Rabs_le_inv in Y4, Y2'. unfold c1, c2, eps in *. split; apply Rabs_le; lra.
Qed.

(** the polynomial of the kernel, with exact arithmetic *)
Definition poly (r : R) : R :=
  r + r * r * (r * (r * (r * (r * (r * (13658471 / 68719476736) + 6005223 / 4294967296) + 1118497 / 134217728) + 11184577 / 268435456) + 5592405 / 33554432) + 1 / 2) + 1.
Definition mantissa_w (r : Z) : Z :=
  let q := B Add (B Mul r p0_w) p1_w in let q := B Add (B Mul r q) p2_w in let q := B Add (B Mul r q) p3_w in let q := B Add (B Mul r q) p4_w in
  let q := B Add (B Mul r q) half_w in
  B Add (B Add r (B Mul (B Mul r r) q)) one_w.
Lemma poly_w_eq r n : poly_w r n = B Mul (mantissa_w r) (scale_w n). Proof. reflexivity. Qed.
Lemma mantissa_ok r : finite (decode r) -> Rabs (real (decode r)) <= 0.347 ->
  finite (decode (mantissa_w r)) /\ Rabs (real (decode (mantissa_w r)) - poly (real (decode r))) <= 2.1 * eps.
Proof.
  intros Fr Hr. destruct p0_real as (F0 & E0), p1_real as (F1 & E1), p2_real as (F2 & E2), p3_real as (F3 & E3), p4_real as (F4 & E4), half_real as (Fh & Eh), one_real as (Fo & Eo).
  pose proof tiny_small as TS.
  unfold mantissa_w. cbv zeta. cbn [bin words]. unfold arith. rewrite !decode_encode. set (x := decode r) in *. set (v := real x).
  set (q0 := decode p0_w) in *. 
  destruct (horner x q0 (decode p1_w) 0.347 (13658471 / 68719476736) 0 0.0002 _ Fr F0 F1 E1) as (G1 & H1 & B1); [lra|exact Hr|lra|rewrite E0; apply self|lra|apply Rabs_le; lra|lra|]. fold v in H1, B1.
  set (q1 := fadd (fmul x q0) (decode p1_w)) in *. set (Q1 := v * (13658471 / 68719476736) + 6005223 / 4294967296) in *.
  destruct (horner x q1 (decode p2_w) 0.347 Q1 (0.0016 * eps) 0.0015 _ Fr G1 F2 E2) as (G2 & H2 & B2); [lra|exact Hr|lra|eapply Rle_trans; [exact H1|unfold eps; lra]|unfold eps; lra|lra|lra|]. fold v in H2, B2.
  set (q2 := fadd (fmul x q1) (decode p2_w)) in *. set (Q2 := v * Q1 + 1118497 / 134217728) in *.
  destruct (horner x q2 (decode p3_w) 0.347 Q2 (0.011 * eps) 0.009 _ Fr G2 F3 E3) as (G3 & H3 & B3); [lra|exact Hr|lra|eapply Rle_trans; [exact H2|unfold eps; lra]|unfold eps; lra|lra|lra|]. fold v in H3, B3.
  set (q3 := fadd (fmul x q2) (decode p3_w)) in *. set (Q3 := v * Q2 + 11184577 / 268435456) in *.
  destruct (horner x q3 (decode p4_w) 0.347 Q3 (0.053 * eps) 0.045 _ Fr G3 F4 E4) as (G4 & H4 & B4); [lra|exact Hr|lra|eapply Rle_trans; [exact H3|unfold eps; lra]|unfold eps; lra|lra|lra|]. fold v in H4, B4.
  set (q4 := fadd (fmul x q3) (decode p4_w)) in *. set (Q4 := v * Q3 + 5592405 / 33554432) in *.
  destruct (horner x q4 (decode half_w) 0.347 Q4 (0.22 * eps) 0.183 _ Fr G4 Fh Eh) as (G5 & H5 & B5); [lra|exact Hr|lra|eapply Rle_trans; [exact H4|unfold eps; lra]|unfold eps; lra|lra|lra|]. fold v in H5, B5.
  set (q5 := fadd (fmul x q4) (decode half_w)) in *. set (Q5 := v * Q4 + 1 / 2) in *.
  assert (H5' : Rabs (real q5 - Q5) <= 0.71 * eps) by (eapply Rle_trans; [exact H5|unfold eps; lra]).
  assert (B5' : Rabs Q5 <= 0.564) by lra.
  destruct (mul_near x x 0.347 v 0 0.347 Fr Fr Hr) as (Gs & Hs); [apply self|exact Hr|lra|]. fold v in Hs. set (s := fmul x x) in *.
  assert (Bv : Rabs (v * v) <= 0.1205) by (rewrite Rabs_mult; pose proof (Rabs_pos v); fold v in Hr; nra).
  assert (Hs' : Rabs (real s - v * v) <= 0.121 * eps) by (eapply Rle_trans; [exact Hs|unfold eps; lra]).
  assert (Bs : Rabs (real s) <= 0.1206). { apply Rabs_le_inv in Hs', Bv. unfold eps in *. apply Rabs_le. lra. }
  destruct (mul_near s q5 0.1206 Q5 (0.71 * eps) 0.564 Gs G5 Bs H5' B5') as (Gm & Hm); [unfold eps; lra|]. set (m := fmul s q5) in *.
  assert (Hm' : Rabs (real m - v * v * Q5) <= 0.225 * eps).
  { replace (real m - v * v * Q5) with ((real m - real s * Q5) + (real s - v * v) * Q5) by lra. eapply Rle_trans; [apply Rabs_triang|]. rewrite (Rabs_mult (real s - v * v)).
    assert (Rabs (real s - v * v) * Rabs Q5 <= 0.121 * eps * 0.564) by (apply Rmult_le_compat; auto using Rabs_pos). eapply Rle_trans; [apply Rplus_le_compat; [exact Hm|exact H]|]. unfold eps. lra. }
  assert (Bm : Rabs (v * v * Q5) <= 0.068). { rewrite Rabs_mult. apply Rle_trans with (0.1205 * 0.564); [apply Rmult_le_compat; auto using Rabs_pos|lra]. }
  assert (Bf : Rabs (v + v * v * Q5) <= 0.415). { eapply Rle_trans; [apply Rabs_triang|]. fold v in Hr. lra. }
  destruct (add_near x m v (v * v * Q5) 0 (0.225 * eps) 0.415 Fr Gm) as (Gf & Hf); [apply self|exact Hm'|exact Bf|unfold eps; lra|]. set (f := fadd x m) in *.
  assert (Bg : Rabs (v + v * v * Q5 + 1) <= 1.415). { eapply Rle_trans; [apply Rabs_triang|]. rewrite (Rabs_right 1); lra. }
  assert (Hf' : Rabs (real f - (v + v * v * Q5)) <= 0.65 * eps) by (eapply Rle_trans; [exact Hf|unfold eps; lra]).
  destruct (add_near f (decode one_w) (v + v * v * Q5) 1 (0.65 * eps) 0 1.415 Gf Fo Hf') as (Gg & Hg); [rewrite Eo; apply self|exact Bg|unfold eps; lra|].
  split; [exact Gg|]. unfold poly. fold v. fold Q1 Q2 Q3 Q4 Q5. eapply Rle_trans; [exact Hg|]. unfold eps. lra.
Qed.
