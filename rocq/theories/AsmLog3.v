(** * The bits of a positive number, and the rounding errors of Log32 *)
From Coq Require Import ZArith String Bool Lia List Reals Lra.
From Flocq Require Binary Bits.
From Flocq Require Import Core BinarySingleNaN.
From Verif Require Import AsmModel AsmCode AsmCalls DenseModel FloatModel NumModel FloatSpec FloatProofs NumSpec NumLemmas AsmFloatSpec AsmFloat AsmWords AsmExp AsmExp2 AsmLog AsmLog2.
Import ListNotations.
Local Open Scope Z_scope.
Local Notation B := (bin words). Local Notation U := (un words).

Lemma word_of w s m e H : 0 <= w < 2 ^ 32 -> decode w = B754_finite s m e H -> 2 ^ 23 <= Zpos m -> w = ((if s then 2 ^ 8 else 0) + (e + 150)) * 2 ^ 23 + (Zpos m - 2 ^ 23).
Proof.
  intros Hw E Hm. rewrite <- (Bits.bits_of_binary_float_of_bits 23 8 eq_refl eq_refl eq_refl w) by exact Hw.
  change (Bits.binary_float_of_bits 23 8 eq_refl eq_refl eq_refl w) with (Bits.b32_of_bits w). unfold decode in E.
  destruct (Bits.b32_of_bits w) as [?|?|?|s' m' e' H'] eqn:Eb; try discriminate. cbn [Binary.B2BSN] in E. injection E as -> -> ->.
  unfold Bits.bits_of_binary_float, Bits.join_bits. change (SpecFloat.emin (23 + 1) (2 ^ (8 - 1))) with (-149). cbv zeta.
  destruct (Z.leb_spec 0 (Zpos m - 2 ^ 23)); [|lia]. rewrite Z.shiftl_mul_pow2 by lia. lia.
Qed.
Lemma encode_finite m e H : 2 ^ 23 <= Zpos m -> encode (B754_finite false m e H) = (e + 150) * 2 ^ 23 + (Zpos m - 2 ^ 23).
Proof.
  intros Hm. unfold encode, Bits.bits_of_b32. cbn [Binary.BSN2B]. unfold Bits.bits_of_binary_float, Bits.join_bits. change (SpecFloat.emin (23 + 1) (2 ^ (8 - 1))) with (-149). cbv zeta.
  destruct (Z.leb_spec 0 (Zpos m - 2 ^ 23)); [|lia]. rewrite Z.shiftl_mul_pow2 by lia. lia.
Qed.
Local Open Scope R_scope.
(** a number from 2^-126 on: m 2^e with 2^23 <= m < 2^24 *)
Lemma normal (x : val F32) : finite x -> / 2 ^ 126 <= real x ->
  exists m e H, x = B754_finite false m e H /\ (2 ^ 23 <= Zpos m < 2 ^ 24)%Z /\ (-149 <= e <= 104)%Z /\ real x = IZR (Zpos m) * bpow radix2 e.
Proof.
  intros F L. assert (P : 0 < real x) by (assert (0 < / 2 ^ 126) by (apply Rinv_0_lt_compat, pow_lt; lra); lra).
  destruct x as [s|s| |s m e H]; try discriminate; [unfold real in P; cbn in P; lra|]. destruct s.
  { exfalso. change (0 < IZR (Z.neg m) * bpow radix2 e) in P. pose proof (bpow_gt_0 radix2 e). assert (IZR (Z.neg m) < 0) by (apply IZR_lt; lia). nra. }
  exists m, e, H. split; [reflexivity|].
  assert (E : real (B754_finite false m e H : val F32) = IZR (Zpos m) * bpow radix2 e) by reflexivity.
  pose proof H as Hb. unfold SpecFloat.bounded in Hb. apply andb_true_iff in Hb. destruct Hb as (Hc & He). apply Zle_bool_imp_le in He.
  unfold SpecFloat.canonical_mantissa in Hc. apply Zeq_bool_eq in Hc. unfold SpecFloat.fexp, SpecFloat.emin in Hc. rewrite Digits.Zpos_digits2_pos in Hc.
  change (prec F32) with 24%Z in *. change (emax F32) with 128%Z in *. set (k := Digits.Zdigits radix2 (Zpos m)) in *.
  assert (K : (Zpos m < 2 ^ k)%Z). { pose proof (Digits.Zdigits_correct radix2 (Zpos m)) as D. fold k in D. change (radix_val radix2) with 2%Z in D. rewrite Z.abs_eq in D by lia. lia. }
  assert (K' : (2 ^ (k - 1) <= Zpos m)%Z). { pose proof (Digits.Zdigits_correct radix2 (Zpos m)) as D. fold k in D. change (radix_val radix2) with 2%Z in D. rewrite Z.abs_eq in D by lia. lia. }
  assert (Ke : (0 < k)%Z) by (apply Digits.Zdigits_gt_0; lia).
  assert (Hk : (k <= 24)%Z) by lia.
  assert (M : (2 ^ 23 <= Zpos m)%Z).
  { destruct (Z.le_gt_cases (2 ^ 23) (Zpos m)) as [G|G]; [exact G|exfalso].
    assert (k <= 23)%Z. { destruct (Z.le_gt_cases k 23); [assumption|]. assert (k = 24)%Z by lia. rewrite H1 in K'. lia. }
    assert (e = -149)%Z by lia. subst e. rewrite E in L. rewrite pow2, <- bpow_opp in L. change (- Z.of_nat 126)%Z with (23 + -149)%Z in L. rewrite bpow_plus in L.
    assert (IZR (Zpos m) < bpow radix2 23) by (change (bpow radix2 23) with (IZR (2 ^ 23)); apply IZR_lt; exact G). pose proof (bpow_gt_0 radix2 (-149)). nra. }
  split; [|split; [lia|exact E]]. split; [exact M|]. eapply Z.lt_le_trans; [exact K|]. apply Z.pow_le_mono_r; lia.
Qed.
Local Open Scope Z_scope.
Lemma land_fraction E F : 0 <= E < 256 -> 0 <= F < 2 ^ 23 -> Z.land (E * 2 ^ 23 + F) 2155872255 = F.
Proof.
  intros HE HF. change 2155872255 with (Z.lor (2 ^ 31) (Z.ones 23)). rewrite Z.land_lor_distr_r, Z.land_ones by lia.
  replace ((E * 2 ^ 23 + F) mod 2 ^ 23) with F by (rewrite Z.add_comm, Z.mod_add, Z.mod_small by lia; reflexivity).
  assert (Z.land (E * 2 ^ 23 + F) (2 ^ 31) = 0) as ->; [|reflexivity].
  apply Z.bits_inj'. intros n Hn. rewrite Z.land_spec, Z.bits_0, Z.pow2_bits_eqb by lia. destruct (Z.eqb_spec 31 n) as [<-|]; [|apply andb_false_r].
  rewrite andb_true_r. destruct (Z.eq_dec (E * 2 ^ 23 + F) 0) as [->|]; [apply Z.bits_0|]. apply Z.bits_above_log2; [lia|]. apply Z.log2_lt_pow2; lia.
Qed.
Lemma lor_fraction F : 0 <= F < 2 ^ 23 -> Z.lor F half_w = 126 * 2 ^ 23 + F.
Proof.
  intros HF. unfold half_w. change 1056964608 with (Z.shiftl 126 23).
  assert (D : Z.land F (Z.shiftl 126 23) = 0).
  { apply Z.bits_inj'. intros n Hn. rewrite Z.land_spec, Z.bits_0, Z.shiftl_spec by lia. destruct (Z.le_gt_cases 23 n) as [L|L].
    - destruct (Z.eq_dec F 0) as [->|]; [now rewrite Z.bits_0|]. rewrite Z.bits_above_log2; [reflexivity|lia|]. apply Z.log2_lt_pow2; [lia|]. apply Z.lt_le_trans with (2 ^ 23); [lia|]. apply Z.pow_le_mono_r; lia.
    - rewrite (Z.testbit_neg_r 126) by lia. apply andb_false_r. }
  rewrite <- Z.lxor_lor by exact D. rewrite <- Z.add_nocarry_lxor by exact D. rewrite Z.shiftl_mul_pow2; lia.
Qed.
Lemma shift_exponent E F : 0 <= F < 2 ^ 23 -> Z.shiftr (E * 2 ^ 23 + F) 23 = E.
Proof. intros H. rewrite Z.shiftr_div_pow2 by lia. rewrite Z.div_add_l by lia. rewrite Z.div_small by lia. lia. Qed.
Definition plus_check (n : Z) : bool := same_sf (fadd (lit n 0) (lit 1 0)) (lit (n + 1) 0).
Lemma plus_one n : -130 <= n <= 130 -> fadd (lit n 0 : val F32) (lit 1 0) = lit (n + 1) 0.
Proof. intros H. apply same_sf_ok. apply (all_ints_ok plus_check); [vm_compute; reflexivity|exact H]. Qed.
Lemma cut_eq : decode cut_w = lit 11863283 (-24). Proof. const 11863283 (-24). Qed.
Lemma minus_one_eq : decode minus_one_w = lit (-1) 0. Proof. const (-1) 0. Qed.
Local Open Scope R_scope.
Lemma cut_real : finite (decode cut_w) /\ real (decode cut_w) = 11863283 / 16777216. Proof. rewrite cut_eq. lit32. Qed.
Lemma minus_one_real : finite (decode minus_one_w) /\ real (decode minus_one_w) = -1. Proof. rewrite minus_one_eq. lit32. Qed.

(** the two parts of a positive number: x = 2^N (1 + f) *)
Lemma split_ok w : (0 <= w < 2 ^ 32)%Z -> finite (decode w) -> / 2 ^ 126 <= real (decode w) ->
  let m := fraction_w w in let f := shifted_w m in let e := adjusted_w m (power_w w) in
  exists N, (-126 <= N <= 128)%Z /\ decode e = lit N 0 /\ finite (decode f) /\ - 0.2929 <= real (decode f) <= 0.41422 /\
    real (decode w) = bpow radix2 N * (1 + real (decode f)) /\ (real (decode f) = 0 \/ / 16777216 <= Rabs (real (decode f))).
Proof.
  intros Hw Fw Lw m f e. destruct (normal _ Fw Lw) as (p & k & H & E & Hp & Hk & R).
  pose proof (word_of w false p k H Hw E (proj1 Hp)) as W. rewrite Z.add_0_l in W.
  set (F := (Zpos p - 2 ^ 23)%Z) in *. assert (HF : (0 <= F < 2 ^ 23)%Z) by (unfold F; lia).
  assert (Em : m = (126 * 2 ^ 23 + F)%Z). { unfold m, fraction_w. cbn [bin words]. rewrite W, land_fraction, lor_fraction by lia. reflexivity. }
  assert (Hb : SpecFloat.bounded 24 128 p (-24) = true).
  { unfold SpecFloat.bounded, SpecFloat.canonical_mantissa. apply andb_true_iff. split; [|reflexivity]. apply Zeq_bool_true. unfold SpecFloat.fexp, SpecFloat.emin. rewrite Digits.Zpos_digits2_pos.
    replace (Digits.Zdigits radix2 (Zpos p)) with 24%Z; [reflexivity|]. symmetry. apply Digits.Zdigits_unique. change (radix_val radix2) with 2%Z. rewrite Z.abs_eq by lia. change (24 - 1)%Z with 23%Z. lia. }
  assert (Dm : decode m = B754_finite false p (-24) Hb).
  { refine (eq_trans (f_equal decode (eq_trans _ (eq_sym (encode_finite p (-24) Hb (proj1 Hp))))) (decode_encode (B754_finite false p (-24) Hb))). rewrite Em. unfold F. lia. }
  assert (Fm : finite (decode m)) by (rewrite Dm; reflexivity).
  set (M := real (decode m)).
  assert (RM : M = IZR (Zpos p) / 16777216). { unfold M. rewrite Dm. change (IZR (Zpos p) * bpow radix2 (-24) = IZR (Zpos p) / 16777216). change (-24)%Z with (Z.neg 24). rewrite neg_pow. cbn [Zpower_pos Pos.iter Z.mul Pos.mul]. reflexivity. }
  assert (DM : real (decode m) = M) by reflexivity. clearbody M.
  assert (HM : 8388608 <= IZR (Zpos p) <= 16777215) by (split; apply IZR_le; lia).
  assert (Rw : real (decode w) = M * bpow radix2 (k + 24)). { rewrite R, RM, bpow_plus. change (bpow radix2 24) with 16777216. lra. }
  assert (Ee : decode (power_w w) = lit (k + 24) 0).
  { unfold power_w. cbn [bin un words]. unfold arith. rewrite decode_encode, one_w_eq, W.
    rewrite (shift_exponent (k + 150) F HF).
    replace (wrap (k + 150 + 4294967169)) with (wrap (k + 23)); [rewrite of_int_eq by lia; rewrite plus_one by lia; f_equal; lia|].
    unfold wrap. replace (k + 150 + 4294967169)%Z with (k + 23 + 1 * 2 ^ 32)%Z by lia. rewrite Z.mod_add by lia. reflexivity. }
  destruct cut_real as (Fc & Ec), minus_one_real as (Fo & Eo).
  assert (Hp16 : (8388608 <= Zpos p < 16777216)%Z) by lia. assert (P24 : (2 ^ prec F32 = 16777216)%Z) by reflexivity.
  assert (R1 : rep F32 (M - 1)).
  { apply (rep_dyadic F32 (Zpos p - 16777216) (-24)); [|rewrite P24; lia|unfold emax, prec; lia|unfold emax, prec; lia]. change (-24)%Z with (Z.neg 24). rewrite neg_pow. cbn [Zpower_pos Pos.iter Z.mul Pos.mul]. rewrite minus_IZR, RM. lra. }
  destruct (add_in F32 (decode m) (decode minus_one_w) _ _ Fm Fo R1 R1) as (F1 & B1 & _); [rewrite Eo, DM; lra|].
  assert (V1 : real (fadd (decode m) (decode minus_one_w)) = M - 1) by lra.
  unfold f, e, shifted_w, adjusted_w. cbn [bin words]. unfold arith. rewrite !decode_encode, Ee.
  destruct (flt (decode m) (decode cut_w)) eqn:L.
  - apply lt_eq in L; auto. rewrite DM in L. rewrite Ec in L. change (Z.land (mask true) one_w) with one_w. rewrite one_w_eq, minus_one by lia.
    replace (Z.land (mask true) m) with m by (rewrite Z.land_comm; change (mask true) with (Z.ones 32); rewrite Z.land_ones, Z.mod_small by lia; reflexivity).
    assert (R2 : rep F32 (2 * M - 1)).
    { apply (rep_dyadic F32 (2 * Zpos p - 16777216) (-24)); [|rewrite P24; lia|unfold emax, prec; lia|unfold emax, prec; lia]. rewrite minus_IZR, mult_IZR, RM. change (-24)%Z with (Z.neg 24). rewrite neg_pow. change (IZR (Zpower_pos 2 24)) with 16777216. lra. }
    destruct (add_in F32 (fadd (decode m) (decode minus_one_w)) (decode m) _ _ F1 Fm R2 R2) as (F2 & B2 & _); [rewrite DM; lra|].
    assert (V2 : real (fadd (fadd (decode m) (decode minus_one_w)) (decode m)) = 2 * M - 1) by lra.
    exists (k + 24 - 1)%Z. split; [lia|]. split; [reflexivity|]. split; [exact F2|]. rewrite V2. split; [lra|]. split.
    + rewrite Rw. replace (k + 24)%Z with (k + 24 - 1 + 1)%Z by lia. rewrite bpow_plus. replace (k + 24 - 1 + 1 - 1)%Z with (k + 24 - 1)%Z by lia. change (bpow radix2 1) with 2. lra.
    + destruct (Z.eq_dec (Zpos p) 8388608) as [Q|Q]; [left; rewrite RM, Q; lra|right]. assert (8388609 <= IZR (Zpos p)) by (apply IZR_le; lia). rewrite Rabs_right; lra.
  - apply lt_false in L; auto. rewrite DM in L. rewrite Ec in L. cbn [mask]. rewrite !Z.land_0_l, zero_w_eq, minus_zero by lia.
    destruct (add_in F32 (fadd (decode m) (decode minus_one_w)) fzero _ _ F1 eq_refl R1 R1) as (F2 & B2 & _); [change (real fzero) with 0; lra|].
    assert (V2 : real (fadd (fadd (decode m) (decode minus_one_w)) fzero) = M - 1) by lra.
    exists (k + 24)%Z. split; [lia|]. split; [reflexivity|]. split; [exact F2|]. rewrite V2. split; [lra|]. split.
    + rewrite Rw. lra.
    + right. rewrite Rabs_left; lra.
Qed.
