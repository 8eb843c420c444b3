(** * What the kernels of Log32 compute in a lane *)
From Coq Require Import ZArith String Bool Lia List Reals Lra.
From Flocq Require Binary Bits.
From Flocq Require Import Core BinarySingleNaN.
From Verif Require Import AsmModel AsmCode AsmCalls DenseModel FloatModel NumModel FloatSpec FloatProofs NumSpec NumLemmas AsmFloatSpec AsmFloat AsmWords AsmExp.
Import ListNotations.
Local Open Scope Z_scope.
Local Notation B := (bin words). Local Notation U := (un words).

Definition least_w := 8388608. Definition cut_w := 1060439283. Definition minus_one_w := 3212836864.
Definition l0_w := 1032855995. Definition l1_w := 3186348472. Definition l2_w := 1039082778. Definition l3_w := 3187563855. Definition l4_w := 1041361343.
Definition l5_w := 3190468176. Definition l6_w := 1045221036. Definition l7_w := 3196059644. Definition l8_w := 1051372202.
Definition q1_w := 3109978243. Definition minus_half_w := 3204448256. Definition q2_w := 1060208640.
(** the mantissa, between 1/2 and 1, and the exponent *)
Definition fraction_w (x : Z) : Z := B Or (B And x 2155872255) half_w.
Definition power_w (x : Z) : Z := B Add (U OfInt (B Addd (U (Shr 23) x) 4294967169)) one_w.
(** the mantissa, less 1, doubled if it is below sqrt(1/2); and the exponent, then one less *)
Definition shifted_w (m : Z) : Z := B Add (B Add m minus_one_w) (B And (B Cmplt m cut_w) m).
Definition adjusted_w (m e : Z) : Z := B Sub e (B And (B Cmplt m cut_w) one_w).
Definition horner_w (f : Z) : Z :=
  let q := B Add (B Mul f l0_w) l1_w in let q := B Add (B Mul f q) l2_w in let q := B Add (B Mul f q) l3_w in let q := B Add (B Mul f q) l4_w in
  let q := B Add (B Mul f q) l5_w in let q := B Add (B Mul f q) l6_w in let q := B Add (B Mul f q) l7_w in let q := B Add (B Mul f q) l8_w in B Mul f q.
Definition sum_w (f e : Z) : Z :=
  let z := B Mul f f in B Add (B Mul e q2_w) (B Add f (B Add (B Add (B Mul z (horner_w f)) (B Mul e q1_w)) (B Mul z minus_half_w))).
Definition log_w (w : Z) : Z :=
  let x := B Max w least_w in let m := fraction_w x in
  B Or (B Cmple w 0) (sum_w (shifted_w m) (adjusted_w m (power_w x))).

Ltac lanes := cbv [lane_function log_avx32 log_sse32 skipn lane_run set_reg operand_lane Nat.eqb].
Ltac consts := unfold least_w, cut_w, minus_one_w, l0_w, l1_w, l2_w, l3_w, l4_w, l5_w, l6_w, l7_w, l8_w, q1_w, q2_w, minus_half_w, half_w, one_w.
Lemma log_avx_lane w : lane_function log_avx32 w = log_w w.
Proof.
  lanes. unfold log_w, sum_w, horner_w, adjusted_w, shifted_w, power_w, fraction_w. consts. cbv zeta. reflexivity.
Qed.
Definition horner_s (f : Z) : Z :=
  let q := B Add (B Mul l0_w f) l1_w in let q := B Add (B Mul q f) l2_w in let q := B Add (B Mul q f) l3_w in let q := B Add (B Mul q f) l4_w in
  let q := B Add (B Mul q f) l5_w in let q := B Add (B Mul q f) l6_w in let q := B Add (B Mul q f) l7_w in let q := B Add (B Mul q f) l8_w in B Mul q f.
Lemma horner_s_eq f : horner_s f = horner_w f.
Proof.
  unfold horner_s, horner_w. cbv zeta. rewrite (mul_comm_w l0_w f).
  repeat (match goal with |- context[B Mul (B Add ?a ?b) f] => rewrite (mul_comm_w (B Add a b) f) end). reflexivity.
Qed.
Definition sum_s (f e : Z) : Z :=
  let z := B Mul f f in B Add (B Add f (B Add (B Mul z minus_half_w) (B Add (B Mul q1_w e) (B Mul (horner_s f) z)))) (B Mul e q2_w).
Lemma sum_s_eq f e : sum_s f e = sum_w f e.
Proof.
  unfold sum_s, sum_w. cbv zeta. rewrite horner_s_eq, (mul_comm_w q1_w e), (mul_comm_w (horner_w f)), (add_comm_w (B Mul (B Mul f f) minus_half_w)), (add_comm_w (B Mul e q1_w)).
  rewrite (add_comm_w _ (B Mul e q2_w)). reflexivity.
Qed.
Lemma or_comm_w a b : B Or a b = B Or b a. Proof. apply Z.lor_comm. Qed.
Lemma log_sse_lane w : lane_function log_sse32 w = log_w w.
Proof.
  transitivity (let x := B Max w least_w in let m := fraction_w x in B Or (sum_s (shifted_w m) (adjusted_w m (power_w x))) (B Cmple w 0)).
  - lanes. unfold sum_s, horner_s, adjusted_w, shifted_w, power_w, fraction_w. consts. cbv zeta. reflexivity.
  - cbv zeta. rewrite sum_s_eq, or_comm_w. reflexivity.
Qed.
Lemma log_lane c w : lane_function (LogKernel32 c) w = log_w w.
Proof. unfold LogKernel32. destruct (avx2 c); cbn [choose]; [apply log_avx_lane|apply log_sse_lane]. Qed.
