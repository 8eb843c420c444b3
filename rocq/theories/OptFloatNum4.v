(** * Optimizers in floating point: the invariants of one element *)
From Coq Require Import ZArith Bool Lia List Arith Reals Lra Psatz.
From Flocq Require Import Core BinarySingleNaN Relative.
From Verif Require Import FloatModel FloatSpec FloatProofs NumModel NumSpec NumLemmas AsmFloatSpec AsmFloat OptFloatModel OptFloatSpec OptFloatNum OptFloatNum2 OptFloatNum3 OptFloatProofs.
Import ListNotations.
Local Open Scope R_scope.

Section Elem.
Variable d : dtype.
Notation U := (u d).
Notation h := (half_tiny d).
Notation G := (grad_max d).
Notation cv := (conv F64 d).

Lemma grad_reps : 2 ^ 60 <= G /\ rep d G /\ rep d (2 * G) /\ rep F64 (2 * G) /\ rep d (4 * G) /\ rep d (G * G) /\ rep d (2 * (G * G)) /\ rep d (2 * (2 * (G * G))).
Proof.
  unfold grad_max. destruct d.
  - replace (2 * 2 ^ 62) with (2 ^ 63) by ring. replace (4 * 2 ^ 62) with (2 ^ 64) by ring. replace (2 ^ 62 * 2 ^ 62) with (2 ^ 124) by ring.
    replace (2 * 2 ^ 124) with (2 ^ 125) by ring. replace (2 * 2 ^ 125) with (2 ^ 126) by ring. split; [apply Rle_pow; [lra|lia]|]. repeat split; apply rep_two; reflexivity.
  - assert (E1 : 2 * 2 ^ 510 = 2 ^ 511) by reflexivity. assert (E2 : 4 * 2 ^ 510 = 2 ^ 512) by (replace 4 with (2 * 2) by ring; rewrite Rmult_assoc; reflexivity).
    assert (E3 : 2 ^ 510 * 2 ^ 510 = 2 ^ 1020) by (rewrite <- pow_add; reflexivity). assert (E4 : 2 * 2 ^ 1020 = 2 ^ 1021) by reflexivity. assert (E5 : 2 * 2 ^ 1021 = 2 ^ 1022) by reflexivity.
    rewrite E1, E2, E3, E4, E5. split; [apply Rle_pow; [lra|lia]|]. repeat split; apply rep_two; reflexivity.
Qed.
Definition w : R := / 2 ^ 60.
(** the second average: not negative, below twice the largest square *)
Definition second_ok (m : val d) : Prop := finite m /\ 0 <= real m <= 2 * (G * G).
(** both averages *)
Definition moments_ok (K : R) (v m : val d) : Prop := finite v /\ Rabs (real v) <= 2 * G /\ second_ok m /\ Rabs (real v) <= K * sqrt (real m) + K * w.

Lemma zero_ok : finite (fzero : val d) /\ real (fzero : val d) = 0. Proof. split; reflexivity. Qed.
Lemma moments_ok_0 K : 0 <= K -> moments_ok K fzero fzero.
Proof.
  intros HK. destruct zero_ok as (F & E). pose proof grad_reps as (HG & _). assert (0 < w) by (unfold w; lra). set (ww := w) in *. set (g := G) in *.
  unfold moments_ok, second_ok. fold g. fold ww. clearbody g ww. rewrite E, Rabs_R0, sqrt_0. assert (0 <= K * ww) by (apply Rmult_le_pos; lra). assert (0 <= g * g) by (apply Rmult_le_pos; lra). repeat split; auto; lra.
Qed.
(** one step of the second average *)
Lemma second_step (m b c g : val d) : second_ok m -> finite b -> finite c -> 0 <= real b <= 1 - / 2 ^ 15 -> 0 <= real c <= 1 -> real b + real c <= 1 + / 2 ^ 20 ->
  finite g -> Rabs (real g) <= G -> let m' := avg d b m c (fmul g g) in
  second_ok m' /\ (1 - U) ^ 3 * (real b * real m + real c * real g ^ 2) - 3 * h <= real m'.
Proof.
  intros (Fm & Hm) Fb Fc Hb Hc Hbc Fg Hg. cbv zeta. destruct grad_reps as (HG & R1 & R2 & _ & R4 & R5 & R6 & R7).
  assert (G2 : real g ^ 2 <= G * G). { rewrite <- pow2_abs. pose proof (Rabs_pos (real g)). replace (Rabs (real g) ^ 2) with (Rabs (real g) * Rabs (real g)) by ring. apply Rmult_le_compat; lra. }
  destruct (square_op d g (G * G) Fg R5 G2) as (Fq & Pq & Lq & _). set (q := fmul g g) in *.
  assert (HGG : 1 <= G * G). { apply Rle_trans with (2 ^ 60 * 2 ^ 60); [lra|]. apply Rmult_le_compat; lra. }
  set (GG := G * G) in *.
  assert (M1 : real m * real b <= 2 * GG * (1 - / 2 ^ 15)) by (apply Rmult_le_compat; lra).
  assert (M2 : real q * real c <= GG * 1) by (apply Rmult_le_compat; lra).
  destruct (square_average_op d m b q c (2 * GG) Fm Fb Fq Fc R6 R7) as (F' & P' & L'); try lra.
  unfold avg. set (m' := fadd (fmul m b) (fmul q c)) in *.
  pose proof (u_small d) as HU. pose proof (tiny_small d) as Hh.
  set (mb := real m * real b) in *. set (qc := real q * real c) in *. set (m1 := real m') in *.
  assert (Pmb : 0 <= mb) by (apply Rmult_le_pos; lra). assert (Pqc : 0 <= qc) by (apply Rmult_le_pos; lra).
  split.
  - split; [exact F'|]. fold m1. split; [exact P'|]. eapply Rle_trans; [apply L'|].
    assert (S : mb + qc <= GG * (2 - / 2 ^ 16)).
    { unfold mb, qc. assert (real m * real b <= 2 * GG * real b) by (apply Rmult_le_compat_r; lra). assert (real q * real c <= GG * real c) by (apply Rmult_le_compat_r; lra).
      assert (GG * (2 * real b + real c) <= GG * (2 - / 2 ^ 16)) by (apply Rmult_le_compat_l; lra). lra. }
    fold GG. clear - S HU Hh HGG Pmb Pqc. set (uu := U) in *. set (hh := h) in *. clearbody uu hh GG mb qc.
    assert (E : (1 + uu) ^ 2 <= 1 + 3 * uu) by nra.
    apply Rle_trans with ((1 + 3 * uu) * (GG * (2 - / 2 ^ 16)) + 3 * hh).
    + apply Rplus_le_compat_r. apply Rmult_le_compat; try lra. apply pow2_ge_0.
    + assert (GG * ((1 + 3 * uu) * (2 - / 2 ^ 16)) <= GG * (2 - / 2 ^ 17)) by (apply Rmult_le_compat_l; lra). lra.
  - fold m1. eapply Rle_trans; [|apply L']. 
    assert (S : real c * ((1 - U) * real g ^ 2 - h) <= qc). { unfold qc. rewrite (Rmult_comm (real q)). apply Rmult_le_compat_l; lra. }
    assert (C0 : real c * h <= 1 * h) by (apply Rmult_le_compat_r; lra). assert (Pg : 0 <= real c * real g ^ 2) by (apply Rmult_le_pos; [lra|apply pow2_ge_0]).
    replace (real b * real m) with mb by (unfold mb; ring).
    clear - S HU Hh Pmb C0 Pg. set (uu := U) in *. set (hh := h) in *. clearbody uu hh mb qc. set (cg := real c * real g ^ 2) in *.
    assert (S' : (1 - uu) * cg - hh <= qc). { unfold cg. lra. } clearbody cg. clear S C0.
    assert (E1 : (1 - uu) ^ 2 * ((1 - uu) * (mb + cg) - hh) <= (1 - uu) ^ 2 * (mb + qc)). { apply Rmult_le_compat_l; [apply pow2_ge_0|]. nra. }
    assert (E2 : (1 - uu) ^ 2 * hh <= 1 * hh) by (apply Rmult_le_compat_r; [lra|nra]).
    replace ((1 - uu) ^ 3 * (mb + cg)) with ((1 - uu) ^ 2 * ((1 - uu) * (mb + cg))) by ring. lra.
Qed.
Lemma root_consts : 3 * h <= / 2 ^ 74 * / 2 ^ 74 /\ 0 <= / 2 ^ 74 /\ 3 * h <= / 2 ^ 74 /\ 2 ^ 14 * / 2 ^ 74 <= w.
Proof. pose proof (tiny_small d). unfold w. repeat split; lra. Qed.
(** one step of both *)
Lemma moments_step K (b1 c1 b2 c2 v m g : val d) :
  finite b1 -> finite c1 -> finite b2 -> finite c2 -> let p1 := real b1 in let q1 := real c1 in let p2 := real b2 in let q2 := real c2 in
  0 <= p1 -> p1 <= 1 - / 2 ^ 11 -> 0 <= q1 <= 1 -> p1 + q1 <= 1 + / 2 ^ 20 -> / 4 <= p2 <= 1 - / 2 ^ 15 -> 0 < q2 <= 1 -> p2 + q2 <= 1 + / 2 ^ 20 ->
  p1 ^ 2 * K ^ 2 * q2 + q1 ^ 2 * p2 <= (1 - / 2 ^ 17) * (K ^ 2 * p2 * q2) -> 1 <= K ->
  moments_ok K v m -> finite g -> Rabs (real g) <= G -> moments_ok K (avg d b1 v c1 g) (avg d b2 m c2 (fmul g g)).
Proof.
  intros F1 F2 F3 F4 p1 q1 p2 q2 P1 P1' Q1 PQ1 P2 Q2 PQ2 HC HK (Fv & Lv & Hm & Qv) Fg Hg.
  destruct (second_step m b2 c2 g Hm F3 F4) as (Hm' & Lm'); auto; try (fold p2 q2; lra).
  destruct grad_reps as (HG & R1 & R2 & _ & R4 & _).
  destruct (average_op d v b1 g c1 (2 * G) Fv F1 Fg F2 R2) as (F' & L').
  { replace (2 * (2 * G)) with (4 * G) by ring. exact R4. }
  { rewrite Rabs_mult, (Rabs_right (real b1)) by (fold p1; lra). fold p1. pose proof (Rabs_pos (real v)). apply Rle_trans with (2 * G * 1); [apply Rmult_le_compat|]; lra. }
  { rewrite Rabs_mult, (Rabs_right (real c1)) by (fold q1; lra). fold q1. pose proof (Rabs_pos (real g)). apply Rle_trans with (G * 1); [apply Rmult_le_compat|]; lra. }
  rewrite (Rabs_right (real b1)), (Rabs_right (real c1)) in L' by (fold p1 q1; lra). fold p1 q1 in L'.
  pose proof (u_small d) as HU. pose proof (tiny_small d) as Hh.
  split; [exact F'|]. unfold avg at 1 3. set (v' := fadd (fmul v b1) (fmul g c1)) in *. split; [|split; [exact Hm'|]].
  - eapply Rle_trans; [exact L'|]. clear - L' HU Hh HG Lv Hg P1 P1' Q1 PQ1. set (uu := U) in *. set (hh := h) in *. set (GG := G) in *. clearbody uu hh GG.
    set (a := Rabs (real v)) in *. set (b := Rabs (real g)) in *. assert (0 <= a) by apply Rabs_pos. assert (0 <= b) by apply Rabs_pos. clearbody a b p1 q1.
    assert (S : p1 * a + q1 * b <= GG * (2 - / 2 ^ 12)).
    { assert (p1 * a <= p1 * (2 * GG)) by (apply Rmult_le_compat_l; lra). assert (q1 * b <= q1 * GG) by (apply Rmult_le_compat_l; lra).
      assert (GG * (2 * p1 + q1) <= GG * (2 - / 2 ^ 12)) by (apply Rmult_le_compat_l; lra). lra. }
    assert (E : (1 + uu) ^ 2 <= 1 + 3 * uu) by nra.
    apply Rle_trans with ((1 + 3 * uu) * (GG * (2 - / 2 ^ 12)) + 3 * hh).
    + apply Rplus_le_compat_r. apply Rmult_le_compat; try lra; [apply pow2_ge_0|]. apply Rplus_le_le_0_compat; apply Rmult_le_pos; lra.
    + assert (GG * ((1 + 3 * uu) * (2 - / 2 ^ 12)) <= GG * (2 - / 2 ^ 13)) by (apply Rmult_le_compat_l; lra). lra.
  - destruct root_consts as (C1 & C2 & C3 & C4).
    apply (quotient_step U h (/ 2 ^ 74) w K p1 q1 p2 q2 (real v) (real m) (real g)); auto; try lra.
    + clear - HU P1 P1'. clearbody p1. set (uu := U) in *. clearbody uu. assert ((1 + uu) ^ 2 <= 1 + 3 * uu) by nra. apply Rle_trans with ((1 + 3 * uu) * (1 - / 2 ^ 11)); [apply Rmult_le_compat; try lra; apply pow2_ge_0|lra].
    + apply Hm.
    + apply Hm'.
Qed.
(** ** The second averages of RMSProp and AdaGrad and the present gradient *)
Lemma gradient_ratio K b c (m m' g : R) : 1 <= K -> 0 < b -> 0 < c <= 1 -> 1 <= (1 - / 2 ^ 17) * (K ^ 2 * c) -> 0 <= m -> 0 <= m' ->
  (1 - U) ^ 3 * (b * m + c * g ^ 2) - 3 * h <= m' -> Rabs g <= K * sqrt m' + K * w.
Proof.
  intros HK Hb Hc HC Pm Pm' H. destruct root_consts as (C1 & C2 & C3 & C4). pose proof (u_small d) as HU. pose proof (tiny_small d) as Hh.
  apply (quotient_step U h (/ 2 ^ 74) w K 0 1 b c 0 m g g m'); auto; try lra.
  - assert (b * 1 <= b * ((1 - / 2 ^ 17) * (K ^ 2 * c))) by (apply Rmult_le_compat_l; lra). lra.
  - rewrite Rabs_R0. pose proof (sqrt_pos m). assert (0 < w) by (unfold w; lra). apply Rplus_le_le_0_compat; apply Rmult_le_pos; lra.
  - rewrite Rabs_R0. pose proof (Rabs_pos g). assert (1 <= (1 + U) ^ 2) by (clear - HU; nra). assert (1 * Rabs g <= (1 + U) ^ 2 * Rabs g) by (apply Rmult_le_compat_r; lra). lra.
Qed.
End Elem.
