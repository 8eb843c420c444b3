(** * Optimizers in floating point: RMSProp and AdaGrad; squares out of range *)
From Coq Require Import ZArith Bool Lia List Arith Reals Lra Psatz.
From Flocq Require Import Core BinarySingleNaN Relative.
From Verif Require Import DenseModel DenseSpec ArithModel ArithSpec FloatModel FloatSpec FloatProofs NumModel NumSpec NumLemmas AsmFloatSpec AsmFloat OptFloatModel OptFloatSpec OptFloatNum OptFloatNum2 OptFloatNum3 OptFloatProofs OptFloatNum4 OptFloatProofs2 OptFloatProofs3.
Import ListNotations.
Local Open Scope R_scope.

Section Adaptive.
Variable d : dtype.
Notation mat := (dense (val d)).
Notation U := (u d).
Notation h := (half_tiny d).
Notation G := (grad_max d).
Notation cv := (conv F64 d).
Notation get m i j := (get fzero m i j).

(** ** RMSProp *)
Lemma conv_square_average K (b : val F64) : square_average K b -> finite (cv b) /\ finite (cv (fsub fone b)) /\ / 4 <= real (cv b) <= 1 - / 2 ^ 15 /\
  0 < real (cv (fsub fone b)) <= 1 /\ real (cv b) + real (cv (fsub fone b)) <= 1 + / 2 ^ 20 /\ 1 <= (1 - / 2 ^ 17) * (K ^ 2 * real (cv (fsub fone b))).
Proof.
  intros (HK & F & Hb & HC). destruct (conv_factor d b F ltac:(lra)) as (Fa & Pa & Na). destruct (conv_complement d b F ltac:(lra)) as (Fb & Pb & Nb).
  pose proof (u_small d) as HU. pose proof (tiny_small d) as Hh. split; [exact Fa|]. split; [exact Fb|]. clear Fa Fb F. set (p := real (cv b)) in *. set (q := real (cv (fsub fone b))) in *. set (z := real b) in *. clearbody p q z.
  set (uu := U) in *. set (hh := h) in *. clearbody uu hh. apply rabs_le in Na. apply rabs_le in Nb.
  assert (uu * z <= / 2 ^ 24 * 1) by (apply Rmult_le_compat; lra). assert (uu * (1 - z) <= / 2 ^ 24 * (1 - z)) by (apply Rmult_le_compat_r; lra).
  split; [lra|]. split; [lra|]. split; [lra|]. assert (Q : (1 - z) * (1 - / 2 ^ 22) <= q) by lra.
  assert (K2 : 0 <= K ^ 2) by apply pow2_ge_0.
  assert (K ^ 2 * ((1 - z) * (1 - / 2 ^ 22)) <= K ^ 2 * q) by (apply Rmult_le_compat_l; lra). set (k := K ^ 2 * (1 - z)) in *.
  replace (K ^ 2 * ((1 - z) * (1 - / 2 ^ 22))) with (k * (1 - / 2 ^ 22)) in * by (unfold k; ring). lra.
Qed.
Section Rmsprop.
Variables (K A B : R) (lr : nat -> val F64) (eps decay : val F64) (r c : nat) (g : nat -> mat) (x0 : mat).
Hypothesis Hb : square_average K decay.
Hypothesis Ha : forall n, rate A (lr n).
Hypothesis HA : 0 <= A <= 2 ^ 19.
Hypothesis HB : room d (K * A) B.
Hypothesis HE : guard eps.
Hypothesis Hx : within d B r c x0.
Hypothesis Hg : forall n, within d G r c (g n).
Definition second_inv (s : mat) : Prop := shaped d s r c /\ forall i j, (i < r)%nat -> (j < c)%nat -> second_ok d (get s i j).
Lemma second_ok_0 : second_ok d fzero.
Proof. destruct (moments_ok_0 d 0 ltac:(lra)) as (_ & _ & H & _). exact H. Qed.
Lemma rmsprop_bounded n : exists x x', successive d (fun n => rmsprop_optimize d (lr n) eps decay) g x0 n x x' /\
  within d (2 * B) r c x /\ within d (2 * B) r c x' /\ moved_at_most d (K * real (lr n)) r c x x'.
Proof.
  destruct (conv_guard d eps HE) as (Fe & He). destruct (conv_square_average K decay Hb) as (F1 & F2 & P1 & P2 & P3 & P4). assert (HK : 1 <= K <= 2 ^ 12) by apply Hb.
  destruct (bounded_steps d mat (fun s => match s with RmspropState _ s => Some s | _ => None end) (RmspropState d) (fun v => m_zeros d (rows v) (cols v))
    (fun n => rmsprop_update d (lr n) eps decay) (fun s => eq_refl) g x0 r c (K * A) B (fun n => K * real (lr n)) (fun _ => 0) second_inv) with (n := n) as (x & x' & S & W & W' & M).
  - apply Rmult_le_pos; lra.
  - exact HB.
  - intros m. destruct (Ha m) as (_ & P). split; [apply Rmult_le_pos; lra|apply Rmult_le_compat_l; lra].
  - exact Hx.
  - destruct Hx as (_ & Rx & Cx & _). rewrite Rx, Cx. destruct (zeros_elems d r c) as (Sz & Ez). split; [exact Sz|]. intros i j Hi Hj. rewrite Ez by assumption. apply second_ok_0.
  - clear n. intros n s x HI Wx. destruct (rmsprop_elems d (lr n) eps decay (g n) s x r c (proj1 HI) (within_shaped _ _ _ _ _ (Hg n))) as (delta & s' & E & Ss' & Sd & H).
    assert (N : forall i j, (i < r)%nat -> (j < c)%nat -> let m' := avg d (cv decay) (get s i j) (cv (fsub fone decay)) (fmul (get (g n) i j) (get (g n) i j)) in
      second_ok d m' /\ (1 - U) ^ 3 * (real (cv decay) * real (get s i j) + real (cv (fsub fone decay)) * real (get (g n) i j) ^ 2) - 3 * h <= real m').
    { intros i j Hi Hj. destruct (Hg n) as (_ & _ & _ & HG). destruct (HG i j Hi Hj) as (Fg & Lg). apply second_step; auto; try lra. now apply HI. }
    exists delta, s'. split; [exact E|]. split; [|split; [exact Sd|]].
    + split; [exact Ss'|]. intros i j Hi Hj. destruct (H i j Hi Hj) as (E1 & _). rewrite E1. now apply N.
    + intros i j Hi Hj. destruct (H i j Hi Hj) as (_ & E3). rewrite E3. destruct (N i j Hi Hj) as (N1 & N2). destruct (Hg n) as (_ & _ & _ & HG). destruct (HG i j Hi Hj) as (Fg & Lg).
      destruct (quotient_ok d K (get (g n) i j) _ (cv eps) HK Fg N1) with (2 := Fe) (3 := He) as (Fq & Lq).
      { apply (gradient_ratio d K (real (cv decay)) (real (cv (fsub fone decay))) (real (get s i j))); auto; try lra; [apply HI; auto|apply N1]. }
      apply (step_plain d K A); auto. lra.
  - exists x, x'. split; [exact S|]. split; [exact W|]. split; [exact W'|]. apply moved_plain; [apply Rmult_le_pos; [lra|apply Ha]|exact M].
Qed.
End Rmsprop.

(** ** AdaGrad *)
Notation GA := (adagrad_max d).
Definition top : Z := match d with F32 => 122 | F64 => 1016 end.
Definition half_top : R := match d with F32 => 2 ^ 61 | F64 => 2 ^ 508 end.
Definition acc_ok (m : val d) : Prop := finite m /\ 0 <= real m <= bpow radix2 top.
Lemma adagrad_reps : rep d (GA * GA) /\ 0 <= GA /\ 0 <= GA * GA /\ GA * GA < bpow radix2 (top - prec d) /\ rep d half_top /\ rep F64 half_top /\ rep d (2 * half_top) /\ 1 <= half_top /\ bpow radix2 top = half_top * half_top /\
  rep d (bpow radix2 (top + 1)) /\ bpow radix2 (top - prec d) <= bpow radix2 top.
Proof.
  unfold adagrad_max, top, half_top. destruct d.
  - replace (2 ^ 48 * 2 ^ 48) with (2 ^ 96) by ring. replace (2 * 2 ^ 61) with (2 ^ 62) by ring. replace (2 ^ 61 * 2 ^ 61) with (2 ^ 122) by ring.
    split; [apply rep_two; reflexivity|]. split; [lra|]. split; [lra|]. split; [rewrite pow2; apply bpow_lt; reflexivity|]. split; [apply rep_two; reflexivity|]. split; [apply rep_two; reflexivity|].
    split; [apply rep_two; reflexivity|]. split; [lra|]. split; [now rewrite pow2|]. split; [apply rep_bpow; cbn; lia|apply bpow_le; cbn; lia].
  - assert (E1 : 2 ^ 480 * 2 ^ 480 = 2 ^ 960) by (rewrite <- pow_add; reflexivity). assert (E2 : 2 * 2 ^ 508 = 2 ^ 509) by reflexivity. assert (E3 : 2 ^ 508 * 2 ^ 508 = 2 ^ 1016) by (rewrite <- pow_add; reflexivity).
    rewrite E1, E2, E3. split; [apply rep_two; reflexivity|]. split; [apply pow_le; lra|]. split; [apply pow_le; lra|]. split; [rewrite pow2; apply bpow_lt; reflexivity|]. split; [apply rep_two; reflexivity|]. split; [apply rep_two; reflexivity|].
    split; [apply rep_two; reflexivity|]. split; [apply pow_R1_Rle; lra|]. split; [now rewrite pow2|]. split; [apply rep_bpow; cbn; lia|apply bpow_le; cbn; lia].
Qed.
Lemma square_small (g : val d) B : finite g -> Rabs (real g) <= B -> rep d (B * B) -> let q := fmul g g in finite q /\ 0 <= real q <= B * B /\ (1 - U) * real g ^ 2 - h <= real q.
Proof.
  intros Fg Lg R. cbv zeta. destruct (square_op d g (B * B) Fg R) as (Fq & Pq & Lq & _).
  - rewrite <- pow2_abs. pose proof (Rabs_pos (real g)). replace (Rabs (real g) ^ 2) with (Rabs (real g) * Rabs (real g)) by ring. apply Rmult_le_compat; lra.
  - split; [exact Fq|]. split; [|exact Lq]. destruct (mul_in d g g 0 (B * B) Fg Fg (rep_0 d) R) as (_ & P & _); [|exact P].
    pose proof (Rabs_pos (real g)). replace (real g * real g) with (Rabs (real g) * Rabs (real g)) by (rewrite <- Rabs_mult; apply Rabs_right; nra).
    split; [apply Rmult_le_pos; lra|apply Rmult_le_compat; lra].
Qed.
Lemma acc_step (m g : val d) : acc_ok m -> finite g -> Rabs (real g) <= GA -> let m' := fadd m (fmul g g) in
  acc_ok m' /\ (1 - U) ^ 3 * (1 * real m + 1 * real g ^ 2) - 3 * h <= real m'.
Proof.
  intros (Fm & Hm) Fg Lg. cbv zeta. destruct adagrad_reps as (R1 & G1 & G2 & G3 & _ & _ & _ & _ & _ & R2 & T2). destruct (square_small g GA Fg Lg R1) as (Fq & Pq & Lq). set (q := fmul g g) in *.
  assert (X : 0 <= real m + real q <= bpow radix2 (top + 1)). { rewrite bpow_plus. change (bpow radix2 1) with 2. lra. }
  destruct (add_in d m q 0 _ Fm Fq (rep_0 d) R2 X) as (F & P & E). split.
  - split; [exact F|]. split; [apply P|]. rewrite E. eapply Rle_trans; [apply nearest_le with (y := bpow radix2 top + GA * GA); lra|]. apply absorbed; auto. unfold top. destruct d; cbn; lia.
  - pose proof (plus_error_rel d m q) as N. rewrite <- E in N. rewrite (Rabs_right (real m + real q)) in N by lra. apply rabs_le in N. pose proof (u_small d) as HU. pose proof (tiny_small d) as Hh.
    pose proof (pow2_ge_0 (real g)) as Pg. set (mm := real (fadd m q)) in *. clearbody mm. set (gg := real g ^ 2) in *. set (zm := real m) in *. set (zq := real q) in *. clear - N HU Hh Hm Lq Pg Pq.
    set (uu := U) in *. set (hh := h) in *. clearbody uu hh zm zq gg. assert (A1 : (1 - uu) * (zm + zq) <= mm) by lra. assert (A2 : (1 - uu) * (zm + ((1 - uu) * gg - hh)) <= (1 - uu) * (zm + zq)) by (apply Rmult_le_compat_l; lra).
    assert (A3 : (1 - uu) ^ 3 * zm <= (1 - uu) * zm) by (apply Rmult_le_compat_r; nra). assert (A4 : (1 - uu) ^ 3 * gg <= (1 - uu) ^ 2 * gg) by (apply Rmult_le_compat_r; nra). assert (uu * hh <= 1 * hh) by (apply Rmult_le_compat_r; lra). nra.
Qed.
Section Adagrad.
Let K : R := 1 + / 2 ^ 16.
Variables (A B : R) (lr : nat -> val F64) (eps : val F64) (r c : nat) (g : nat -> mat) (x0 : mat).
Hypothesis Ha : forall n, rate A (lr n).
Hypothesis HA : 0 <= A <= 2 ^ 19.
Hypothesis HB : room d (K * A) B.
Hypothesis HE : guard eps.
Hypothesis Hx : within d B r c x0.
Hypothesis Hg : forall n, within d GA r c (g n).
Definition acc_inv (s : mat) : Prop := shaped d s r c /\ forall i j, (i < r)%nat -> (j < c)%nat -> acc_ok (get s i j).
Lemma acc_ok_0 : acc_ok fzero.
Proof. split; [reflexivity|]. cbn. split; [lra|apply bpow_ge_0]. Qed.
Lemma adagrad_bounded n : exists x x', successive d (fun n => adagrad_optimize d (lr n) eps) g x0 n x x' /\
  within d (2 * B) r c x /\ within d (2 * B) r c x' /\ moved_at_most d (K * real (lr n)) r c x x'.
Proof.
  destruct (conv_guard d eps HE) as (Fe & He). assert (HK : 1 <= K <= 2 ^ 12) by (unfold K; lra).
  destruct (bounded_steps d mat (fun s => match s with AdagradState _ s => Some s | _ => None end) (AdagradState d) (fun v => m_zeros d (rows v) (cols v))
    (fun n => adagrad_update d (lr n) eps) (fun s => eq_refl) g x0 r c (K * A) B (fun n => K * real (lr n)) (fun _ => 0) acc_inv) with (n := n) as (x & x' & S & W & W' & M).
  - apply Rmult_le_pos; lra.
  - exact HB.
  - intros m. destruct (Ha m) as (_ & P). split; [apply Rmult_le_pos; lra|apply Rmult_le_compat_l; lra].
  - exact Hx.
  - destruct Hx as (_ & Rx & Cx & _). rewrite Rx, Cx. destruct (zeros_elems d r c) as (Sz & Ez). split; [exact Sz|]. intros i j Hi Hj. rewrite Ez by assumption. apply acc_ok_0.
  - clear n. intros n s x HI Wx. destruct (adagrad_elems d (lr n) eps (g n) s x r c (proj1 HI) (within_shaped _ _ _ _ _ (Hg n))) as (delta & s' & E & Ss' & Sd & H).
    assert (N : forall i j, (i < r)%nat -> (j < c)%nat -> let m' := fadd (get s i j) (fmul (get (g n) i j) (get (g n) i j)) in
      acc_ok m' /\ (1 - U) ^ 3 * (1 * real (get s i j) + 1 * real (get (g n) i j) ^ 2) - 3 * h <= real m').
    { intros i j Hi Hj. destruct (Hg n) as (_ & _ & _ & HG). destruct (HG i j Hi Hj) as (Fg & Lg). apply acc_step; auto. now apply HI. }
    exists delta, s'. split; [exact E|]. split; [|split; [exact Sd|]].
    + split; [exact Ss'|]. intros i j Hi Hj. destruct (H i j Hi Hj) as (E1 & _). rewrite E1. now apply N.
    + intros i j Hi Hj. destruct (H i j Hi Hj) as (_ & E3). rewrite E3. destruct (N i j Hi Hj) as ((Fm' & Pm') & N2). destruct (Hg n) as (_ & _ & _ & HG). destruct (HG i j Hi Hj) as (Fg & Lg).
      destruct adagrad_reps as (_ & _ & _ & _ & R1 & R2 & R3 & T1 & ET & _).
      destruct (quotient_op d (get (g n) i j) (fadd (get s i j) (fmul (get (g n) i j) (get (g n) i j))) (cv eps) half_top K w) as (Fq & Lq); auto; try lra.
      { unfold w. lra. }
      { apply (gradient_ratio d K 1 1 (real (get s i j))); auto; try lra; [unfold K; lra|apply HI; auto]. }
      apply (step_plain d K A); auto. lra.
  - exists x, x'. split; [exact S|]. split; [exact W|]. split; [exact W'|]. apply moved_plain; [apply Rmult_le_pos; [lra|apply Ha]|exact M].
Qed.
End Adagrad.
End Adaptive.
