(** * Optimizers in floating point: squares out of range *)
From Coq Require Import ZArith Bool Lia List Arith Reals Lra Psatz.
From Flocq Require Import Core BinarySingleNaN Relative.
From Verif Require Import DenseModel DenseSpec ArithModel ArithSpec FloatModel FloatSpec FloatProofs NumModel NumSpec NumLemmas AsmFloatSpec AsmFloat OptFloatModel OptFloatSpec OptFloatNum OptFloatNum2 OptFloatNum3 OptFloatProofs OptFloatNum4 OptFloatProofs2 OptFloatProofs3 OptFloatProofs4.
Import ListNotations.
Local Open Scope R_scope.

Section Frozen.
Variable d : dtype.
Notation mat := (dense (val d)).
Notation U := (u d).
Notation h := (half_tiny d).
Notation G := (grad_max d).
Notation cv := (conv F64 d).
Notation get m i j := (get fzero m i j).
Notation inf := (infinity : val d).

(** ** Infinity *)
Lemma inf_mul (y : val d) : finite y -> 0 < real y -> fmul inf y = inf.
Proof.
  intros F P. destruct y as [s| | |s m e Hm]; try discriminate; [cbn in P; lra|]. destruct s; [|reflexivity]. exfalso.
  unfold real, B2R in P. assert (F2R (beta := radix2) {| Fnum := SpecFloat.cond_Zopp true (Zpos m); Fexp := e |} < 0) by (apply F2R_lt_0; cbn; lia). lra.
Qed.
Lemma inf_add (y : val d) : finite y -> fadd inf y = inf.
Proof. intros F. destruct y; try discriminate; reflexivity. Qed.
Lemma add_inf (y : val d) : finite y -> fadd y inf = inf.
Proof. intros F. destruct y; try discriminate; reflexivity. Qed.
Lemma sqrt_inf : elem_sqrt d inf = inf.
Proof. apply B2SF_inj. destruct d; reflexivity. Qed.
(** with an infinite average the step is a zero *)
Lemma zero_step (v e a : val d) : finite v -> finite e -> finite a -> exists s, fmul (fdiv v (fadd (elem_sqrt d inf) e)) a = B754_zero s.
Proof.
  intros Fv Fe Fa. rewrite sqrt_inf, inf_add by exact Fe. destruct v as [sv| | |sv mv ev Hv]; try discriminate; destruct a as [sa| | |sa ma ea Hma]; try discriminate; eexists; reflexivity.
Qed.
Lemma zero_kept (x : val d) s : fsub x (B754_zero s) = x \/ same_number x (fsub x (B754_zero s)).
Proof. destruct x as [sx|sx| |sx mx ex Hx]; [right|left; reflexivity|left; reflexivity|left; reflexivity]. destruct sx, s; reflexivity. Qed.

(** ** The gradient *)
Notation O := (too_large d).
Lemma large_facts : 1 <= O /\ G <= O /\ rep d (4 * O) /\ rep d (8 * O) /\ limit d <= O * O.
Proof.
  unfold too_large, grad_max. rewrite limit_eq. destruct d.
  - replace (4 * 2 ^ 64) with (2 ^ 66) by ring. replace (8 * 2 ^ 64) with (2 ^ 67) by ring. replace (2 ^ 64 * 2 ^ 64) with (2 ^ 128) by ring.
    split; [lra|]. split; [lra|]. split; [apply rep_two; reflexivity|]. split; [apply rep_two; reflexivity|]. rewrite pow2. apply bpow_le. cbn. lia.
  - assert (E1 : 4 * 2 ^ 512 = 2 ^ 514) by (replace 4 with (2 ^ 2) by ring; rewrite <- pow_add; reflexivity). assert (E2 : 8 * 2 ^ 512 = 2 ^ 515) by (replace 8 with (2 ^ 3) by ring; rewrite <- pow_add; reflexivity).
    assert (E3 : 2 ^ 512 * 2 ^ 512 = 2 ^ 1024) by (rewrite <- pow_add; reflexivity). rewrite E1, E2, E3.
    split; [apply pow_R1_Rle; lra|]. split; [apply Rle_pow; [lra|lia]|]. split; [apply rep_two; reflexivity|]. split; [apply rep_two; reflexivity|]. rewrite pow2. apply bpow_le. cbn. lia.
Qed.
Lemma large_square (g : val d) : finite g -> O <= real g -> fmul g g = inf.
Proof.
  intros F L. destruct large_facts as (H1 & _ & _ & _ & H2). apply mul_over; auto; [|lra]. eapply Rle_trans; [exact H2|]. apply Rmult_le_compat; lra.
Qed.
(** the first average stays finite *)
Definition first_fin (v : val d) : Prop := finite v /\ Rabs (real v) <= 4 * O.
Lemma first_fin_step K b1 b2 v g : averages K b1 b2 -> first_fin v -> finite g -> Rabs (real g) <= 2 * O -> first_fin (avg d (cv b1) v (cv (fsub fone b1)) g).
Proof.
  intros Hb (Fv & Lv) Fg Lg. destruct (conv_averages d K b1 b2 Hb) as (F1 & F2 & _ & _ & P1 & P2 & P3 & P4 & _). destruct large_facts as (H1 & _ & R1 & R2 & _).
  set (p1 := real (cv b1)) in *. set (q1 := real (cv (fsub fone b1))) in *. pose proof (Rabs_pos (real v)) as Pv. pose proof (Rabs_pos (real g)) as Pg.
  destruct (average_op d v (cv b1) g (cv (fsub fone b1)) (4 * O) Fv F1 Fg F2 R1) as (F & L).
  { replace (2 * (4 * O)) with (8 * O) by ring. exact R2. }
  { rewrite Rabs_mult, (Rabs_right (real (cv b1))) by (fold p1; lra). fold p1. apply Rle_trans with (4 * O * 1); [apply Rmult_le_compat|]; lra. }
  { rewrite Rabs_mult, (Rabs_right (real (cv (fsub fone b1)))) by (fold q1; lra). fold q1. apply Rle_trans with (2 * O * 1); [apply Rmult_le_compat|]; lra. }
  split; [exact F|]. eapply Rle_trans; [exact L|]. rewrite (Rabs_right (real (cv b1))), (Rabs_right (real (cv (fsub fone b1)))) by (fold p1 q1; lra). fold p1 q1.
  pose proof (u_small d) as HU. pose proof (tiny_small d) as Hh. clear - HU Hh H1 Lv Lg P1 P2 P3 P4 Pv Pg. set (uu := U) in *. set (hh := h) in *. set (GG := O) in *. clearbody uu hh GG.
  set (a := Rabs (real v)) in *. set (b := Rabs (real g)) in *. clearbody a b p1 q1.
  assert (S : p1 * a + q1 * b <= GG * (4 - / 2 ^ 11)).
  { assert (p1 * a <= p1 * (4 * GG)) by (apply Rmult_le_compat_l; lra). assert (q1 * b <= q1 * (2 * GG)) by (apply Rmult_le_compat_l; lra).
    assert (GG * (4 * p1 + 2 * q1) <= GG * (4 - / 2 ^ 11)) by (apply Rmult_le_compat_l; lra). lra. }
  assert (E : (1 + uu) ^ 2 <= 1 + 3 * uu) by nra.
  apply Rle_trans with ((1 + 3 * uu) * (GG * (4 - / 2 ^ 11)) + 3 * hh).
  + apply Rplus_le_compat_r. apply Rmult_le_compat; try lra; [apply pow2_ge_0|]. apply Rplus_le_le_0_compat; apply Rmult_le_pos; lra.
  + assert (GG * ((1 + 3 * uu) * (4 - / 2 ^ 11)) <= GG * (4 - / 2 ^ 12)) by (apply Rmult_le_compat_l; lra). lra.
Qed.
(** the second average becomes infinite and stays so *)
Lemma mul_fin (x y : val d) B : finite x -> finite y -> 0 <= real x <= B -> rep d B -> 0 <= real y <= 1 -> finite (fmul x y).
Proof. intros Fx Fy Hx R Hy. apply (mul_in d x y 0 B Fx Fy (rep_0 d) R). split; [apply Rmult_le_pos; lra|]. apply Rle_trans with (B * 1); [apply Rmult_le_compat|]; lra. Qed.
Lemma second_over (b c m g : val d) : second_ok d m -> finite b -> finite c -> 0 <= real b <= 1 -> 0 < real c -> finite g -> O <= real g -> avg d b m c (fmul g g) = inf.
Proof.
  intros (Fm & Hm) Fb Fc Hb Hc Fg Lg. unfold avg. rewrite (large_square g Fg Lg), inf_mul by assumption. apply add_inf.
  destruct (grad_reps d) as (_ & _ & _ & _ & _ & _ & R & _). eapply mul_fin; eauto.
Qed.
Lemma second_inf (b c g : val d) : finite b -> finite c -> 0 < real b -> 0 <= real c <= 1 -> finite g -> Rabs (real g) <= G -> avg d b inf c (fmul g g) = inf.
Proof.
  intros Fb Fc Hb Hc Fg Lg. unfold avg. rewrite inf_mul by assumption. apply inf_add. destruct (grad_reps d) as (_ & _ & _ & _ & _ & R & _).
  destruct (square_small d g G Fg Lg R) as (Fq & Pq & _). eapply mul_fin; eauto.
Qed.

(** ** Histories *)
Section Spike.
Variables (r c k i j : nat) (g : nat -> mat) (x0 : mat).
Hypothesis Hx : shaped d x0 r c.
Lemma kept_step (x delta : mat) s : shaped d x r c -> shaped d delta r c -> (i < r)%nat -> (j < c)%nat -> get delta i j = B754_zero s ->
  forall x', m_sub_in d x delta = Some x' -> kept d x x' i j.
Proof.
  intros Sx Sd Hi Hj E x' Ex'. destruct (sub_elems d x delta r c Sx Sd) as (x1 & E1 & (_ & H)). rewrite Ex' in E1. injection E1 as <-. unfold kept. rewrite (H i j Hi Hj), E. apply zero_kept.
Qed.
Lemma adam_frozen K b1 b2 eps (alpha : nat -> val F64) A : averages K b1 b2 -> guard eps -> (forall n, rate A (alpha n)) -> A <= 2 ^ 19 -> spike d G r c g k i j ->
  forall n, (k <= n)%nat -> exists x x', successive d (fun n => adam_optimize d (alpha n) b1 b2 eps fzero) g x0 n x x' /\ kept d x x' i j.
Proof.
  intros Hb HE Ha HA (Hi & Hj & Hg & Hk & Hn) n Kn. destruct (conv_guard d eps HE) as (Fe & _).
  destruct (conv_averages d K b1 b2 Hb) as (F1 & F2 & F3 & F4 & P1 & P2 & P3 & P4 & P5 & P6 & P7 & P8). destruct large_facts as (L1 & L2 & _).
  assert (Sg : forall n, shaped d (g n) r c) by (intros m; destruct (Hg m) as (W1 & W2 & W3 & _); repeat split; auto).
  set (Inv := fun n (s : moments d) (x : mat) => moments_shaped d s r c /\ shaped d x r c /\ first_fin (get (mo_1 d s) i j) /\
     ((n <= k)%nat -> second_ok d (get (mo_2 d s) i j)) /\ ((k < n)%nat -> get (mo_2 d s) i j = inf)).
  destruct (run_successive d (moments d) (fun s => match s with AdamState _ s => Some s | _ => None end) (AdamState d) (moments_fresh d)
    (fun n => adam_update d (alpha n) b1 b2 eps fzero) (fun s => eq_refl) g x0 Inv (fun n x x' => (k <= n)%nat -> kept d x x' i j)) with (n := n) as (x & x' & S & Q).
  - destruct (moments_fresh_shaped d x0 r c Hx) as (S & E1 & E2). split; [exact S|]. split; [exact Hx|]. rewrite E1, E2 by assumption. split; [split; [reflexivity|cbn; rewrite Rabs_R0; lra]|].
    split; [intros _; apply second_ok_0|]. intros; lia.
  - clear n Kn. intros n s x (Ss & Sx & Hv & Hm1 & Hm2). destruct (adam_elems d (alpha n) b1 b2 eps fzero (g n) s x r c Ss (Sg n) Sx) as (delta & s' & E & Ss' & Sd & H).
    destruct (sub_elems d x delta r c Sx Sd) as (x' & Es & (Sx' & _)). exists delta, s', x'. split; [exact E|]. split; [exact Es|]. destruct (H i j Hi Hj) as (E1 & E2 & E3).
    destruct (Hg n) as (_ & _ & _ & Fg).
    assert (Lg : Rabs (real (get (g n) i j)) <= 2 * O). { destruct (Nat.eq_dec n k) as [->|Ne]; [|specialize (Hn n Ne); unfold at_ in Hn; lra]. unfold at_ in Hk. rewrite Rabs_right; lra. }
    assert (Hv' : first_fin (get (mo_1 d s') i j)). { rewrite E1. eapply first_fin_step; eauto. }
    assert (Hm' : (k <= n)%nat -> get (mo_2 d s') i j = inf).
    { intros Kn. rewrite E2. destruct (Nat.eq_dec n k) as [->|Ne].
      - apply second_over; auto; try lra. apply Hk.
      - rewrite Hm2 by lia. apply second_inf; auto; try lra. apply Hn, Ne. }
    split; [|].
    + split; [exact Ss'|]. split; [exact Sx'|]. split; [exact Hv'|]. split; [|intros; apply Hm'; lia].
      intros Kn. rewrite E2. apply second_step; auto; try lra; [apply Hm1; lia|]. apply Hn. lia.
    + intros Kn. specialize (Hm' Kn). rewrite E2 in Hm'. rewrite Hm' in E3. cbn [is0] in E3. rewrite E1 in Hv'.
      destruct (zero_step _ (cv eps) (cv (alpha n)) (proj1 Hv') Fe) as (sg & Z). { destruct (conv_rate d A _ (Ha n) HA) as (F & _). exact F. }
      change (is0 fzero) with true in E3. cbv iota in E3. rewrite Z in E3. exact (kept_step x delta sg Sx Sd Hi Hj E3 x' Es).
  - exists x, x'. split; [exact S|]. now apply Q.
Qed.
Lemma rmsprop_frozen K decay eps (lr : nat -> val F64) A : square_average K decay -> guard eps -> (forall n, rate A (lr n)) -> A <= 2 ^ 19 -> spike d G r c g k i j ->
  forall n, (k <= n)%nat -> exists x x', successive d (fun n => rmsprop_optimize d (lr n) eps decay) g x0 n x x' /\ kept d x x' i j.
Proof.
  intros Hb HE Ha HA (Hi & Hj & Hg & Hk & Hn) n Kn. destruct (conv_guard d eps HE) as (Fe & _).
  destruct (conv_square_average d K decay Hb) as (F1 & F2 & P1 & P2 & P3 & P4). destruct large_facts as (L1 & L2 & _).
  assert (Sg : forall n, shaped d (g n) r c) by (intros m; destruct (Hg m) as (W1 & W2 & W3 & _); repeat split; auto).
  set (Inv := fun n (s : mat) (x : mat) => shaped d s r c /\ shaped d x r c /\ ((n <= k)%nat -> second_ok d (get s i j)) /\ ((k < n)%nat -> get s i j = inf)).
  destruct (run_successive d mat (fun s => match s with RmspropState _ s => Some s | _ => None end) (RmspropState d) (fun v => m_zeros d (rows v) (cols v))
    (fun n => rmsprop_update d (lr n) eps decay) (fun s => eq_refl) g x0 Inv (fun n x x' => (k <= n)%nat -> kept d x x' i j)) with (n := n) as (x & x' & S & Q).
  - destruct Hx as (Wx & Rx & Cx). rewrite Rx, Cx. destruct (zeros_elems d r c) as (Sz & Ez). split; [exact Sz|]. split; [exact Hx|]. rewrite Ez by assumption. split; [intros _; apply second_ok_0|]. intros; lia.
  - clear n Kn. intros n s x (Ss & Sx & Hm1 & Hm2). destruct (rmsprop_elems d (lr n) eps decay (g n) s x r c Ss (Sg n)) as (delta & s' & E & Ss' & Sd & H).
    destruct (sub_elems d x delta r c Sx Sd) as (x' & Es & (Sx' & _)). exists delta, s', x'. split; [exact E|]. split; [exact Es|]. destruct (H i j Hi Hj) as (E2 & E3).
    destruct (Hg n) as (_ & _ & _ & Fg).
    assert (Hm' : (k <= n)%nat -> get s' i j = inf).
    { intros Kn. rewrite E2. destruct (Nat.eq_dec n k) as [->|Ne].
      - apply second_over; auto; try lra. apply Hk.
      - rewrite Hm2 by lia. apply second_inf; auto; try lra. apply Hn, Ne. }
    split; [|].
    + split; [exact Ss'|]. split; [exact Sx'|]. split; [|intros; apply Hm'; lia].
      intros Kn. rewrite E2. apply second_step; auto; try lra; [apply Hm1; lia|]. apply Hn. lia.
    + intros Kn. specialize (Hm' Kn). rewrite E2 in Hm'. rewrite Hm' in E3.
      destruct (zero_step _ (cv eps) (cv (lr n)) Fg Fe) as (sg & Z). { destruct (conv_rate d A _ (Ha n) HA) as (F & _). exact F. }
      rewrite Z in E3. exact (kept_step x delta sg Sx Sd Hi Hj E3 x' Es).
  - exists x, x'. split; [exact S|]. now apply Q.
Qed.
Lemma adagrad_frozen eps (lr : nat -> val F64) A : guard eps -> (forall n, rate A (lr n)) -> A <= 2 ^ 19 -> spike d (adagrad_max d) r c g k i j ->
  forall n, (k <= n)%nat -> exists x x', successive d (fun n => adagrad_optimize d (lr n) eps) g x0 n x x' /\ kept d x x' i j.
Proof.
  intros HE Ha HA (Hi & Hj & Hg & Hk & Hn) n Kn. destruct (conv_guard d eps HE) as (Fe & _). destruct large_facts as (L1 & L2 & _).
  assert (Sg : forall n, shaped d (g n) r c) by (intros m; destruct (Hg m) as (W1 & W2 & W3 & _); repeat split; auto).
  set (Inv := fun n (s : mat) (x : mat) => shaped d s r c /\ shaped d x r c /\ ((n <= k)%nat -> acc_ok d (get s i j)) /\ ((k < n)%nat -> get s i j = inf)).
  destruct (run_successive d mat (fun s => match s with AdagradState _ s => Some s | _ => None end) (AdagradState d) (fun v => m_zeros d (rows v) (cols v))
    (fun n => adagrad_update d (lr n) eps) (fun s => eq_refl) g x0 Inv (fun n x x' => (k <= n)%nat -> kept d x x' i j)) with (n := n) as (x & x' & S & Q).
  - destruct Hx as (Wx & Rx & Cx). rewrite Rx, Cx. destruct (zeros_elems d r c) as (Sz & Ez). split; [exact Sz|]. split; [exact Hx|]. rewrite Ez by assumption. split; [intros _; apply acc_ok_0|]. intros; lia.
  - clear n Kn. intros n s x (Ss & Sx & Hm1 & Hm2). destruct (adagrad_elems d (lr n) eps (g n) s x r c Ss (Sg n)) as (delta & s' & E & Ss' & Sd & H).
    destruct (sub_elems d x delta r c Sx Sd) as (x' & Es & (Sx' & _)). exists delta, s', x'. split; [exact E|]. split; [exact Es|]. destruct (H i j Hi Hj) as (E2 & E3).
    destruct (Hg n) as (_ & _ & _ & Fg).
    assert (Hm' : (k <= n)%nat -> get s' i j = inf).
    { intros Kn. rewrite E2. destruct (Nat.eq_dec n k) as [->|Ne].
      - rewrite large_square by (auto; apply Hk). apply add_inf. apply Hm1. lia.
      - rewrite Hm2 by lia. apply inf_add. destruct (adagrad_reps d) as (R & _). destruct (square_small d _ _ Fg (Hn n Ne) R) as (F & _). exact F. }
    split; [|].
    + split; [exact Ss'|]. split; [exact Sx'|]. split; [|intros; apply Hm'; lia].
      intros Kn. rewrite E2. apply acc_step; auto; [apply Hm1; lia|]. apply Hn. lia.
    + intros Kn. specialize (Hm' Kn). rewrite E2 in Hm'. rewrite Hm' in E3.
      destruct (zero_step _ (cv eps) (cv (lr n)) Fg Fe) as (sg & Z). { destruct (conv_rate d A _ (Ha n) HA) as (F & _). exact F. }
      rewrite Z in E3. exact (kept_step x delta sg Sx Sd Hi Hj E3 x' Es).
  - exists x, x'. split; [exact S|]. now apply Q.
Qed.
End Spike.
End Frozen.
