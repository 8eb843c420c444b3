(** * Losses in floating point: the gradient of the focal loss, and the counterexamples *)
From Coq Require Import ZArith Bool Lia List Arith Reals Lra Psatz Permutation.
From Flocq Require Import Core BinarySingleNaN Relative Plus_error.
From Verif Require Import DenseModel ArithModel AsmModel AsmCode AsmCalls AsmSpec AsmWords AsmWordsSpec AsmExp FloatModel FloatSpec FloatProofs NumModel NumSpec NumLemmas NumProofs NumProofs2 NumProofs4 NumMath AsmFloatSpec AsmFloat AsmFloat2 SoftModel SoftSpec SoftProofs SoftFloat SoftFloat2 SoftFloat5 OptFloatNum NormFloatModel NormFloatNum NormFloatBack NormFloatBack5 LossFloatModel LossFloatSpec LossFloatProofs LossFloatProofs2 LossFloatProofs3 LossFloatProofs4 LossFloatProofs5 LossFloatProofs6 LossFloatProofs7.
Import ListNotations.
Local Open Scope list_scope.
Local Open Scope R_scope.

Lemma mul_size d (a b : val d) A B C : finite a -> finite b -> Rabs (real a) <= A -> Rabs (real b) <= B -> rep d C -> A * B <= C -> finite (fmul a b) /\ Rabs (real (fmul a b)) <= C.
Proof.
  intros Fa Fb Ha Hb RC H. assert (P : Rabs (real a * real b) <= C) by (rewrite Rabs_mult; eapply Rle_trans; [|exact H]; apply Rmult_le_compat; auto; apply Rabs_pos).
  destruct (mul_in d a b (- C) C Fa Fb (rep_opp d C RC) RC ltac:(apply Rabs_le_inv; exact P)) as (F & Q & _). split; [exact F|now apply Rabs_le].
Qed.
Lemma rep_two d n : (n <= 100)%nat -> rep d (2 ^ n).
Proof. intros H. apply rep_pow2. destruct d; cbn; lia. Qed.
Section Loss.
Variable g : libm.
Hypothesis G : go_math g.
Hypothesis W : go_power g.
Variable d : dtype.
Variable c : cpu.
Variable sum : nat -> list (val d) -> val d.
Variable vexp : list (val d) -> list (val d).
Hypothesis Hsum : forall k l, sum_of (floats d) (sum k l) l.
Hypothesis Hexp : forall l, exps g d c l (vexp l).
Variable x : list (val d).
Hypothesis F : Forall finite x.
Variable k : nat.
Hypothesis K : (k < length x)%nat.
Notation n := (INR (length x)).
Hypothesis Hn : n * u d <= / 8.
Notation ce := (cross_entropy g d sum vexp x k).
Lemma focal_ce_finite gamma gy : finite ce -> real ce <= 2 ^ 30 -> finite gamma -> 1 <= real gamma <= 2 ^ 20 -> finite gy -> Rabs (real gy) <= 2 ^ 20 ->
  finite (focal_ce_grad g d sum vexp x k gamma gy) /\ Rabs (real (focal_ce_grad g d sum vexp x k gamma gy)) <= safe d.
Proof.
  intros Fc Bc Fg Bg Fy By. destruct (ce_sign g G d c sum vexp Hsum Hexp x F k K Hn) as [E|(_ & Pc)]; [exfalso; rewrite E in Fc; discriminate|]. destruct (focal_p_in g G d c sum vexp Hsum Hexp x F k K Hn Fc) as (Fp & Bp). unfold focal_ce_grad. set (p := focal_p g d sum vexp x k) in *.
  destruct (one_minus_in d p Fp Bp) as (Fo & Bo). destruct (conv_up d _ Fo) as (Fu & Vu). rewrite <- Vu in Bo. destruct (one_eq F64) as (F1 & V1).
  assert (Two : forall i j, 2 ^ (i + j) = 2 ^ i * 2 ^ j) by (intros; apply pow_add). 
  assert (Ac : Rabs (real ce) <= 2 ^ 30) by (rewrite Rabs_right; lra). assert (Ap : Rabs (real p) <= 1) by (rewrite Rabs_right; lra).
  destruct (sub_op gamma fone (real gamma) Fg F1 (rep_real F64 gamma Fg) ltac:(rewrite V1; apply Rabs_le; lra)) as (Fs & Bs & _ & Vs).
  assert (Ps : 0 <= real (fsub gamma fone)) by (rewrite Vs; apply nearest_pos; lra). destruct (power_range g W _ _ Fu Bo Fs Ps) as (Fw & Bw). destruct (conv_in F64 d _ 0 1 Fw (rep_0 d) (rep_1 d) Bw) as (Fq & Bq & _).
  destruct (power_range g W _ gamma Fu Bo Fg ltac:(lra)) as (Fw2 & Bw2). destruct (conv_in F64 d _ 0 1 Fw2 (rep_0 d) (rep_1 d) Bw2) as (Ff & Bf & _). fold p in Ff, Bf. fold (focal_factor g d sum vexp x k gamma) in *.
  set (q := conv F64 d (Pow g (conv d F64 (one_minus d p)) (fsub gamma fone))) in *. set (f := conv F64 d (Pow g (conv d F64 (one_minus d p)) gamma) : val d) in *. change (focal_factor g d sum vexp x k gamma) with f.
  destruct (conv_in F64 d gamma 0 (2 ^ 20) Fg (rep_0 d) (rep_two d 20 ltac:(lia)) ltac:(lra)) as (Fgd & Bgd & _). set (gd := conv F64 d gamma) in *.
  destruct (mul_size d q gd 1 (2 ^ 20) (2 ^ 20) Fq Fgd ltac:(rewrite Rabs_right; lra) ltac:(rewrite Rabs_right; lra) (rep_two d 20 ltac:(lia)) ltac:(lra)) as (F2 & B2).
  destruct (mul_size d ce gy (2 ^ 30) (2 ^ 20) (2 ^ 50) Fc Fy Ac By (rep_two d 50 ltac:(lia)) ltac:(rewrite <- Two; apply Rle_refl)) as (F3 & B3).
  destruct (mul_size d (fmul q gd) (fmul ce gy) (2 ^ 20) (2 ^ 50) (2 ^ 70) F2 F3 B2 B3 (rep_two d 70 ltac:(lia)) ltac:(rewrite <- Two; apply Rle_refl)) as (F4 & B4). set (gs := fmul (fmul q gd) (fmul ce gy)) in *.
  destruct (minus_eq d gs F4) as (F5 & V5). assert (B5 : Rabs (real (minus d gs)) <= 2 ^ 70) by (rewrite V5, Rabs_Ropp; exact B4).
  destruct (mul_size d p (minus d gs) 1 (2 ^ 70) (2 ^ 70) Fp F5 Ap B5 (rep_two d 70 ltac:(lia)) ltac:(lra)) as (F6 & B6). destruct (neg_back_eq d _ F6) as (F7 & V7). rewrite <- (Rabs_Ropp (real (fmul p _))), <- V7 in B6.
  destruct (mul_size d f gy 1 (2 ^ 20) (2 ^ 20) Ff Fy ltac:(rewrite Rabs_right; lra) By (rep_two d 20 ltac:(lia)) ltac:(lra)) as (F8 & B8).
  assert (L1 : 2 ^ 20 <= 2 ^ 70) by (apply Rle_pow; [lra|lia]). assert (L2 : 2 * 2 ^ 70 = 2 ^ 71) by reflexivity.
  destruct (@add_op d (fmul f gy) (neg_back d (fmul p (minus d gs))) (2 ^ 71) F8 F7 (rep_two d 71 ltac:(lia))) as (F9 & B9 & _).
  - eapply Rle_trans; [apply Rabs_triang|]. rewrite <- L2. lra.
  - split; [exact F9|]. eapply Rle_trans; [exact B9|]. unfold safe. destruct d; apply Rle_pow; lra || lia.
Qed.
End Loss.

(** ** Counterexamples *)
Definition huge (d : dtype) : val d := lit 1 (prec d).
Lemma huge_eq d : finite (huge d) /\ real (huge d) = cap d.
Proof. apply lit_eq; [unfold cap; now rewrite Rmult_1_l|destruct d; cbn; lia..]. Qed.
Lemma two_ok d : INR 2 * u d <= / 8.
Proof. pose proof (u_small d) as (U1 & U2). assert (/ 2 ^ 24 <= / 1000) by (apply inv_small; lia). cbn [INR]. lra. Qed.
Lemma top_first d (a b : val d) : finite a -> finite b -> real b <= real a -> top d [a; b] = a.
Proof.
  intros Fa Fb L. unfold top, arg. cbn [hd arg_max_loop]. assert (N1 : flt a a = false) by (destruct (flt a a) eqn:E; [apply lt_eq in E; auto; lra|reflexivity]). rewrite N1. cbn [arg_max_loop]. assert (N2 : flt a b = false) by (destruct (flt a b) eqn:E; [apply lt_eq in E; auto; lra|reflexivity]). rewrite N2. reflexivity.
Qed.
Lemma equal_loss d (a : val d) : cross_entropy_of [a; a] 0 = ln 2.
Proof.
  unfold cross_entropy_of, softmax_of, exp_total. cbn [map fold_right nth]. pose proof (exp_pos (real a)) as P. replace (exp (real a) / _) with (/ 2) by (field; lra). rewrite ln_Rinv by lra. ring.
Qed.
(** one hot class, and a score far below *)
Definition far (d : dtype) : val d := lit (-1000) 0.
Lemma far_eq d : finite (far d) /\ real (far d) = -1000.
Proof. apply lit_eq; [cbn; lra|destruct d; cbn; lia..]. Qed.
Lemma zero_eq d : finite (fzero : val d) /\ real (fzero : val d) = 0. Proof. split; reflexivity. Qed.
Lemma exp_far g d c : go_math g -> nth_error (powers d (vector_exp g d c) [fzero; far d]) 1 = Some (B754_zero false) /\ length (powers d (vector_exp g d c) [fzero; far d]) = 2%nat.
Proof.
  intros G. destruct (far_eq d) as (Ff & Vf). destruct (zero_eq d) as (Fz & Vz). assert (T : top d [fzero; far d] = fzero) by (apply top_first; auto; lra).
  unfold powers. rewrite T. destruct (vector_exp_ok g d c (sub_scalar d [fzero; far d] fzero)) as (L & H). rewrite sub_scalar_eq in *. set (ve := vector_exp g d c (map (fun w => fadd w (fneg fzero)) [fzero; far d])) in *. assert (L2 : length ve = 2%nat) by exact L. split; [|exact L2].
  set (t := fadd (far d) (fneg fzero)) in *. destruct (nth_error ve 1) as [e|] eqn:E; [|apply nth_error_None in E; rewrite L2 in E; lia].
  specialize (H 1%nat t e eq_refl E). assert (Ft : finite t /\ real t = -1000).
  { assert (R : rep d (-1000)) by (rewrite <- Vf; apply rep_real, Ff). destruct (add_in d (far d) (fneg fzero) (-1000) (-1000) Ff ltac:(now apply neg_finite) R R) as (A & B & _); [rewrite neg_eq, Vf, Vz; lra|]. fold t in A, B. split; [exact A|apply Rle_antisym; apply B]. }
  destruct Ft as (Ft & Vt). f_equal. clear E L L2. clearbody ve. change (length (map (fun w => fadd w (fneg fzero)) [fzero; far d])) with 2%nat in H. clearbody t. revert t e H Ft Vt. cbn [map length]. destruct d; intros t e H Ft Vt.
  - destruct H as (w & Dw & ->). assert (Wh : (1 <? whole (width c) 2)%nat = false) by (unfold width; destruct (avx2 c); reflexivity). rewrite Wh. unfold scalar. rewrite decode_encode, Dw. destruct (conv_up F32 t Ft) as (Fu & Vu).
    rewrite (exp_underflow g G); [reflexivity|exact Fu|lra].
  - cbn [SoftProofs.exp_value] in H. rewrite H. apply (exp_underflow g G); [exact Ft|lra].
Qed.
Lemma sum_zero d v (l : list (val d)) : sum_of (floats d) v l -> Forall finite l -> total_abs l = 0 -> finite v /\ real v = 0.
Proof.
  intros H Fl T. assert (Fs : finite v). { apply (sum_finite d v l H Fl). rewrite T, Rmult_0_r. pose proof (safe_largest d). assert (0 <= safe d) by (unfold safe; destruct d; apply pow_le; lra). lra. }
  split; [exact Fs|]. pose proof (sum_size d v l H Fs) as Sz. rewrite T, Rmult_0_r in Sz. pose proof (Rabs_pos (real v)). destruct (Req_dec (real v) 0) as [Q|Q]; [exact Q|]. exfalso. pose proof (Rabs_pos_lt _ Q). lra.
Qed.
(** a small number whose square underflows *)
Definition small (d : dtype) : val d := lit 1 (match d with F32 => -80 | F64 => -600 end).
Lemma small_eq d : finite (small d) /\ real (small d) <> 0.
Proof. destruct d; (split; [vm_compute; reflexivity|]); unfold real; intros E; apply eq_0_F2R in E; vm_compute in E; discriminate. Qed.
Lemma small_square d : map (fun v => fmul v (conv F64 d (conv d F64 (conv F64 d (lit 1 (-1)))))) (square d (differences d [small d] [fzero])) = [B754_zero false].
Proof. destruct d; vm_compute; reflexivity. Qed.
