(** * Losses in floating point: the gradients of MSE and NLL, as lists *)
From Coq Require Import ZArith Bool Lia List Arith Reals Lra.
From Flocq Require Import Core BinarySingleNaN Relative.
From Verif Require Import FloatModel FloatSpec FloatProofs NumModel NumSpec NumLemmas AsmFloatSpec AsmFloat AsmFloat2 SoftFloat OptFloatNum NormFloatModel NormFloatSpec NormFloatNum NormFloatProofs NormFloatBack RnnFloatProofs LossFloatModel LossFloatModel2 LossFloatSpec LossFloatSpec2 LossFloatProofs LossFloatProofs4 LossFloatProofs7 LossFloatProofs9 LossFloatProofs11 LossFloatProofs12 LossFloatProofs13.
Import ListNotations.
Local Open Scope list_scope.
Local Open Scope R_scope.

Section Back.
Variable d : dtype.
Notation t := (half_tiny d).
Lemma mse_none (x y gp : val d) : finite x -> finite y -> finite gp -> real x = real y -> let g := fadd (fmul (fsub x y) gp) (fmul (fsub x y) gp) in finite g /\ real g = 0.
Proof.
  intros Fx Fy Fg E g. destruct (sub_op x y 0 Fx Fy (rep_0 d) ltac:(rewrite E, Rminus_eq_0, Rabs_R0; lra)) as (Fv & Lv & _). assert (Vv : real (fsub x y) = 0) by (apply rabs_le in Lv; lra).
  destruct (mul_in d (fsub x y) gp 0 0 Fv Fg (rep_0 d) (rep_0 d) ltac:(rewrite Vv; lra)) as (Fm & Lm & _). destruct (add_in d (fmul (fsub x y) gp) (fmul (fsub x y) gp) 0 0 Fm Fm (rep_0 d) (rep_0 d) ltac:(lra)) as (Fa & La & _). split; [exact Fa|unfold g; lra].
Qed.
Lemma mse_gradient mean (x y : list (val d)) (gy : val d) i : length x = length y -> Forall finite x -> Forall finite y -> finite gy -> (mean = true -> few d (length x)) -> (i < length x)%nat ->
  let e := real (nth i x fzero) - real (nth i y fzero) in let k := share mean (length x) in
  Rabs e <= safe d -> Rabs (real gy) <= safe d -> Rabs e * Rabs (real gy) <= safe d ->
  let gx := nth i (fst (mse_back d mean x y gy)) fzero in let gt := nth i (snd (mse_back d mean x y gy)) fzero in
  finite gx /\ finite gt /\ Rabs (real gx - k * real gy * e) <= 9 * u d * (k * Rabs (real gy) * Rabs e) + 8 * t * (Rabs e + 1) /\ real gt = - real gx /\ (e = 0 -> real gx = 0).
Proof.
  intros L Fx Fy Fg Hm Hi e k B1 B2 B3. cbv zeta. unfold mse_back, sub_grads. cbn [fst snd]. unfold differences.
  rewrite !nth_map_d by (rewrite ?map_length, zip_length by exact L; exact Hi). rewrite nth_zip by assumption. pose proof (nth_finite d x i Fx Hi) as Fa. pose proof (nth_finite d y i Fy ltac:(lia)) as Fb.
  destruct (mse_elem d mean (length x) _ _ gy Fa Fb Fg ltac:(lia) Hm B1 B2 B3) as (A & B). fold e k in B. destruct (minus_eq d _ A) as (C & D). split; [exact A|]. split; [exact C|]. split; [exact B|]. split; [exact D|]. intros E0.
  apply mse_none; [exact Fa|exact Fb| |unfold e in E0; lra]. destruct (reduce_back_ok d mean (length x) gy Fg ltac:(lia) Hm) as (Fr & Lr & _). destruct (half_eq d) as (Fh & Vh).
  apply (mul_op _ _ (Rabs (real (reduce_back d mean (length x) gy))) Fr Fh (rep_abs d _ Fr)). rewrite Vh, Rabs_mult, (Rabs_right (/ 2)) by lra. pose proof (Rabs_pos (real (reduce_back d mean (length x) gy))). lra.
Qed.

Lemma log_deriv_cases (v : val F64) : finite v -> (0 < real v -> go_log_deriv v = Some (fdiv fone v)) /\ (real v = 0 -> go_log_deriv v = Some (fdiv fone (lit 6044629098073146 (-79)))) /\ (real v < 0 -> go_log_deriv v = None).
Proof.
  intros Fv. unfold go_log_deriv. change (B754_zero false : val F64) with (fzero : val F64). assert (Z : real (fzero : val F64) = 0) by reflexivity.
  assert (L : forall b, (b = true <-> 0 < real v) -> flt (fzero : val F64) v = b). { intros b H. destruct (flt (fzero : val F64) v) eqn:E, b; auto; exfalso. - apply (lt_eq F64) in E; [|reflexivity|exact Fv]. rewrite Z in E. apply H in E. discriminate. - assert (0 < real v) as P by (now apply H). assert (flt (fzero : val F64) v = true) by (apply (lt_eq F64); [reflexivity|exact Fv|rewrite Z; lra]). congruence. }
  assert (Q : Beqb v (fzero : val F64) = if Req_EM_T (real v) 0 then true else false). { rewrite Beqb_correct by (exact Fv || reflexivity). unfold real. destruct (Req_bool_spec (B2R v) (B2R (fzero : val F64))) as [E|E], (Req_EM_T (B2R v) 0) as [E'|E']; auto; exfalso; first [apply E'; rewrite E; reflexivity|apply E; rewrite E'; reflexivity]. }
  split; [intros P; rewrite (L true) by (split; auto); reflexivity|]. rewrite Q.
  split; intros P; (rewrite (L false) by (split; [discriminate|intros; lra])); destruct (Req_EM_T (real v) 0); try lra; reflexivity.
Qed.
Lemma log_back_nth (x g : list (val d)) : length x = length g -> Forall finite x ->
  (Exists (fun v => real v < 0) x -> log_back d x g = None) /\
  (Forall (fun v => 0 <= real v) x -> exists l, log_back d x g = Some l /\ length l = length x /\
    forall i, (i < length x)%nat -> exists w : val F64, finite w /\ real w = log_point (real (nth i x fzero)) /\ nth i l fzero = fmul (conv F64 d (fdiv fone w)) (nth i g fzero)).
Proof.
  revert g. induction x as [|v x IH]; intros [|b g] L F; cbn in L; try lia.
  - split; [intros H; inversion H|]. intros _. exists []. split; [reflexivity|]. split; [reflexivity|]. intros i H. cbn in H. lia.
  - pose proof (Forall_inv F) as Fv. destruct (IH g ltac:(lia) (Forall_inv_tail F)) as (I1 & I2). destruct (conv_up d v Fv) as (Fu & Vu). destruct (log_deriv_cases _ Fu) as (C1 & C2 & C3). rewrite Vu in C1, C2, C3. cbn [log_back]. split.
    + intros H. destruct (Rlt_le_dec (real v) 0) as [N|N]; [now rewrite C3|]. assert (I3 : log_back d x g = None) by (apply I1; inversion H; [lra|assumption]). rewrite I3. now destruct (go_log_deriv _).
    + intros H. pose proof (Forall_inv H) as P. cbn beta in P. destruct (I2 (Forall_inv_tail H)) as (l & E & Ll & Hl).
      assert (K : exists w : val F64, finite w /\ real w = log_point (real v) /\ go_log_deriv (conv d F64 v) = Some (fdiv fone w)).
      { unfold log_point. destruct (Req_EM_T (real v) 0) as [Z|Z]; [exists (lit 6044629098073146 (-79)); split; [reflexivity|]; split; [reflexivity|now apply C2]|exists (conv d F64 v); split; [exact Fu|]; split; [exact Vu|apply C1; lra]]. }
      destruct K as (w & Fw & Vw & Ew). rewrite Ew, E. eexists. split; [reflexivity|]. split; [cbn; lia|]. intros [|i] Hi; [exists w; auto|]. cbn in Hi. apply Hl. lia.
Qed.
Lemma nll_gradient (x y : list (val d)) (gy : val d) : length x = length y -> Forall finite x -> Forall finite y -> finite gy ->
  (Exists (fun v => real v < 0) x -> nll_back d x y gy = None) /\
  (Forall (fun v => 0 <= real v) x -> exists g, nll_back d x y gy = Some g /\ length g = length x /\ forall i, (i < length x)%nat ->
    let p := log_point (real (nth i x fzero)) in let q := real (nth i y fzero) * real gy in
    normal d <= p -> Rabs q <= safe d -> / p * Rabs q <= safe d ->
    finite (nth i g fzero) /\ Rabs (real (nth i g fzero) - - (q / p)) <= 6 * u d * (Rabs q / p) + 4 * t * (Rabs q + / p + 1)).
Proof.
  intros L Fx Fy Fg. unfold nll_back, reduce_sum_back. rewrite FloatProofs.conv_back by (destruct d; exact I). destruct (neg_back_eq d gy Fg) as (Fn & Vn). set (gs := neg_back d gy) in *.
  destruct (log_back_nth x (map (fun z => fmul z gs) y) ltac:(now rewrite map_length) Fx) as (A & B). split; [exact A|]. intros P. destruct (B P) as (g & E & Lg & H). exists g. split; [exact E|]. split; [exact Lg|].
  intros i Hi. cbv zeta. set (p := log_point (real (nth i x fzero))) in *. set (q := real (nth i y fzero) * real gy) in *. intros Hp H1 H2.
  destruct (H i Hi) as (w & Fw & Vw & Ew). fold p in Vw. rewrite nth_map_d in Ew by lia. rewrite Ew. assert (Q : real (nth i y fzero) * real gs = - q) by (rewrite Vn; unfold q; ring).
  pose proof (nll_elem d w (nth i y fzero) gs Fw ltac:(lra) (nth_finite d y i Fy ltac:(lia)) Fn) as R. cbv zeta in R. rewrite Q, Rabs_Ropp, Vw in R. destruct (R H1 H2) as (R1 & R2). split; [exact R1|]. replace (- (q / p)) with (- q / p) by (unfold Rdiv; ring). exact R2.
Qed.
(** an inverse that overflows, times 0 *)
Definition small_elem : val d := match d with F32 => lit 1 (-140) | F64 => lit 1 (-1060) end.
Lemma small_elem_ok : finite small_elem /\ 0 < real small_elem /\ go_log_deriv (conv d F64 small_elem) = Some (fdiv fone (conv d F64 small_elem)) /\ conv F64 d (fdiv fone (conv d F64 small_elem)) = infinity.
Proof.
  assert (P : finite small_elem /\ 0 < real small_elem).
  { unfold small_elem. destruct d; [destruct (lit_eq F32 1 (-140) (1 * bpow radix2 (-140))) as (F & V)|destruct (lit_eq F64 1 (-1060) (1 * bpow radix2 (-1060))) as (F & V)]; [reflexivity|cbn; lia|cbn; lia|cbn; lia|..|reflexivity|cbn; lia|cbn; lia|cbn; lia|]; (split; [exact F|]); rewrite V, Rmult_1_l; apply bpow_gt_0. }
  destruct P as (F & P). split; [exact F|]. split; [exact P|]. split; [destruct (conv_up d _ F) as (Fu & Vu); apply log_deriv_cases; [exact Fu|rewrite Vu; exact P]|]. clear F P. unfold small_elem. destruct d; vm_compute; reflexivity.
Qed.
Lemma zero_times (gs : val d) : finite gs -> fmul infinity (fmul (fzero : val d) gs) = B754_nan.
Proof. destruct gs as [s|s| |s m e H]; try discriminate; reflexivity. Qed.
End Back.
