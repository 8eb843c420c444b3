(** * Losses in floating point: the gradients of MSE and NLL *)
From Coq Require Import ZArith Bool Lia List Arith Reals Lra.
From Flocq Require Import Core BinarySingleNaN Relative.
From Verif Require Import DenseModel ArithModel AsmModel AsmCode AsmCalls AsmSpec FloatModel FloatSpec FloatProofs NumModel NumSpec NumLemmas AsmFloatSpec AsmFloat AsmFloat2 SoftFloat OptFloatNum NormFloatModel NormFloatSpec NormFloatNum NormFloatProofs NormFloatBack RnnFloatProofs LossFloatModel LossFloatModel2 LossFloatSpec LossFloatSpec2 LossFloatProofs LossFloatProofs4 LossFloatProofs7 LossFloatProofs9 LossFloatProofs11 LossFloatProofs12.
Import ListNotations.
Local Open Scope list_scope.
Local Open Scope R_scope.

Lemma prod_near a A ra ha b B rb hb : 0 <= ra -> 0 <= ha -> Rabs (a - A) <= ra * Rabs A + ha -> Rabs (b - B) <= rb * Rabs B + hb ->
  Rabs (a * b - A * B) <= (ra + rb + ra * rb) * (Rabs A * Rabs B) + (1 + ra) * hb * Rabs A + ha * ((1 + rb) * Rabs B + hb).
Proof.
  intros Ra Ha HA HB. replace (a * b - A * B) with ((a - A) * b + A * (b - B)) by ring. eapply Rle_trans; [apply Rabs_triang|]. rewrite !Rabs_mult.
  pose proof (Rabs_triang (b - B) B) as T. replace (b - B + B) with b in T by ring. assert (Tb : Rabs b <= (1 + rb) * Rabs B + hb) by lra.
  assert (X1 : Rabs (a - A) * Rabs b <= (ra * Rabs A + ha) * ((1 + rb) * Rabs B + hb)) by (apply Rmult_le_compat; try apply Rabs_pos; lra).
  assert (X2 : Rabs A * Rabs (b - B) <= Rabs A * (rb * Rabs B + hb)) by (apply Rmult_le_compat_l; [apply Rabs_pos|lra]). lra.
Qed.
Section Back.
Variable d : dtype.
Notation t := (half_tiny d).
Lemma half_eq : finite (conv F64 d (conv d F64 (conv F64 d (lit 1 (-1)))) : val d) /\ real (conv F64 d (conv d F64 (conv F64 d (lit 1 (-1)))) : val d) = / 2.
Proof. destruct d; (split; [reflexivity|]); unfold real; vm_compute; lra. Qed.
Lemma tiny_safe : t * safe d <= / 1000 /\ t * / normal d <= / 1000.
Proof.
  unfold half_tiny, safe, normal. destruct d; rewrite Rinv_inv.
  - split; [replace (/ 2 ^ 150) with (/ 2 ^ 30 * / 2 ^ 120) by (rewrite <- inv_split; reflexivity)|replace (/ 2 ^ 150) with (/ 2 ^ 24 * / 2 ^ 126) by (rewrite <- inv_split; reflexivity)]; rewrite Rmult_assoc, Rinv_l, Rmult_1_r by (apply pow_nonzero; lra); apply inv_small; lia.
  - split; [replace (/ 2 ^ 1075) with (/ 2 ^ 75 * / 2 ^ 1000) by (rewrite <- inv_split; reflexivity)|replace (/ 2 ^ 1075) with (/ 2 ^ 53 * / 2 ^ 1022) by (rewrite <- inv_split; reflexivity)]; rewrite Rmult_assoc, Rinv_l, Rmult_1_r by (apply pow_nonzero; lra); apply inv_small; lia.
Qed.
Lemma mse_elem mean n (x y gy : val d) : finite x -> finite y -> finite gy -> (0 < n)%nat -> (mean = true -> few d n) ->
  let e := real x - real y in Rabs e <= safe d -> Rabs (real gy) <= safe d -> Rabs e * Rabs (real gy) <= safe d ->
  let gp := fmul (reduce_back d mean n gy) (conv F64 d (conv d F64 (conv F64 d (lit 1 (-1))))) in let g := fadd (fmul (fsub x y) gp) (fmul (fsub x y) gp) in
  finite g /\ Rabs (real g - share mean n * real gy * e) <= 9 * u d * (share mean n * Rabs (real gy) * Rabs e) + 8 * t * (Rabs e + 1).
Proof.
  intros Fx Fy Fg Hn Hm e Be Bg Beg gp g. pose proof (u_small d) as (U1 & U2). pose proof (inv_small 24 ltac:(lia)) as U3. pose proof (half_tiny_pos d) as T. pose proof (safe_largest d) as SL. pose proof (safe_1 d) as S1. destruct tiny_safe as (TS & _).
  destruct (reduce_back_ok d mean n gy Fg Hn Hm) as (Fr & Lr & Er & _). set (gs := reduce_back d mean n gy) in *.
  destruct half_eq as (Fh & Vh). fold gp.
  assert (K : 0 <= share mean n <= 1). { unfold share. destruct mean; [|lra]. assert (1 <= INR n) by (change 1 with (INR 1); apply le_INR; lia). split; [apply Rlt_le, Rinv_0_lt_compat; lra|rewrite <- Rinv_1; apply Rinv_le_contravar; lra]. }
  set (k := share mean n) in *. set (G := k * real gy / 2). assert (AG : Rabs G = k * Rabs (real gy) / 2) by (unfold G, Rdiv; rewrite !Rabs_mult, (Rabs_right k), (Rabs_right (/ 2)) by lra; reflexivity).
  destruct (sub_op x y (largest d) Fx Fy (rep_largest d) ltac:(fold e; lra)) as (Fv & _ & Ev & _). fold e in Ev. set (v := fsub x y) in *.
  assert (Lh : Rabs (real gs * / 2) <= Rabs (real gs)) by (rewrite Rabs_mult, (Rabs_right (/ 2)) by lra; pose proof (Rabs_pos (real gs)); lra).
  destruct (mul_op gs (conv F64 d (conv d F64 (conv F64 d (lit 1 (-1))))) (Rabs (real gs)) Fr Fh (rep_abs d gs Fr) ltac:(rewrite Vh; exact Lh)) as (Fp & Lp & Ep). fold gp in Fp, Lp, Ep. rewrite Vh in Ep.
  pose proof (Rabs_pos (real gy)) as PG. pose proof (Rabs_pos e) as PE. set (a := Rabs (real gy)) in *. set (b := Rabs e) in *.
  assert (KA : 0 <= k * a <= a) by (split; [apply Rmult_le_pos; lra|rewrite <- (Rmult_1_l a) at 2; apply Rmult_le_compat_r; lra]).
  assert (UK : 0 <= u d * (k * a) <= / 1000 * (k * a)) by (split; [apply Rmult_le_pos; lra|apply Rmult_le_compat_r; lra]).
  assert (Ep' : Rabs (real gp - G) <= 5 * u d * Rabs G + 3 * t).
  { unfold near_to in Ep. pose proof (Rabs_triang (real gp - real gs * / 2) (real gs * / 2 - G)) as Tr. replace (real gp - real gs * / 2 + (real gs * / 2 - G)) with (real gp - G) in Tr by ring.
    replace (real gs * / 2 - G) with ((real gs - k * real gy) * / 2) in Tr by (unfold G; field). rewrite (Rabs_mult (real gs - k * real gy)), (Rabs_right (/ 2)) in Tr by lra.
    rewrite (Rabs_mult (real gs)), (Rabs_right (/ 2)) in Ep by lra. pose proof (Rabs_triang (real gs - k * real gy) (k * real gy)) as T2. replace (real gs - k * real gy + k * real gy) with (real gs) in T2 by ring. rewrite (Rabs_mult k), (Rabs_right k) in T2 by lra. fold a in T2, Er. rewrite AG.
    assert (Hs : Rabs (real gs) <= 1.1 * (k * a) + 3 * t) by lra. assert (u d * (Rabs (real gs) * / 2) <= u d * ((1.1 * (k * a) + 3 * t) * / 2)) by (apply Rmult_le_compat_l; lra). assert (u d * t <= / 1000 * t) by (apply Rmult_le_compat_r; lra). lra. }
  assert (Ev' : Rabs (real v - e) <= u d * b + 0) by lra.
  pose proof (prod_near (real v) e (u d) 0 (real gp) G (5 * u d) (3 * t) ltac:(lra) ltac:(lra) Ev' Ep') as Ex. fold b in Ex. rewrite AG in Ex. set (w := k * a * b). assert (Wq : b * (k * a / 2) = w / 2) by (unfold w; field). rewrite Wq in Ex.
  assert (W0 : 0 <= w <= a * b) by (unfold w; split; [apply Rmult_le_pos; lra|apply Rmult_le_compat_r; lra]). assert (UW : 0 <= u d * w <= / 1000 * w) by (split; [apply Rmult_le_pos; lra|apply Rmult_le_compat_r; lra]).
  assert (UU : u d * u d * w <= / 1000 * (u d * w)) by (rewrite Rmult_assoc; apply Rmult_le_compat_r; lra). assert (TB : 0 <= t * b) by (apply Rmult_le_pos; lra). assert (UT : 0 <= u d * (t * b) <= / 1000 * (t * b)) by (split; [apply Rmult_le_pos; lra|apply Rmult_le_compat_r; lra]). assert (UT1 : 0 <= u d * t <= / 1000 * t) by (split; [apply Rmult_le_pos; lra|apply Rmult_le_compat_r; lra]).
  assert (TBs : t * b <= / 1000) by (apply Rle_trans with (t * safe d); [apply Rmult_le_compat_l; lra|exact TS]).
  assert (Ex' : Rabs (real v * real gp - e * G) <= 3.1 * (u d * w) + 3.1 * (t * b)).
  { eapply Rle_trans; [exact Ex|]. lra. }
  assert (EG : Rabs (e * G) = w / 2) by (rewrite Rabs_mult, AG; exact Wq).
  pose proof (Rabs_triang (real v * real gp - e * G) (e * G)) as Tp. replace (real v * real gp - e * G + e * G) with (real v * real gp) in Tp by ring. rewrite EG in Tp. assert (Ws : w <= safe d) by (rewrite (Rmult_comm a b) in W0; lra).
  destruct (mul_op v gp (largest d) Fv Fp (rep_largest d) ltac:(lra)) as (F1 & _ & E1). unfold near_to in E1. set (q := fmul v gp) in *.
  assert (Hp : Rabs (real v * real gp) <= 0.51 * w + 3.1 * (t * b)) by lra. assert (u d * Rabs (real v * real gp) <= u d * (0.51 * w + 3.1 * (t * b))) by (apply Rmult_le_compat_l; lra).
  pose proof (Rabs_triang (real q - real v * real gp) (real v * real gp - e * G)) as T3. replace (real q - real v * real gp + (real v * real gp - e * G)) with (real q - e * G) in T3 by ring.
  assert (Eq : Rabs (real q - e * G) <= 3.7 * (u d * w) + 3.2 * (t * b) + t) by lra.
  pose proof (Rabs_triang (real q - e * G) (e * G)) as T4. replace (real q - e * G + e * G) with (real q) in T4 by ring. rewrite EG in T4. assert (Hq : Rabs (real q) <= 0.51 * w + 3.2 * (t * b) + t) by lra.
  assert (T150 : t <= / 1000) by (pose proof (tiny_small d); pose proof (inv_small 150 ltac:(lia)); lra).
  assert (QQ : Rabs (real q + real q) = 2 * Rabs (real q)) by (replace (real q + real q) with (2 * real q) by ring; rewrite Rabs_mult, (Rabs_right 2) by lra; reflexivity).
  destruct (add_op q q (largest d) F1 F1 (rep_largest d) ltac:(rewrite QQ; lra)) as (F2 & _ & E2). rewrite QQ in E2. split; [exact F2|]. fold q in g. fold g in E2.
  assert (u d * (2 * Rabs (real q)) <= u d * (2 * (0.51 * w + 3.2 * (t * b) + t))) by (apply Rmult_le_compat_l; lra).
  pose proof (Rabs_triang (real g - (real q + real q)) (2 * (real q - e * G))) as T5. replace (real g - (real q + real q) + 2 * (real q - e * G)) with (real g - k * real gy * e) in T5 by (unfold G; field). rewrite (Rabs_mult 2), (Rabs_right 2) in T5 by lra.
  fold w. replace (9 * u d * w + 8 * t * (b + 1)) with (9 * (u d * w) + 8 * (t * b) + 8 * t) by ring. lra.
Qed.
(** Log and Prod backward at one element, for the argument w of the inverse *)
Lemma normal_pos : 0 < normal d.
Proof. unfold normal. destruct d; apply inv_pos. Qed.
Lemma inverse_normal (w : val F64) : finite w -> normal d <= real w -> let r := conv F64 d (fdiv fone w) : val d in finite r /\ Rabs (real r - / real w) <= 3 * u d * / real w + 3 * t.
Proof.
  intros Fw Hw. pose proof normal_pos as Np. assert (I0 : 0 < / real w) by (apply Rinv_0_lt_compat; lra). assert (I1 : / real w <= / normal d) by (apply Rinv_le_contravar; lra). destruct (one_eq F64) as (Fo & Vo).
  assert (Q : real (fone : val F64) / real w = / real w) by (rewrite Vo; unfold Rdiv; ring).
  assert (R64 : rep F64 (/ normal d)) by (unfold normal; destruct d; rewrite Rinv_inv; apply rep_big; cbn; lia). assert (Rd : rep d (/ normal d)) by (unfold normal; destruct d; rewrite Rinv_inv; apply rep_big; cbn; lia).
  destruct (@div_op F64 fone w (/ normal d) Fo ltac:(lra) R64 ltac:(rewrite Q, Rabs_right; lra)) as (F1 & V1 & E1). rewrite Q in E1. apply (near_64 d) in E1.
  destruct (@conv_op d _ (/ normal d) F1 Rd V1) as (F2 & V2 & E2). split; [exact F2|]. pose proof (two_roundings d _ _ _ E1 E2) as E. rewrite (Rabs_right (/ real w)) in E by lra. exact E.
Qed.
Lemma nll_elem (w : val F64) (y gs : val d) : finite w -> normal d <= real w -> finite y -> finite gs -> let P := real y * real gs in Rabs P <= safe d -> / real w * Rabs P <= safe d ->
  let g := fmul (conv F64 d (fdiv fone w)) (fmul y gs) in finite g /\ Rabs (real g - P / real w) <= 6 * u d * (Rabs P / real w) + 4 * t * (Rabs P + / real w + 1).
Proof.
  intros Fw Hw Fy Fg P BP BI g. pose proof (u_small d) as (U1 & U2). pose proof (inv_small 24 ltac:(lia)) as U3. pose proof (half_tiny_pos d) as T. pose proof (safe_largest d) as SL. pose proof (safe_1 d) as S1. destruct tiny_safe as (TS & TN). pose proof normal_pos as Np.
  destruct (inverse_normal w Fw Hw) as (Fr & Er). set (r := conv F64 d (fdiv fone w)) in *. assert (I0 : 0 < / real w) by (apply Rinv_0_lt_compat; lra). assert (I1 : / real w <= / normal d) by (apply Rinv_le_contravar; lra).
  unfold Rdiv. set (I := / real w) in *. destruct (mul_op y gs (largest d) Fy Fg (rep_largest d) ltac:(fold P; lra)) as (Fl & _ & El). unfold near_to in El. fold P in El. set (l := fmul y gs) in *.
  assert (AI : Rabs I = I) by (apply Rabs_right; lra). assert (Er2 : Rabs (real r - I) <= 3 * u d * Rabs I + 3 * t) by (rewrite AI; exact Er). pose proof (prod_near (real r) I (3 * u d) (3 * t) (real l) P (u d) t ltac:(lra) ltac:(lra) Er2 El) as Ex. rewrite AI in Ex.
  pose proof (Rabs_pos P) as PP. set (p := Rabs P) in *. set (w0 := I * p) in *. assert (W0 : 0 <= w0) by (unfold w0; apply Rmult_le_pos; lra). assert (UW : 0 <= u d * w0 <= / 1000 * w0) by (split; [apply Rmult_le_pos; lra|apply Rmult_le_compat_r; lra]).
  assert (UU : u d * (u d * w0) <= / 1000 * (u d * w0)) by (apply Rmult_le_compat_r; lra). assert (TI : 0 <= t * I <= / 1000) by (split; [apply Rmult_le_pos; lra|apply Rle_trans with (t * / normal d); [apply Rmult_le_compat_l; lra|exact TN]]). assert (TP : 0 <= t * p <= / 1000) by (split; [apply Rmult_le_pos; lra|apply Rle_trans with (t * safe d); [apply Rmult_le_compat_l; lra|exact TS]]).
  assert (UTI : 0 <= u d * (t * I) <= / 1000 * (t * I)) by (split; [apply Rmult_le_pos; lra|apply Rmult_le_compat_r; lra]). assert (UTP : 0 <= u d * (t * p) <= / 1000 * (t * p)) by (split; [apply Rmult_le_pos; lra|apply Rmult_le_compat_r; lra]).
  assert (T150 : t <= / 1000) by (pose proof (tiny_small d); pose proof (inv_small 150 ltac:(lia)); lra). assert (TT : 0 <= t * t <= / 1000 * t) by (split; [apply Rmult_le_pos; lra|apply Rmult_le_compat_r; lra]).
  assert (Ex' : Rabs (real r * real l - I * P) <= 4.1 * (u d * w0) + 1.1 * (t * I) + 3.1 * (t * p) + 0.1 * t).
  { eapply Rle_trans; [exact Ex|]. replace ((3 * u d + u d + 3 * u d * u d) * w0 + (1 + 3 * u d) * t * I + 3 * t * ((1 + u d) * p + t)) with (4 * (u d * w0) + 3 * (u d * (u d * w0)) + t * I + 3 * (u d * (t * I)) + 3 * (t * p) + 3 * (u d * (t * p)) + 3 * (t * t)) by ring. lra. }
  assert (EP : Rabs (I * P) = w0) by (rewrite Rabs_mult, AI; reflexivity).
  pose proof (Rabs_triang (real r * real l - I * P) (I * P)) as Tp. replace (real r * real l - I * P + I * P) with (real r * real l) in Tp by ring. rewrite EP in Tp.
  destruct (mul_op r l (largest d) Fr Fl (rep_largest d) ltac:(lra)) as (F1 & _ & E1). unfold near_to in E1. fold g in F1, E1. split; [exact F1|].
  set (z := t * I) in *. set (z2 := t * p) in *. assert (Hz : Rabs (real r * real l) <= 1.01 * w0 + 2 * z + 4 * z2 + t) by lra. assert (u d * Rabs (real r * real l) <= u d * (1.01 * w0 + 2 * z + 4 * z2 + t)) by (apply Rmult_le_compat_l; lra). assert (u d * t <= / 1000 * t) by (apply Rmult_le_compat_r; lra).
  pose proof (Rabs_triang (real g - real r * real l) (real r * real l - I * P)) as T3. replace (real g - real r * real l + (real r * real l - I * P)) with (real g - P * I) in T3 by ring.
  replace (6 * u d * (p * I) + 4 * t * (p + I + 1)) with (6 * (u d * w0) + 4 * z2 + 4 * z + 4 * t) by (unfold w0, z, z2; ring). lra.
Qed.
End Back.
