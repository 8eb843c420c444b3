(** * The gradients of FixNorm and RMSNorm: the theorems *)
From Coq Require Import Reals.
From Coquelicot Require Import Coquelicot.
From Coq Require Import ZArith Bool Lia List Arith Lra Psatz.
From Flocq Require Import Core BinarySingleNaN.
From Verif Require Import FloatModel FloatSpec NumModel NumSpec NumLemmas AsmFloatSpec AsmFloat AsmFloat2 AsmModel AsmCalls AsmSpec OptFloatModel OptFloatNum NormFloatModel NormFloatSpec NormFloatNum NormFloatProofs NormFloatProofs2 NormFloatBack NormFloatBack2 NormFloatBack3 NormFloatBack4.
Import ListNotations.
Local Open Scope R_scope.

(** ** The true slope *)
Definition dots (g x : list R) : R := fold_right (fun p s => fst p * snd p + s) 0 (combine g x).
Lemma weighted_eq size g x : weighted size g x = dots g x / (size x + guard10).
Proof. unfold weighted, dots. set (w := size x + guard10). clearbody w. induction (combine g x) as [|(a, b) l IH]; cbn [fold_right fst snd]; [unfold Rdiv; ring|]. rewrite IH. unfold Rdiv. ring. Qed.
Lemma dots_replace g x i : length g = length x -> (i < length x)%nat -> exists A, (forall t, dots g (replace_at i t x) = nth i g 0 * t + A) /\ dots g x = nth i g 0 * nth i x 0 + A.
Proof.
  revert g i. induction x as [|a x IH]; intros [|b g] i L H; cbn in L, H; try lia. destruct i as [|i].
  - exists (dots g x). cbn [nth]. split; [|reflexivity]. intros t. reflexivity.
  - destruct (IH g i ltac:(lia) ltac:(lia)) as (A & E1 & E2). exists (b * a + A). cbn [nth]. split.
    + intros t. specialize (E1 t). change (replace_at (S i) t (a :: x)) with (a :: replace_at i t x). unfold dots in *. cbn [combine fold_right fst snd]. rewrite E1. ring.
    + unfold dots in *. cbn [combine fold_right fst snd]. rewrite E2. ring.
Qed.
Lemma squares_replace x i : (i < length x)%nat -> exists A, (forall t, squares (replace_at i t x) = t ^ 2 + A) /\ squares x = nth i x 0 ^ 2 + A.
Proof.
  revert i. induction x as [|a x IH]; intros i H; cbn in H; [lia|]. destruct i as [|i].
  - exists (squares x). split; [|reflexivity]. intros t. reflexivity.
  - destruct (IH i ltac:(lia)) as (A & E1 & E2). exists (a ^ 2 + A). split.
    + intros t. specialize (E1 t). change (replace_at (S i) t (a :: x)) with (a :: replace_at i t x). cbn [squares fold_right]. fold (squares (replace_at i t x)). rewrite E1. ring.
    + cbn [squares fold_right nth]. fold (squares x). rewrite E2. ring.
Qed.
Lemma replace_length i t (x : list R) : (i < length x)%nat -> length (replace_at i t x) = length x.
Proof. intros H. unfold replace_at. rewrite app_length, firstn_length. cbn [length]. rewrite skipn_length. lia. Qed.
Lemma slope_eq size c g x i : length g = length x -> (i < length x)%nat -> 0 < c -> 0 < squares x -> (forall y, length y = length x -> size y = sqrt (c * squares y)) ->
  let N := sqrt (c * squares x) in let M := N + guard10 in
  slope size g x i (nth i g 0 / M + c * nth i x 0 * (- / (M * M)) * dots g x / N).
Proof.
  intros L H Hc Hs Sz N M. destruct (dots_replace g x i L H) as (A & A1 & A2). destruct (squares_replace x i H) as (B & B1 & B2). unfold slope.
  assert (Ps : 0 < c * squares x) by now apply Rmult_lt_0_compat. assert (PN : 0 < N) by now apply sqrt_lt_R0. pose proof guard_low as G. assert (PM : 0 < M) by (unfold M; lra).
  apply (is_derive_ext (fun t => (nth i g 0 * t + A) / (sqrt (c * (t ^ 2 + B)) + guard10))).
  { intros t. rewrite weighted_eq, A1, Sz, B1; [reflexivity|]. now apply replace_length. }
  rewrite A2. unfold M, N in *. rewrite B2 in *. set (a := nth i x 0) in *. set (gi := nth i g 0) in *. clearbody a gi. set (e := guard10) in *. clearbody e.
  auto_derive.
  - replace (a * (a * 1)) with (a ^ 2) by ring. split; [exact Ps|]. split; [lra|exact I].
  - replace (a * (a * 1)) with (a ^ 2) by ring. set (n := sqrt (c * (a ^ 2 + B))) in *. clearbody n. field. lra.
Qed.

(** ** Lists *)
Lemma nth_zip {A} (f : A -> A -> A) x y i z : (i < length x)%nat -> (i < length y)%nat -> nth i (zip f x y) z = f (nth i x z) (nth i y z).
Proof. revert y i. induction x as [|a x IH]; intros [|b y] i Hx Hy; cbn in Hx, Hy; try lia. destruct i; [reflexivity|]. cbn [zip nth]. apply IH; lia. Qed.
Lemma zip_length {A B C} (f : A -> B -> C) x y : length x = length y -> length (zip f x y) = length x.
Proof. revert y. induction x as [|a x IH]; intros [|b y] H; cbn in *; try lia. rewrite IH; lia. Qed.
Lemma dots_reals d (x gy : list (val d)) : dots (reals gy) (reals x) = dot x gy.
Proof. revert gy. unfold dots, dot. induction x as [|a x IH]; intros [|b gy]; try reflexivity. cbn [reals map combine fold_right fst snd]. fold (reals x) (reals gy). rewrite IH. reflexivity. Qed.
Lemma nth_reals d (x : list (val d)) i : nth i (reals x) 0 = real (nth i x fzero).
Proof. exact (map_nth B2R x fzero i). Qed.

(** ** The tiny part of the error *)
Lemma tiny_part d n Y xi : few d n -> 0 <= Y <= INR n * back_max d -> 0 <= xi <= in_max d -> (3 * (Y + INR n) + 12 * (xi + 1)) * half_tiny d <= norm_tiny d.
Proof.
  intros H HY Hx. pose proof (few_count d n H) as C. pose proof (pos_INR n) as P. pose proof (half_tiny_pos d) as Hh. set (k := INR n) in *. clearbody k. unfold back_max, in_max, norm_tiny, half_tiny in *. destruct d.
  - assert (k * 2 ^ 20 <= 2 ^ 16 * 2 ^ 20) by (apply Rmult_le_compat_r; [apply pow_le; lra|exact C]). assert (3 * (Y + k) + 12 * (xi + 1) <= 2 ^ 60) by lra. assert ((3 * (Y + k) + 12 * (xi + 1)) * / 2 ^ 150 <= 2 ^ 60 * / 2 ^ 150) by (apply Rmult_le_compat_r; lra). lra.
  - assert (One : 1 <= 2 ^ 440) by (apply pow_R1_Rle; lra). assert (K : k * 2 ^ 440 <= 2 ^ 45 * 2 ^ 440) by (apply Rmult_le_compat_r; lra). assert (E : 3 * (Y + k) + 12 * (xi + 1) <= 2 ^ 50 * 2 ^ 440). { set (z := 2 ^ 440) in *. clearbody z. clear Hh. assert (k <= 2 ^ 45 * z) by (assert (2 ^ 45 * 1 <= 2 ^ 45 * z) by (apply Rmult_le_compat_l; lra); lra). lra. }
    apply (Rmult_le_compat_r (/ 2 ^ 1075)) in E; [|lra]. eapply Rle_trans; [exact E|]. replace (2 ^ 1075) with (2 ^ 50 * 2 ^ 440 * 2 ^ 585) by (rewrite <- !pow_add; f_equal; lia). rewrite Rinv_mult, <- Rmult_assoc, Rinv_r, Rmult_1_l by (apply Rmult_integral_contrapositive; split; apply pow_nonzero; lra).
    apply Rinv_le_contravar; [apply pow_lt; lra|apply Rle_pow; [lra|lia]].
Qed.
(** ** A visible element *)
Lemma visible_pos d c (x : list (val d)) s : sq_ok d c x s -> few d (length x) -> 0 < c <= 1 -> / c <= INR (length x) -> Exists (fun v => visible d <= Rabs (B2R v)) x -> 0 < real s /\ 0 < size_c d c x /\ 0 < squares (reals x).
Proof.
  intros Ok Hn Hc Cn Ex. apply Exists_exists in Ex as (v & Hv & V). pose proof (each_le c (reals x) (real v) ltac:(lra) (in_map _ _ _ Hv)) as E. change (B2R v) with (real v) in V.
  assert (V0 : 0 < visible d) by (unfold visible; destruct d; apply Rinv_0_lt_compat, pow_lt; lra). assert (V2 : visible d * visible d <= real v ^ 2). { replace (real v ^ 2) with (Rabs (real v) * Rabs (real v)) by (rewrite <- Rabs_mult; rewrite Rabs_right; [ring|apply Rle_ge, Rle_0_sqr]). apply Rmult_le_compat; lra. }
  assert (SP : 0 < squares (reals x)). { apply (Rmult_lt_reg_l c); [lra|]. rewrite Rmult_0_r. assert (0 < visible d * visible d) by now apply Rmult_lt_0_compat. assert (0 < c * real v ^ 2) by (apply Rmult_lt_0_compat; lra). lra. }
  assert (CS : 0 < c * squares (reals x)) by (apply Rmult_lt_0_compat; lra). split; [|split; [now apply sqrt_lt_R0|exact SP]].
  pose proof (sq_error _ _ _ _ Ok) as Er. apply rabs_le in Er. pose proof (few_small d _ Hn) as (R1 & _). set (w := c * squares (reals x)) in *. assert (1.5 * rho d (length x) * w <= 0.01 * w) by (apply Rmult_le_compat_r; lra).
  pose proof (few_count d _ Hn) as C. set (n := INR (length x)) in *. pose proof (half_tiny_pos d) as Hh.
  assert (cl : c * (visible d * visible d) <= w) by (assert (c * (visible d * visible d) <= c * real v ^ 2) by (apply Rmult_le_compat_l; lra); lra).
  assert (n1 : 1 <= n). { assert (1 <= / c) by (rewrite <- Rinv_1; apply Rinv_le_contravar; lra). lra. }
  assert (c1 : / n <= c). { rewrite <- (Rinv_inv c). apply Rinv_le_contravar; [apply Rinv_0_lt_compat; lra|exact Cn]. }
  enough (4 * n * half_tiny d < 0.9 * (/ n * (visible d * visible d))) by (assert (/ n * (visible d * visible d) <= c * (visible d * visible d)) by (apply Rmult_le_compat_r; [apply Rmult_le_pos; lra|lra]); lra).
  apply (Rmult_lt_reg_r n); [lra|]. replace (0.9 * (/ n * (visible d * visible d)) * n) with (0.9 * (visible d * visible d)) by (field; lra).
  assert (NN : n * n <= match d with F32 => 2 ^ 16 | F64 => 2 ^ 45 end * match d with F32 => 2 ^ 16 | F64 => 2 ^ 45 end) by (apply Rmult_le_compat; lra).
  replace (4 * n * half_tiny d * n) with (4 * half_tiny d * (n * n)) by ring. apply (Rle_lt_trans _ (4 * half_tiny d * (match d with F32 => 2 ^ 16 | F64 => 2 ^ 45 end * match d with F32 => 2 ^ 16 | F64 => 2 ^ 45 end))); [apply Rmult_le_compat_l; lra|].
  clear. unfold half_tiny, visible. destruct d; [lra|]. rewrite <- Rinv_mult, <- !pow_add. cbn [Nat.add].
  replace (2 ^ 1075) with (2 ^ 22 * (2 ^ 93 * 2 ^ 960)) by (rewrite <- !pow_add; f_equal; lia). replace (2 ^ 90) with (2 ^ 93 / 8) by (cbn [pow]; field). assert (0 < 2 ^ 960) by (apply pow_lt; lra). set (z := 2 ^ 960) in *. clearbody z.
  replace (4 * / (2 ^ 22 * (2 ^ 93 * z)) * (2 ^ 93 / 8)) with (/ 2 ^ 23 * / z) by (field; lra). apply Rmult_lt_compat_r; [now apply Rinv_0_lt_compat|lra].
Qed.

(** ** The theorems *)
Section Both.
Variables (m : libm) (d : dtype) (sum : nat -> list (val d) -> val d) (c : R) (x gy : list (val d)) (s gs : val d) (size : list R -> R).
Hypothesis Root : inverse_root m.
Hypothesis Adds : adds_all sum.
Hypothesis Ok : sq_ok d c x s.
Hypothesis Few : few d (length x).
Hypothesis C0 : 0 < c <= 1.
Hypothesis Cn : / c <= INR (length x).
Hypothesis Sized : sized (in_max d) x.
Hypothesis SizedY : sized (back_max d) gy.
Hypothesis Len : length x = length gy.
Hypothesis Vis : Exists (fun v => visible d <= Rabs (B2R v)) x.
Hypothesis Size : forall y, length y = length x -> size y = sqrt (c * squares y).
Notation den := (fadd (elem_sqrt d s) (eps10 d)).
Notation gs0 := (sqrt_back m d s (div_scalar_back2 d sum 1 x gy den)).
Hypothesis Fgs : finite gs0 -> Rabs (real gs0) <= gs_max d -> finite gs /\ Rabs (real gs - c * real gs0) <= 2.1 * u d * Rabs (c * real gs0) + 2.1 * half_tiny d.
Lemma back_ok : let gq := map (fun v => fmul v gs) x in close_slope size x gy (zip fadd (zip fadd (div_scalar_back d gy den) gq) gq).
Proof using All.
  intros gq. destruct (visible_pos d c x s Ok Few C0 Cn Vis) as (S0 & N0 & Q0). destruct (root_grad_ok m d sum c x gy s Root Adds Ok Few C0 Cn Sized SizedY Len S0 N0) as (_ & F0 & B0 & _). destruct (Fgs F0 B0) as (F1 & E1).
  assert (Lq : length gq = length x) by apply map_length. assert (Lg : length (div_scalar_back d gy den) = length x) by (unfold div_scalar_back; rewrite map_length; congruence).
  assert (Lz : length (zip fadd (div_scalar_back d gy den) gq) = length x) by (rewrite zip_length; congruence).
  split; [rewrite zip_length; congruence|]. intros i Hi. assert (Lr : length (reals x) = length x) by apply map_length.
  exists (nth i (reals gy) 0 / (sqrt (c * squares (reals x)) + guard10) + c * nth i (reals x) 0 * (- / ((sqrt (c * squares (reals x)) + guard10) * (sqrt (c * squares (reals x)) + guard10))) * dots (reals gy) (reals x) / sqrt (c * squares (reals x))).
  split. { apply slope_eq; [unfold reals; rewrite !map_length; symmetry; exact Len|rewrite Lr; exact Hi|lra|exact Q0|]. intros y Hy. apply Size. rewrite Hy. exact Lr. }
  rewrite (Size (reals x) Lr). change (sqrt (c * squares (reals x))) with (size_c d c x). rewrite dots_reals, !nth_reals.
  rewrite !nth_zip by (rewrite ?Lz, ?Lq, ?Lg; exact Hi). unfold gq, div_scalar_back. rewrite (nth_indep (map (fun v => fmul v gs) x) (fzero : val d) (fmul fzero gs)) by (rewrite map_length; exact Hi). rewrite (map_nth (fun v => fmul v gs)).
  rewrite (nth_indep (map (fun g => fmul g (recip d den)) gy) (fzero : val d) (fmul fzero (recip d den))) by (rewrite map_length, <- Len; exact Hi). rewrite (map_nth (fun g => fmul g (recip d den))).
  assert (Ix : In (nth i x fzero) x) by (apply nth_In; exact Hi). assert (Iy : In (nth i gy fzero) gy) by (apply nth_In; rewrite <- Len; exact Hi).
  destruct (element_ok m d sum c x gy s Root Adds Ok Few C0 Cn Sized SizedY Len S0 N0 gs F1 E1 (nth i x fzero) (nth i gy fzero) Ix Iy) as (Fz & Ez). split; [exact Fz|]. eapply Rle_trans; [exact Ez|]. apply Rplus_le_compat_l.
  apply tiny_part; [exact Few|split; [apply abs_sum_pos|rewrite Len; now apply abs_sum_le]|split; [apply Rabs_pos|]]. unfold sized in Sized. rewrite Forall_forall in Sized. apply (Sized _ Ix).
Qed.
End Both.

Lemma conv_back d (v : val d) : finite v -> finite (conv F64 d (conv d F64 v)) /\ real (conv F64 d (conv d F64 v)) = real v.
Proof.
  intros F. destruct (conv_up d v F) as (Fu & Eu). pose proof (rep_real d v F) as R. destruct (conv_in F64 d (conv d F64 v) (real v) (real v) Fu R R ltac:(lra)) as (F' & B & _). split; [exact F'|lra].
Qed.
Lemma sum_back d (v : val d) : finite v -> finite (reduce_sum_back d v) /\ Rabs (real (reduce_sum_back d v) - 1 * real v) <= 2.1 * u d * Rabs (1 * real v) + 2.1 * half_tiny d.
Proof.
  intros F. unfold reduce_sum_back. destruct (conv_back d v F) as (F' & E). split; [exact F'|]. rewrite E, Rmult_1_l, Rminus_eq_0, Rabs_R0. pose proof (u_pos d). pose proof (half_tiny_pos d). pose proof (Rabs_pos (real v)).
  assert (0 <= u d * Rabs (real v)) by (apply Rmult_le_pos; lra). lra.
Qed.
Lemma fix_back m d sum (x gy : list (val d)) : inverse_root m -> adds_all sum -> few d (length x) -> sized (in_max d) x -> sized (back_max d) gy -> length x = length gy -> Exists (fun v => visible d <= Rabs (B2R v)) x ->
  close_slope length_of x gy (fix_norm_back m d sum x gy).
Proof.
  intros Hm A Hn Hx Hy L V. assert (n1 : (0 < length x)%nat) by (destruct x; [inversion V|cbn; lia]). assert (1 <= INR (length x)) by (change 1 with (INR 1); apply le_INR; lia).
  apply (back_ok m d sum 1 x gy (fix_square d sum x) _ length_of Hm A (fix_square_ok d sum x A Hx Hn) Hn ltac:(lra) ltac:(rewrite Rinv_1; lra) Hx Hy L V).
  - intros y _. unfold length_of. now rewrite Rmult_1_l.
  - intros F _. now apply sum_back.
Qed.
Lemma mean_back d n (v : val d) : few d n -> (0 < n)%nat -> finite v -> Rabs (real v) <= gs_max d ->
  finite (reduce_mean_back d n v) /\ Rabs (real (reduce_mean_back d n v) - / INR n * real v) <= 2.1 * u d * Rabs (/ INR n * real v) + 2.1 * half_tiny d.
Proof.
  intros Hn Hp Fv Bv. assert (n1 : 1 <= INR n) by (change 1 with (INR 1); apply le_INR; lia). destruct (of_size_eq d n Hn) as (Fs & Es). destruct (conv_up d v Fv) as (Fu & Eu). destruct (back_facts d n Hn) as (_ & _ & _ & _ & G5).
  assert (G6 : rep F64 (gs_max d)) by (unfold gs_max; destruct d; apply rep_big; cbn; lia).
  assert (Pi : 0 < / INR n <= 1). { split; [apply Rinv_0_lt_compat; lra|]. rewrite <- Rinv_1. apply Rinv_le_contravar; lra. }
  assert (Q : Rabs (real (conv d F64 v) / real (of_size n)) <= gs_max d). { rewrite Eu, Es. unfold Rdiv. rewrite Rabs_mult, (Rabs_right (/ INR n)) by lra. pose proof (Rabs_pos (real v)). assert (Rabs (real v) * / INR n <= Rabs (real v) * 1) by (apply Rmult_le_compat_l; lra). lra. }
  destruct (div_op (conv d F64 v) (of_size n) (gs_max d) Fu ltac:(rewrite Es; lra) G6 Q) as (F1 & B1 & N1). rewrite Eu, Es in N1. apply (near_64 d) in N1. unfold Rdiv in N1. rewrite (Rmult_comm (real v)) in N1.
  destruct (conv_op (d := d) _ (gs_max d) F1 G5 B1) as (F2 & B2 & N2). fold (reduce_mean_back d n v) in *. split; [exact F2|]. pose proof (near_le (d := d) _ _ N1) as A1. unfold near_to in *.
  set (a := real (fdiv (conv d F64 v) (of_size n))) in *. set (w := / INR n * real v) in *. set (b := real (reduce_mean_back d n v)) in *.
  pose proof (u_small d) as (U0 & U1). pose proof (half_tiny_pos d) as Hh. pose proof (Rabs_pos w) as Pw. replace (b - w) with ((b - a) + (a - w)) by ring. eapply Rle_trans; [apply Rabs_triang|].
  assert (u d * Rabs a <= u d * ((1 + u d) * Rabs w + half_tiny d)) by (apply Rmult_le_compat_l; lra). assert (u d * (u d * Rabs w) <= u d * (0.05 * Rabs w)) by (apply Rmult_le_compat_l; [lra|]; apply Rmult_le_compat_r; lra). assert (u d * half_tiny d <= 0.05 * half_tiny d) by (apply Rmult_le_compat_r; lra).
  assert (0 <= u d * Rabs w) by (apply Rmult_le_pos; lra). lra.
Qed.
Lemma rms_back m d sum (x gy : list (val d)) : inverse_root m -> adds_all sum -> few d (length x) -> sized (in_max d) x -> sized (back_max d) gy -> length x = length gy -> Exists (fun v => visible d <= Rabs (B2R v)) x ->
  close_slope rms_of x gy (rms_unit_back m d sum x gy).
Proof.
  intros Hm A Hn Hx Hy L V. assert (n1 : (0 < length x)%nat) by (destruct x; [inversion V|cbn; lia]). assert (N1 : 1 <= INR (length x)) by (change 1 with (INR 1); apply le_INR; lia).
  assert (C0 : 0 < / INR (length x) <= 1). { split; [apply Rinv_0_lt_compat; lra|]. rewrite <- Rinv_1. apply Rinv_le_contravar; lra. }
  apply (back_ok m d sum (/ INR (length x)) x gy (rms_square d sum x) _ rms_of Hm A (rms_square_ok d sum x A Hx Hn n1) Hn C0 ltac:(rewrite Rinv_inv; lra) Hx Hy L V).
  - intros y E. unfold rms_of. rewrite E. f_equal. unfold Rdiv. ring.
  - intros F B. now apply mean_back.
Qed.
