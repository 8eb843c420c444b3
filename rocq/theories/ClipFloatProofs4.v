(** * Gradient clipping in floating point: accuracy, and the norm of the result *)
From Coq Require Import ZArith Bool Lia List Arith Reals Lra Psatz Permutation.
From Flocq Require Import Core BinarySingleNaN.
From Verif Require Import FloatModel FloatSpec FloatProofs NumModel NumSpec NumLemmas NumMath AsmModel AsmSpec AsmCalls AsmFloatSpec AsmFloat AsmFloat2 OptFloatModel OptFloatNum SoftFloat SoftFloat2 NormFloatSpec NormFloatEdge LossFloatSpec LossFloatProofs4 LossFloatProofs9 RnnFloatProofs
  ClipFloatModel ClipFloatSpec ClipFloatProofs ClipFloatProofs2 ClipFloatProofs3.
Import ListNotations.
Local Open Scope R_scope.

Lemma scaled_weaken d r r' k (x x' : val d) : 0 <= k -> r <= r' -> scaled_by r k x x' -> scaled_by r' k x x'.
Proof. intros Hk Hr (F & H). split; [exact F|]. eapply Rle_trans; [exact H|]. apply Rplus_le_compat_r, Rmult_le_compat_r; [|exact Hr]. apply Rmult_le_pos; [exact Hk|apply Rabs_pos]. Qed.
Lemma scaled_all d r r' k (gs gs' : list (list (val d))) : 0 <= k -> r <= r' -> Forall2 (Forall2 (scaled_by r k)) gs gs' -> Forall2 (Forall2 (scaled_by r' k)) gs gs'.
Proof. intros Hk Hr H. eapply Forall2_weaken; [|exact H]. intros l l' Hl. eapply Forall2_weaken; [|exact Hl]. intros x x'. now apply scaled_weaken. Qed.
Lemma factor_pos M n : 0 <= M -> 0 <= n -> 0 <= factor M n <= 1 /\ factor M n * n <= M.
Proof.
  intros HM Hn. unfold factor. change (lit 7555786372591432 (-76) : val F64) with small. destruct small_finite as (_ & Bs). assert (S1 : 0 < real small) by (pose proof (inv_pos 24); lra). assert (Q : 0 <= M / (n + real small)) by (apply Rmult_le_pos; [exact HM|left; apply Rinv_0_lt_compat; lra]).
  assert (K : M / (n + real small) * n <= M). { replace M with (M / (n + real small) * (n + real small)) at 2 by (field; lra). apply Rmult_le_compat_l; lra. }
  unfold Rmin. destruct (Rle_dec 1 (M / (n + real small))) as [L|L]; (split; [lra|]); [|exact K]. rewrite Rmult_1_l. eapply Rle_trans; [|exact K]. rewrite <- (Rmult_1_l n) at 1. apply Rmult_le_compat_r; lra.
Qed.

Section Accuracy.
Variable m : libm.
Variable d : dtype.
Variable sum : nat -> list (val d) -> val d.
Notation grads := (list (list (val d))).
(** ** Infinity norm *)
Lemma largest_clip (M : val F64) (gs : grads) : finite M -> 0 <= real M -> Forall (fun g => g <> [] /\ Forall finite g) gs -> largest_of gs <= 2 ^ 900 ->
  exists gs', norm_clip m d sum M infinity gs = Some gs' /\ Forall2 (Forall2 (scaled_by (9 * u d) (factor (real M) (largest_of gs)))) gs gs'.
Proof.
  intros FM PM F B. destruct (max_total d gs fzero F eq_refl (Rle_refl _)) as (t & E & Ft & Vt). pose proof (largest_pos d gs) as P. rewrite Rmax_right in Vt by exact P.
  unfold norm_clip. assert (L : fle (infinity : val F64) fone = false) by (vm_compute; reflexivity). rewrite L. cbn [total_norm infinity]. rewrite E. cbv zeta.
  destruct (clipped_all d M t (largest_of gs) 0 FM PM Ft ltac:(lra) P ltac:(lra)) with (gs := gs) as (gs' & E1 & H1).
  - rewrite Vt, Rminus_eq_0, Rabs_R0. lra.
  - eapply Forall_impl; [|exact F]. intros g H. apply H.
  - exists gs'. split; [exact E1|]. replace (2 * 0 + 9 * u d) with (9 * u d) in H1 by ring. exact H1.
Qed.
(** ** Euclidean norm *)
Hypothesis G : go_squares m.
Hypothesis A : adds_all sum.
Lemma under_small : half_tiny d * / u d <= (u d * / 2 ^ 26) * (u d * / 2 ^ 26) /\ / 2 ^ 1074 <= u d * / 2 ^ 26.
Proof.
  assert (Q : forall a b, half_tiny d = / 2 ^ (a + b) -> u d = / 2 ^ b -> (2 * b + 52 <= a)%nat -> (b + 26 <= 1074)%nat -> half_tiny d * / u d <= (u d * / 2 ^ 26) * (u d * / 2 ^ 26) /\ / 2 ^ 1074 <= u d * / 2 ^ 26).
  { intros a b H U L1 L2. rewrite H, U, inv_split. assert (P : / 2 ^ b <> 0) by (pose proof (inv_pos b); lra). rewrite Rmult_assoc, Rinv_r, Rmult_1_r by exact P. rewrite <- !inv_split. split; apply inv_le; lia. }
  unfold half_tiny, u. destruct d; [apply (Q 126%nat 24%nat)|apply (Q 1022%nat 53%nat)]; reflexivity || lia.
Qed.
Lemma root_near N (s : val F64) T : INR N * u d <= / 32 -> finite s -> 0 <= real s -> 0 <= T <= 2 ^ 1000 -> Rabs (real s - T) <= (2.5 * INR N + 10) * u d * T + half_tiny d * / u d ->
  let t := Pow m s one_half in finite t /\ 0 <= real t <= 2 ^ 900 /\ Rabs (real t - sqrt T) <= (2.5 * INR N + 27) * u d * (sqrt T + real small).
Proof.
  intros HN Fs Ps BT H t. destruct (root_value m G s Fs Ps) as (Ft & Pt & Et). fold t in Ft, Pt, Et. split; [exact Ft|]. pose proof (u_small d) as (U1 & U2). pose proof (inv_small 24 ltac:(lia)) as U3. pose proof (pos_INR N) as PN. set (a := (2.5 * INR N + 10) * u d) in *. assert (A0 : 0 <= a <= 0.1) by (unfold a; split; [apply Rmult_le_pos; lra|lra]).
  destruct under_small as (S1 & S2). set (b := half_tiny d * / u d) in *. set (w := u d * / 2 ^ 26) in *. pose proof (inv_pos 26) as I6. assert (W0 : 0 < w) by (apply Rmult_lt_0_compat; lra). assert (B0 : 0 <= b) by (unfold b; apply Rmult_le_pos; [left; apply half_tiny_pos|left; now apply Rinv_0_lt_compat]).
  assert (SB : sqrt b <= w) by (rewrite <- (sqrt_square w) by lra; now apply sqrt_le_1_alt). set (n := sqrt T). assert (N0 : 0 <= n) by apply sqrt_pos. assert (NN : n * n = T) by (apply sqrt_sqrt; lra). apply Rabs_le_inv in H. assert (AT : a * T <= 0.1 * T) by (apply Rmult_le_compat_r; lra). assert (AT0 : 0 <= a * T) by (apply Rmult_le_pos; lra).
  assert (Up : sqrt (real s) <= (1 + a) * n + w).
  { apply Rle_trans with (sqrt ((1 + a) * n * ((1 + a) * n) + b)); [apply sqrt_le_1_alt; replace ((1 + a) * n * ((1 + a) * n)) with ((1 + a) * (1 + a) * (n * n)) by ring; rewrite NN; assert (a * (a * T) <= a * (a * T)) by lra; assert (0 <= a * (a * T)) by (apply Rmult_le_pos; lra); lra|].
    eapply Rle_trans; [apply sqrt_plus; [apply Rle_0_sqr|exact B0]|]. rewrite sqrt_square by (apply Rmult_le_pos; lra). lra. }
  assert (Lo : (1 - a) * n - w <= sqrt (real s)).
  { assert (K : (1 - a) * n <= sqrt (real s + b)). { rewrite <- (sqrt_square ((1 - a) * n)) by (apply Rmult_le_pos; lra). apply sqrt_le_1_alt. replace ((1 - a) * n * ((1 - a) * n)) with ((1 - a) * ((1 - a) * (n * n))) by ring. rewrite NN. assert (a * ((1 - a) * T) >= 0) by (apply Rle_ge, Rmult_le_pos; [lra|apply Rmult_le_pos; lra]). lra. }
    pose proof (sqrt_plus (real s) b Ps B0). lra. }
  pose proof (inv_small 50 ltac:(lia)) as I5. pose proof (fifty d) as FF. pose proof (sqrt_pos (real s)) as Q0. destruct small_finite as (_ & Be). assert (E4 : 4 * / 2 ^ 26 = / 2 ^ 24) by (cbn [pow]; lra). assert (We : 4 * w <= u d * real small) by (unfold w; apply Rle_trans with (u d * / 2 ^ 24); [rewrite <- E4; lra|apply Rmult_le_compat_l; lra]).
  assert (Q1 : sqrt (real s) / 2 ^ 50 <= sqrt (real s) * (8 * u d)) by (unfold Rdiv; apply Rmult_le_compat_l; assumption). assert (Q2 : sqrt (real s) <= 1.1 * n + w) by (assert (a * n <= 0.1 * n) by (apply Rmult_le_compat_r; lra); lra). assert (Q3 : u d * sqrt (real s) <= u d * (1.1 * n + w)) by (apply Rmult_le_compat_l; lra). assert (Q4 : u d * w <= / 1000 * w) by (apply Rmult_le_compat_r; lra).
  apply Rabs_le_inv in Et. assert (Un : 0 <= u d * n) by (apply Rmult_le_pos; lra). split.
  - split; [exact Pt|]. assert (Bn : n <= 2 ^ 500). { unfold n. rewrite <- (sqrt_square (2 ^ 500)) by (apply pow_le; lra). apply sqrt_le_1_alt. rewrite <- pow_add. change (500 + 500)%nat with 1000%nat. lra. }
    assert (w <= 1) by (unfold w; assert (/ 2 ^ 26 <= 1) by (pose proof (inv_small 26 ltac:(lia)); lra); assert (u d * / 2 ^ 26 <= u d * 1) by (apply Rmult_le_compat_l; lra); lra). assert (U8 : u d * (1.1 * n + w) <= / 1000 * (1.1 * n + w)) by (apply Rmult_le_compat_r; lra). assert (B9 : 2 ^ 510 <= 2 ^ 900) by (apply Rle_pow; [lra|lia]). assert (B10 : 2 ^ 510 = 1024 * 2 ^ 500) by (change 510%nat with (10 + 500)%nat; rewrite pow_add; cbn [pow]; lra). assert (B11 : 1 <= 2 ^ 500) by (apply pow_R1_Rle; lra). lra.
  - fold n. assert (K : Rabs (real t - n) <= (a + 10 * u d) * n + u d * real small). { apply Rabs_le. split; lra. } eapply Rle_trans; [exact K|]. unfold a. assert (0 <= real small) by (pose proof (inv_pos 24); lra).
    assert (C1 : u d * real small <= (2.5 * INR N + 27) * u d * real small). { rewrite Rmult_assoc. rewrite <- (Rmult_1_l (u d * real small)) at 1. apply Rmult_le_compat_r; [apply Rmult_le_pos|]; lra. } rewrite Rmult_plus_distr_l. apply Rplus_le_compat; [|exact C1]. lra.
Qed.
Lemma euclid_clip (M : val F64) (gs : grads) : finite M -> 0 <= real M -> Forall (Forall finite) gs -> INR (length (concat gs) + length gs) * u d <= / 32 -> squares_of (concat gs) <= safe d ->
  exists gs', norm_clip m d sum M two gs = Some gs' /\ Forall2 (Forall2 (scaled_by (euclid_error d (length (concat gs)) (length gs)) (factor (real M) (euclid_of gs)))) gs gs'.
Proof.
  intros FM PM F HN B. set (N := (length (concat gs) + length gs)%nat) in *. destruct (total_near d m G sum A N HN gs F (Nat.le_refl _) B) as (Fs & Ps & Es). pose proof (squares_pos d (concat gs)) as PT. destruct (safe_500 d) as (S1 & _).
  destruct (root_near N _ (squares_of (concat gs)) HN Fs Ps ltac:(lra) Es) as (Ft & Bt & Et). fold (euclid_of gs) in Et. set (t := Pow m (sum_loop m d sum 0 two fzero gs) one_half) in *.
  pose proof (u_small d) as (U1 & U2). pose proof (inv_small 24 ltac:(lia)) as U3. pose proof (pos_INR N) as PN. assert (N0 : 0 <= euclid_of gs) by apply sqrt_pos.
  destruct (clipped_all d M t (euclid_of gs) ((2.5 * INR N + 27) * u d) FM PM Ft ltac:(lra) N0 ltac:(split; [apply Rmult_le_pos; lra|lra]) Et gs F) as (gs' & E1 & H1). exists gs'. split.
  - unfold norm_clip. destruct (two_ok) as (L & _). rewrite L, total_two. exact E1.
  - eapply scaled_all; [apply (factor_pos (real M) (euclid_of gs) PM N0)| |exact H1]. unfold euclid_error. fold N. lra.
Qed.
End Accuracy.

(** ** The norm of the result *)
Section Norm.
Variable d : dtype.
Lemma concat_related (P : val d -> val d -> Prop) gs gs' : Forall2 (Forall2 P) gs gs' -> Forall2 P (concat gs) (concat gs').
Proof. induction 1; cbn [concat]; [constructor|]. now apply Forall2_app. Qed.
Lemma scaled_size r k (x x' : val d) : 0 <= r -> 0 <= k -> scaled_by r k x x' -> Rabs (real x') <= ((1 + r) * k + 5 * half_tiny d) * Rabs (real x) + 5 * half_tiny d.
Proof. intros Hr Hk (_ & H). pose proof (Rabs_triang (real x' - k * real x) (k * real x)) as T. replace (real x' - k * real x + k * real x) with (real x') in T by ring. rewrite Rabs_mult, (Rabs_right k) in T by lra. lra. Qed.
Lemma largest_bound (gs gs' : list (list (val d))) a b : 0 <= a -> 0 <= b -> Forall2 (Forall2 (fun x x' => Rabs (real x') <= a * Rabs (real x) + b)) gs gs' -> largest_of gs' <= a * largest_of gs + b.
Proof.
  intros Ha Hb H. apply concat_related in H. unfold largest_of. induction H as [|x x' l l' Hx _ IH]; cbn [fold_right]; [lra|].
  assert (K1 := Rmax_l (Rabs (real x)) (fold_right (fun x t => Rmax (Rabs (real x)) t) 0 l)). assert (K2 := Rmax_r (Rabs (real x)) (fold_right (fun x t => Rmax (Rabs (real x)) t) 0 l)). set (mx := Rmax (Rabs (real x)) _) in *.
  apply Rmax_lub; [eapply Rle_trans; [exact Hx|]|eapply Rle_trans; [exact IH|]]; apply Rplus_le_compat_r, Rmult_le_compat_l; assumption.
Qed.
Lemma plane a b c e : 0 <= a -> 0 <= b -> 0 <= c -> 0 <= e -> sqrt ((a + b) * (a + b) + (c + e) * (c + e)) <= sqrt (a * a + c * c) + (b + e).
Proof.
  intros Ha Hb Hc He. set (s := sqrt (a * a + c * c)). assert (S0 : 0 <= s) by apply sqrt_pos. assert (SS : s * s = a * a + c * c) by (apply sqrt_sqrt; nra). assert (a <= s) by (apply Rsqr_incr_0_var; unfold Rsqr; nra). assert (c <= s) by (apply Rsqr_incr_0_var; unfold Rsqr; nra).
  rewrite <- (sqrt_square (s + (b + e))) by lra. apply sqrt_le_1_alt. nra.
Qed.
Lemma euclid_bound (gs gs' : list (list (val d))) a b : 0 <= a -> 0 <= b -> Forall2 (Forall2 (fun x x' => Rabs (real x') <= a * Rabs (real x) + b)) gs gs' -> euclid_of gs' <= a * euclid_of gs + b * INR (length (concat gs)).
Proof.
  intros Ha Hb H. apply concat_related in H. unfold euclid_of. induction H as [|x x' l l' Hx _ IH].
  - cbn. rewrite sqrt_0. lra.
  - change (squares_of (x' :: l')) with (real x' * real x' + squares_of l'). change (squares_of (x :: l)) with (real x * real x + squares_of l). change (length (x :: l)) with (S (length l)). rewrite S_INR.
    pose proof (squares_pos d l) as P1. pose proof (squares_pos d l') as P2. set (q := sqrt (squares_of l)) in *. set (q' := sqrt (squares_of l')) in *. assert (Q0 : 0 <= q) by apply sqrt_pos. assert (Q0' : 0 <= q') by apply sqrt_pos. assert (QQ : q * q = squares_of l) by now apply sqrt_sqrt. assert (QQ' : q' * q' = squares_of l') by now apply sqrt_sqrt. rewrite <- QQ, <- QQ'.
    pose proof (Rabs_pos (real x)) as X0. pose proof (Rabs_pos (real x')) as X1. assert (XX : real x * real x = Rabs (real x) * Rabs (real x)) by (rewrite <- Rabs_mult; symmetry; apply Rabs_right, Rle_ge, Rle_0_sqr). assert (XX' : real x' * real x' = Rabs (real x') * Rabs (real x')) by (rewrite <- Rabs_mult; symmetry; apply Rabs_right, Rle_ge, Rle_0_sqr). rewrite XX, XX'.
    set (X := Rabs (real x)) in *. set (X' := Rabs (real x')) in *. set (L := INR (length l)) in *. assert (L0 : 0 <= L) by apply pos_INR.
    apply Rle_trans with (sqrt ((a * X + b) * (a * X + b) + (a * q + b * L) * (a * q + b * L))); [apply sqrt_le_1_alt, Rplus_le_compat; apply Rmult_le_compat; assumption|].
    eapply Rle_trans; [apply plane; try (apply Rmult_le_pos; assumption); assumption|]. replace (a * X * (a * X) + a * q * (a * q)) with (a * a * (X * X + q * q)) by ring. rewrite sqrt_mult_alt by (apply Rmult_le_pos; assumption). rewrite sqrt_square by exact Ha. lra.
Qed.
End Norm.

(** ** A library with the squares and the root of Go *)
Definition squaring : libm := {| Exp := Exp rounded; Log := Log rounded; Tanh := Tanh rounded; Cosh := Cosh rounded;
  Pow x y := if Beqb y two then fmul x x else if Beqb y one_half then sqrt64 x else Pow rounded x y |}.
Lemma squaring_ok : go_squares squaring.
Proof.
  assert (P2 : forall x, Pow squaring x two = fmul x x) by (intros x; cbn [squaring Pow]; replace (Beqb two two) with true by (vm_compute; reflexivity); reflexivity).
  assert (Ph : forall x, Pow squaring x one_half = sqrt64 x) by (intros x; cbn [squaring Pow]; replace (Beqb one_half two) with false by (vm_compute; reflexivity); replace (Beqb one_half one_half) with true by (vm_compute; reflexivity); reflexivity).
  assert (U5 : u F64 <= / 2 ^ 50) by (unfold u; apply inv_le; lia). assert (H5 : half_tiny F64 <= / 2 ^ 1074) by (unfold half_tiny; apply inv_le; lia).
  constructor.
  - intros x Fx B. rewrite P2. assert (Q : 0 <= real x * real x) by apply Rle_0_sqr.
    assert (B2 : Rabs (real x * real x) <= largest F64).
    { rewrite Rabs_mult. pose proof (Rabs_pos (real x)). apply Rle_trans with (2 ^ 500 * 2 ^ 500); [apply Rmult_le_compat; assumption|]. rewrite <- pow_add. pose proof (safe_largest F64) as S. unfold safe in S. change (500 + 500)%nat with 1000%nat. assert (0 < 2 ^ 1000) by (apply pow_lt; lra). lra. }
    destruct (mul_op x x (largest F64) Fx Fx (rep_largest F64) B2) as (F & _ & N). split; [exact F|]. destruct (mul_back F64 x x F) as (_ & _ & V). split; [rewrite V; apply nearest_pos, Q|]. unfold near_to in N. rewrite (Rabs_right (real x * real x)) in N by lra.
    eapply Rle_trans; [exact N|]. unfold Rdiv. rewrite (Rmult_comm (u F64)). apply Rplus_le_compat; [apply Rmult_le_compat_l; lra|exact H5].
  - intros x Fx. rewrite P2. destruct (square_large F64 x Fx) as ([L|L] & _); auto.
  - intros x Fx B. rewrite P2. now apply square_large.
  - intros s. rewrite P2. now destruct s.
  - now rewrite P2.
  - intros x Fx Px. rewrite Ph. destruct (sqrt64_spec x Fx Px) as (F & V). split; [exact F|]. pose proof (sqrt_pos (real x)) as Q. split; [rewrite V; apply nearest_pos, Q|]. pose proof (round_error F64 (sqrt (real x))) as N. rewrite <- V, (Rabs_right (sqrt (real x))) in N by lra.
    eapply Rle_trans; [exact N|]. unfold Rdiv. rewrite (Rmult_comm (u F64)). apply Rplus_le_compat; [apply Rmult_le_compat_l; lra|exact H5].
  - now rewrite Ph.
  - now rewrite Ph.
Qed.
