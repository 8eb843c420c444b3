(** * Softmax: the order of the outputs, their sum, and NaNs *)
From Coq Require Import ZArith Bool Lia List Arith Reals Lra Psatz.
From Flocq Require Import Core BinarySingleNaN Relative.
From Verif Require Import AsmModel AsmCode AsmCalls AsmSpec FloatModel FloatSpec FloatProofs NumModel NumSpec NumLemmas NumProofs NumProofs2 AsmFloatSpec AsmFloat AsmFloat2 AsmWords AsmWordsSpec AsmExp AsmExp2 AsmExp4 AsmLog5 AsmLog6 SoftModel SoftSpec SoftProofs SoftFloat SoftFloat2 SoftFloat3.
Import ListNotations.
Local Open Scope list_scope.
Local Open Scope R_scope.

(** ** The sum of the outputs *)
Lemma softmax_total d (l : list (val d)) : l <> [] -> fold_right (fun x s => softmax_of l x + s) 0 l = 1.
Proof.
  intros N. assert (P : 0 < exp_total l).
  { destruct l as [|x l]; [contradiction|]. unfold exp_total. cbn [fold_right]. pose proof (exp_pos (real x)). assert (0 <= fold_right (fun x s => exp (real x) + s) 0 l); [|lra]. clear. induction l as [|y l IH]; cbn [fold_right]; [lra|]. pose proof (exp_pos (real y)). lra. }
  unfold softmax_of. set (T := exp_total l) in *. assert (E : forall k : list (val d), fold_right (fun x s => exp (real x) / T + s) 0 k = exp_total k / T).
  { induction k as [|x k IH]; unfold exp_total in *; cbn [fold_right]; [unfold Rdiv; lra|]. rewrite IH. field. lra. }
  rewrite E. apply Rinv_r. lra.
Qed.
Lemma sum_near d (f : val d -> R) r a (l out : list (val d)) : Forall2 (fun x p => Rabs (real p - f x) <= r * f x + a) l out ->
  Rabs (total out - fold_right (fun x s => f x + s) 0 l) <= r * fold_right (fun x s => f x + s) 0 l + INR (length l) * a.
Proof.
  unfold total. induction 1 as [|x p l out H F IH]; cbn [fold_right]; [cbn; rewrite Rminus_0_r, Rabs_R0; lra|]. cbn [length]. rewrite S_INR.
  replace (real p + fold_right (fun x s => real x + s) 0 out - (f x + fold_right (fun x s => f x + s) 0 l)) with ((real p - f x) + (fold_right (fun x s => real x + s) 0 out - fold_right (fun x s => f x + s) 0 l)) by ring.
  eapply Rle_trans; [apply Rabs_triang|]. lra.
Qed.

(** ** The order *)
Lemma order_real h t D D' e e' : 0 < h <= / 100000 -> 0 < t -> t * 8 <= h * / 2 ^ 104 -> D' <= D - 4 * h -> -70 <= D -> Rabs (e - exp D) <= h * exp D + t -> Rabs (e' - exp D') <= h * exp D' + t -> e' <= e.
Proof.
  intros Hh Ht Ht' HD HL He He'. apply Rabs_le_inv in He, He'. pose proof (exp_pos D) as P. pose proof (exp_pos D') as P'.
  assert (G : exp (- (4 * h)) <= 1 - 3.9 * h).
  { pose proof (exp_ineq1_le (4 * h)) as M. rewrite exp_Ropp. pose proof (exp_pos (4 * h)) as Q. apply Rmult_le_reg_l with (exp (4 * h)); [exact Q|]. rewrite Rinv_r by lra. nra. }
  assert (X : exp D' <= exp D * (1 - 3.9 * h)).
  { apply Rle_trans with (exp D * exp (- (4 * h))); [|apply Rmult_le_compat_l; lra]. rewrite <- exp_plus. destruct (Rle_lt_or_eq_dec D' (D + - (4 * h)) ltac:(lra)) as [Q|Q]; [left; now apply exp_increasing|rewrite Q; lra]. }
  assert (Y : / 2 ^ 104 <= exp D).
  { rewrite <- (Ropp_involutive D), exp_Ropp. apply Rinv_le_contravar; [apply exp_pos|]. rewrite pow2, pow_exp. pose proof ln2_lower. left. apply exp_increasing. cbn [Z.of_nat Pos.of_succ_nat Pos.succ]. lra. }
  assert (Z : t * 8 <= h * exp D) by (eapply Rle_trans; [exact Ht'|]; apply Rmult_le_compat_l; [lra|exact Y]). clear Y Ht'.
  set (E := exp D) in *. set (E' := exp D') in *. clearbody E E'. assert (h * E' <= h * E) by (apply Rmult_le_compat_l; nra). lra.
Qed.
Lemma tau_eta d : tau d * 8 <= eta d * / 2 ^ 104.
Proof.
  apply Rle_trans with (/ 2 ^ 3 * eta d * / 2 ^ 104 * 8); [|replace (/ 2 ^ 3) with (/ 8) by (cbn; lra); right; lra]. apply Rmult_le_compat_r; [lra|].
  unfold tau, eta. destruct d; rewrite <- !inv_split; apply inv_le; lia.
Qed.
Lemma mul_mono d (a b k : val d) : finite (fmul a k) -> finite (fmul b k) -> 0 <= real k -> real a <= real b -> real (fmul a k) <= real (fmul b k).
Proof.
  intros Fa Fb P L. destruct (mul_back d a k Fa) as (_ & _ & ->). destruct (mul_back d b k Fb) as (_ & _ & ->). apply nearest_le. now apply Rmult_le_compat_r.
Qed.

Section Order.
Variable g : libm.
Hypothesis G : go_math g.
Variable d : dtype.
Variable c : cpu.

Theorem softmax_order (v : val d) vs es s : let l := v :: vs in let mx := ArithModel.max_loop flt v vs in
  Forall finite l -> INR (length l) * u d <= 64 -> exps g d c (map (fun w => fadd w (fneg mx)) l) es -> sum_of (floats d) s es ->
  let out := map (fun e => fmul e (fdiv fone s)) es in
  forall i j x x' p p', nth_error l i = Some x -> nth_error l j = Some x' -> nth_error out i = Some p -> nth_error out j = Some p' ->
  (forall z, In z l -> real z <= real x + 70) -> real x' <= real x - 4 * eta d -> real p' <= real p.
Proof.
  intros l mx Fl Hn He Hs out i j x x' p p' Hi Hj Hp Hp' M70 Hx.
  destruct (softmax_values g G d c v vs es s Fl Hn He Hs) as (_ & R & _). fold l out in R. rewrite Forall_forall in R.
  destruct (R p (nth_error_In _ _ Hp)) as (Fp & Pp). destruct (R p' (nth_error_In _ _ Hp')) as (Fp' & Pp'). clear R.
  destruct (max_finite d vs v Fl) as (Im & Mm). fold mx in Im, Mm. fold l in Im, Mm. pose proof (M70 mx Im) as Hm.
  assert (Fm : finite mx) by (rewrite Forall_forall in Fl; now apply Fl).
  destruct (exps_near g G d c mx l es Fm Fl Mm He) as (Le & Ne).
  unfold out in Hp, Hp'. rewrite nth_error_map in Hp, Hp'. destruct (nth_error es i) as [e|] eqn:Ei; [|discriminate]. destruct (nth_error es j) as [e'|] eqn:Ej; [|discriminate]. cbn [option_map] in Hp, Hp'.
  injection Hp as <-. injection Hp' as <-.
  assert (At : forall P (l k : list (val d)) i a b, Forall2 P l k -> nth_error l i = Some a -> nth_error k i = Some b -> P a b).
  { clear. intros P l k i a b F. revert i. induction F; intros [|i] A B; cbn in A, B; try discriminate; [congruence|eauto]. }
  pose proof (At _ _ _ _ _ _ Ne Hi Ei) as (Fe & Pe & Be). pose proof (At _ _ _ _ _ _ Ne Hj Ej) as (Fe' & Pe' & Be'). destruct (eta_tau d) as (T1 & T2 & _).
  assert (L : real e' <= real e). { apply (order_real (eta d) (tau d) (real x - real mx) (real x' - real mx)); auto; try lra. apply tau_eta. }
  destruct (mul_back d e (fdiv fone s) Fp) as (_ & Fk & V).
  assert (K : 0 <= real (fdiv fone s)).
  { apply Rnot_lt_le. intros N. destruct (softmax_values g G d c v vs es s Fl Hn He Hs) as (_ & R & X & _). apply Exists_exists in X. destruct X as (q & Iq & Pq). apply in_map_iff in Iq. destruct Iq as (eq & <- & Ieq).
      rewrite Forall_forall in R. destruct (R (fmul eq (fdiv fone s)) ltac:(apply in_map_iff; eauto)) as (Fq & _). destruct (mul_back d eq (fdiv fone s) Fq) as (_ & _ & Vq).
      assert (0 <= real eq). { apply In_nth_error in Ieq. destruct Ieq as (n & En). destruct (nth_error l n) as [xn|] eqn:Exn; [|apply nth_error_None in Exn; assert (n < length es)%nat by (apply nth_error_Some; congruence); lia]. apply (At _ _ _ _ _ _ Ne Exn En). }
      assert (nearest d (real eq * real (fdiv fone s)) <= 0) by (rewrite <- (proj1 (rep_0 d)); apply nearest_le; nra). lra. }
  now apply mul_mono.
Qed.
End Order.
