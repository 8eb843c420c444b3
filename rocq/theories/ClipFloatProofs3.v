(** * Gradient clipping in floating point: the norms *)
From Coq Require Import ZArith Bool Lia List Arith Reals Lra Psatz Permutation.
From Flocq Require Import Core BinarySingleNaN.
From Verif Require Import FloatModel FloatSpec FloatProofs NumModel NumSpec NumLemmas AsmModel AsmSpec AsmCalls AsmFloatSpec AsmFloat AsmFloat2 OptFloatNum SoftFloat SoftFloat2 NormFloatSpec LossFloatSpec LossFloatProofs2 LossFloatProofs4 LossFloatProofs9 RnnFloatProofs
  ClipFloatModel ClipFloatSpec ClipFloatProofs ClipFloatProofs2.
Import ListNotations.
Local Open Scope R_scope.

(** ** The largest absolute value *)
Lemma go_max_eq (x y : val F64) : finite x -> finite y -> finite (go_max x y) /\ real (go_max x y) = Rmax (real x) (real y).
Proof.
  intros Fx Fy. assert (K : finite (if flt y x then x else y) /\ real (if flt y x then x else y) = Rmax (real x) (real y)).
  { destruct (flt y x) eqn:E; (split; [assumption|]); [apply lt_eq in E|apply lt_false in E]; auto; unfold Rmax; destruct (Rle_dec _ _); lra. }
  destruct x as [s|s| |s mx ex Hx]; try discriminate; destruct y as [t|t| |t my ey Hy]; try discriminate; try exact K. cbn [go_max]. destruct s; (split; [reflexivity|]); unfold Rmax, real; cbn [B2R]; destruct (Rle_dec 0 0); reflexivity.
Qed.
Lemma max_fold d (l : list (val d)) (a : val d) : Forall finite l -> finite a -> let v := fold_left (fun mx v => if flt mx v then v else mx) l a in finite v /\ real v = fold_right (fun x t => Rmax (real x) t) (real a) l.
Proof.
  revert a. induction l as [|x l IH]; intros a F Fa v; [split; [exact Fa|reflexivity]|]. inversion F as [|? ? Fx Fl]; subst. unfold v. cbn [fold_left fold_right]. set (b := if flt a x then x else a).
  assert (B : finite b /\ real b = Rmax (real x) (real a)). { unfold b. destruct (flt a x) eqn:E; (split; [assumption|]); [apply lt_eq in E|apply lt_false in E]; auto; unfold Rmax; destruct (Rle_dec _ _); lra. } destruct B as (Fb & Vb).
  destruct (IH b Fl Fb) as (F1 & V1). split; [exact F1|]. rewrite V1, Vb. clear. induction l as [|y l IH]; cbn [fold_right]; [reflexivity|]. rewrite IH, !Rmax_assoc, (Rmax_comm (real y)). reflexivity.
Qed.
Lemma safe_wide d : safe d <= safe F64.
Proof. unfold safe. destruct d; [apply Rle_pow; lra || lia|lra]. Qed.
Section Norms.
Variable d : dtype.
Notation grads := (list (list (val d))).
Lemma largest_cons (g : list (val d)) (gs : grads) : largest_of (g :: gs) = fold_right (fun x t => Rmax (Rabs (real x)) t) (largest_of gs) g.
Proof. unfold largest_of. cbn [concat]. apply fold_right_app. Qed.
Lemma largest_pos (gs : grads) : 0 <= largest_of gs.
Proof. unfold largest_of. induction (concat gs) as [|x l IH]; cbn [fold_right]; [lra|]. eapply Rle_trans; [exact IH|apply Rmax_r]. Qed.
Lemma fold_max_base (g : list (val d)) a : 0 <= a -> fold_right (fun x t => Rmax (Rabs (real x)) t) a g = Rmax (fold_right (fun x t => Rmax (Rabs (real x)) t) 0 g) a.
Proof. intros H. induction g as [|x g IH]; cbn [fold_right]; [now rewrite Rmax_right|]. now rewrite IH, Rmax_assoc. Qed.
Lemma fold_max_split (l : list (val d)) b : 0 <= b -> fold_right (fun x t => Rmax (real x) t) b (map fabs l) = Rmax b (fold_right (fun x t => Rmax (Rabs (real x)) t) 0 l).
Proof. intros H. induction l as [|x l IH]; cbn [map fold_right]; [now rewrite Rmax_left|]. rewrite IH, abs_eq, !Rmax_assoc, (Rmax_comm b). reflexivity. Qed.
Lemma max_gradient (g : list (val d)) : g <> [] -> Forall finite g -> exists v, max_elem d (map (abs_elem d) g) = Some v /\ finite v /\ real v = fold_right (fun x t => Rmax (Rabs (real x)) t) 0 g.
Proof.
  intros Ne F. rewrite abs_elems. destruct g as [|a g]; [easy|]. inversion F as [|? ? Fa Fg]; subst. cbn [map max_elem]. eexists. split; [reflexivity|]. destruct (max_fold d (map fabs g) (fabs a)) as (F1 & V1).
  - apply Forall_map. eapply Forall_impl; [|exact Fg]. intros x. apply abs_finite.
  - now apply abs_finite.
  - split; [exact F1|]. rewrite V1, abs_eq. cbn [fold_right]. apply fold_max_split. apply Rabs_pos.
Qed.
Lemma max_total (gs : grads) t : Forall (fun g => g <> [] /\ Forall finite g) gs -> finite t -> 0 <= real t -> exists v, max_loop d t gs = Some v /\ finite v /\ real v = Rmax (real t) (largest_of gs).
Proof.
  revert t. induction gs as [|g gs IH]; intros t F Ft Pt.
  - exists t. split; [reflexivity|]. split; [exact Ft|]. unfold largest_of. cbn. now rewrite Rmax_left.
  - inversion F as [|? ? (Ne & Fg) Fs]; subst. destruct (max_gradient g Ne Fg) as (v & E & Fv & Vv). cbn [max_loop]. rewrite E. destruct (conv_up d v Fv) as (Fu & Vu). destruct (go_max_eq (conv d F64 v) t Fu Ft) as (Fm & Vm).
    destruct (IH (go_max (conv d F64 v) t) Fs Fm) as (w & E1 & F1 & V1); [rewrite Vm; eapply Rle_trans; [exact Pt|apply Rmax_r]|]. exists w. split; [exact E1|]. split; [exact F1|]. rewrite V1, Vm, Vu, Vv, largest_cons, (fold_max_base g (largest_of gs) (largest_pos gs)). set (X := fold_right _ 0 g). rewrite (Rmax_comm X (real t)). symmetry. apply Rmax_assoc.
Qed.

(** ** Squares *)
Variable m : libm.
Hypothesis G : go_squares m.
Lemma squares_app (l k : list (val d)) : squares_of (l ++ k) = squares_of l + squares_of k.
Proof. unfold squares_of. induction l as [|x l IH]; cbn [app fold_right]; [lra|]. rewrite IH. lra. Qed.
Lemma squares_pos (l : list (val d)) : 0 <= squares_of l.
Proof. unfold squares_of. induction l as [|x l IH]; cbn [fold_right]; [lra|]. pose proof (Rle_0_sqr (real x)). unfold Rsqr in *. lra. Qed.
Lemma safe_500 : safe d <= 2 ^ 1000 /\ rep d (4 * safe d).
Proof. split; [unfold safe; destruct d; apply Rle_pow; lra || lia|]. apply (proj1 (safe_ok d (safe d) (Rle_refl _))). Qed.
Lemma square_near (x : val d) : finite x -> real x * real x <= safe d -> let s := pow_elem m d two (abs_elem d x) in
  finite s /\ 0 <= real s /\ Rabs (real s - real x * real x) <= 10 * u d * (real x * real x) + 4 * half_tiny d.
Proof.
  intros Fx B s. unfold s. rewrite abs_elem_eq. unfold pow_elem. assert (Fa : finite (fabs x)) by now apply abs_finite. destruct (conv_up d (fabs x) Fa) as (Fu & Vu). rewrite abs_eq in Vu. set (w := conv d F64 (fabs x)) in *. destruct safe_500 as (S1 & S2).
  assert (W : real w * real w = real x * real x) by (rewrite Vu, <- Rabs_mult; apply Rabs_right, Rle_ge, Rle_0_sqr).
  assert (L : Rabs (real w) <= 2 ^ 500). { rewrite Vu, Rabs_Rabsolu. apply Rsqr_incr_0_var; [|apply pow_le; lra]. unfold Rsqr. rewrite <- Rabs_mult, (Rabs_right (real x * real x)) by apply Rle_ge, Rle_0_sqr. rewrite <- pow_add. change (500 + 500)%nat with 1000%nat. lra. }
  destruct (sq_value m G w Fu L) as (Fs & Ps & E). set (v := Pow m w two) in *. rewrite W in E. set (q := real x * real x) in *. assert (Q : 0 <= q) by apply Rle_0_sqr.
  pose proof (u_small d) as (U1 & U2). pose proof (inv_small 24 ltac:(lia)) as U3. pose proof (fifty d) as FF. pose proof (inv_small 50 ltac:(lia)) as F5. pose proof (inv_small 1074 ltac:(lia)) as F6.
  assert (H4 : / 2 ^ 1074 <= 2 * half_tiny d). { apply Rle_trans with (2 * half_tiny F64). - unfold half_tiny. change 1075%nat with (S 1074). rewrite <- tech_pow_Rmult, Rinv_mult. lra. - pose proof (proj2 (u_wide d)). lra. }
  pose proof (half_tiny_pos d) as H5. pose proof (inv_pos 1074) as H6. assert (S3 : 1 <= safe d) by apply safe_1.
  assert (Q1 : q / 2 ^ 50 <= q * (8 * u d)) by (unfold Rdiv; apply Rmult_le_compat_l; assumption). assert (Q2 : q / 2 ^ 50 <= q * / 1000) by (unfold Rdiv; apply Rmult_le_compat_l; assumption).
  apply Rabs_le_inv in E. destruct (conv_in F64 d v 0 (4 * safe d) Fs (rep_0 d) S2 ltac:(lra)) as (Fc & Bc & Vc). split; [exact Fc|]. split; [lra|].
  pose proof (round_error d (real v)) as RE. rewrite <- Vc, (Rabs_right (real v)) in RE by lra. apply Rabs_le_inv in RE. assert (R1 : u d * real v <= u d * (1.01 * q + / 2 ^ 1074)) by (apply Rmult_le_compat_l; lra). assert (R2 : u d * / 2 ^ 1074 <= / 1000 * / 2 ^ 1074) by (apply Rmult_le_compat_r; lra). assert (R3 : 0 <= u d * q) by (apply Rmult_le_pos; lra).
  apply Rabs_le. lra.
Qed.
Variable sum : nat -> list (val d) -> val d.
Hypothesis A : adds_all sum.
Variable N : nat.
Hypothesis HN : INR N * u d <= / 32.
Notation a := ((1.2 * INR N + 10) * u d).
Lemma a_small : 0 <= a <= 0.1.
Proof. pose proof (u_small d) as (U1 & U2). pose proof (inv_small 24 ltac:(lia)) as U3. pose proof (pos_INR N). split; [apply Rmult_le_pos; lra|lra]. Qed.
Lemma group_near k (g : list (val d)) : Forall finite g -> (length g <= N)%nat -> squares_of g <= safe d -> let v := conv d F64 (sum k (map (pow_elem m d two) (map (abs_elem d) g))) in
  finite v /\ 0 <= real v /\ Rabs (real v - squares_of g) <= a * squares_of g + 5 * half_tiny d * INR (length g).
Proof.
  intros F L B. cbv zeta. rewrite map_map. set (sq := map (fun x => pow_elem m d two (abs_elem d x)) g). pose proof (u_small d) as (U1 & U2). pose proof (inv_small 24 ltac:(lia)) as U3. pose proof (half_tiny_pos d) as H5. destruct (tiny_u d) as (H6 & _).
  assert (Q : Forall finite sq /\ total_abs sq = total sq /\ 0 <= total sq /\ Rabs (total sq - squares_of g) <= 10 * u d * squares_of g + 4 * half_tiny d * INR (length g)).
  { unfold sq. clear sq L. revert B. induction F as [|x g Fx Fg IH]; intros B.
    - split; [constructor|]. cbn. split; [reflexivity|]. split; [lra|]. rewrite Rminus_eq_0, Rabs_R0. lra.
    - unfold squares_of in B. cbn [fold_right] in B. fold (squares_of g) in B. pose proof (squares_pos g) as Pg. pose proof (Rle_0_sqr (real x)) as Px. unfold Rsqr in Px. destruct IH as (F1 & T1 & P1 & E1); [lra|]. destruct (square_near x Fx ltac:(lra)) as (Fs & Ps & Es).
      cbn [map]. split; [now constructor|]. unfold total_abs, total. cbn [fold_right]. fold (total_abs (map (fun x => pow_elem m d two (abs_elem d x)) g)). fold (total (map (fun x => pow_elem m d two (abs_elem d x)) g)). rewrite T1, (Rabs_right (real (pow_elem m d two (abs_elem d x)))) by lra. split; [reflexivity|]. split; [lra|].
      change (squares_of (x :: g)) with (real x * real x + squares_of g). change (length (x :: g)) with (S (length g)). rewrite S_INR. apply Rabs_le_inv in E1, Es. apply Rabs_le. lra. }
  destruct Q as (F1 & T1 & P1 & E1). assert (Lq : length sq = length g) by apply map_length. pose proof (squares_pos g) as Pg. pose proof (pos_INR (length g)) as Pl. assert (Lr : INR (length g) <= INR N) by now apply le_INR.
  assert (Lu : INR (length g) * u d <= INR N * u d) by (apply Rmult_le_compat_r; lra). pose proof (gamma_small d (length g) ltac:(lra)) as Gm. pose proof (gamma_pos d (length g)) as Gp. assert (Hl : half_tiny d * INR (length g) <= / 1000). { replace (half_tiny d * INR (length g)) with (INR (length g) * half_tiny d) by ring. apply Rle_trans with (INR (length g) * (u d / 1000)); [apply Rmult_le_compat_l; lra|]. lra. }
  assert (Hl0 : 0 <= half_tiny d * INR (length g)) by (apply Rmult_le_pos; lra). assert (S3 : 1 <= safe d) by apply safe_1. assert (T2 : total sq <= 1.02 * squares_of g + 4 * (half_tiny d * INR (length g))). { apply Rabs_le_inv in E1. assert (u d * squares_of g <= / 1000 * squares_of g) by (apply Rmult_le_compat_r; lra). lra. }
  assert (Fv : finite (sum k sq)). { apply (sum_finite _ _ _ (A k sq) F1). change (@length (lane (floats d)) sq) with (@length (val d) sq). rewrite T1, Lq. pose proof (safe_largest d). assert ((1 + gamma d (length g)) * total sq <= 1.1 * total sq) by (apply Rmult_le_compat_r; lra). lra. }
  destruct (sum_error _ _ _ (A k sq) Fv) as (_ & Es). change (@length (lane (floats d)) sq) with (@length (val d) sq) in Es. rewrite T1, Lq in Es. pose proof (gamma_le d (length g - 1) (length g) ltac:(lia)) as Gl. assert (Es2 : gamma d (length g - 1) * total sq <= gamma d (length g) * total sq) by (apply Rmult_le_compat_r; lra).
  destruct (conv_up d _ Fv) as (Fu & Vu). split; [exact Fu|]. rewrite Vu. assert (Es3 : gamma d (length g) * total sq <= 0.1 * total sq) by (apply Rmult_le_compat_r; lra). apply Rabs_le_inv in Es. split; [lra|].
  assert (Es4 : gamma d (length g) * total sq <= 8 / 7 * (INR N * u d) * (1.02 * squares_of g + 4 * (half_tiny d * INR (length g)))) by (apply Rmult_le_compat; lra).
  assert (K1 : INR N * u d * squares_of g <= INR N * u d * squares_of g) by lra. assert (K2 : INR N * u d * (half_tiny d * INR (length g)) <= / 16 * (half_tiny d * INR (length g))) by (apply Rmult_le_compat_r; lra). assert (K3 : 0 <= INR N * u d * squares_of g) by (apply Rmult_le_pos; [apply Rmult_le_pos|]; lra || apply pos_INR).
  apply Rabs_le_inv in E1. apply Rabs_le. split; lra.
Qed.
(** ** The sum over the gradients *)
Fixpoint group_values (k : nat) (gs : grads) : list (val F64) :=
  match gs with
  | [] => []
  | g :: gs' => conv d F64 (sum k (map (pow_elem m d two) (map (abs_elem d) g))) :: group_values (S k) gs'
  end.
Lemma loop_fold gs k s : sum_loop m d sum k two s gs = fold_left fadd (group_values k gs) s.
Proof. revert k s. induction gs as [|g gs IH]; intros k s; [reflexivity|]. cbn [sum_loop group_values fold_left]. apply IH. Qed.
Lemma fold_sum (l k : list (val F64)) v : sum_of (floats F64) v k -> sum_of (floats F64) (fold_left fadd l v) (k ++ l).
Proof.
  revert k v. induction l as [|x l IH]; intros k v H; cbn [fold_left]; [now rewrite app_nil_r|]. replace (k ++ x :: l) with ((k ++ [x]) ++ l) by (now rewrite <- app_assoc). apply IH.
  exact (sum_add (floats F64) v x k [x] _ H (sum_one (floats F64) x) (Permutation_refl _)).
Qed.
Lemma groups_near gs k : Forall (Forall finite) gs -> (length (concat gs) <= N)%nat -> squares_of (concat gs) <= safe d -> let vs := group_values k gs in
  length vs = length gs /\ Forall finite vs /\ total_abs vs = total vs /\ 0 <= total vs /\ Rabs (total vs - squares_of (concat gs)) <= a * squares_of (concat gs) + 5 * half_tiny d * INR (length (concat gs)).
Proof.
  intros F. revert k. induction F as [|g gs Fg Fs IH]; intros k L B vs.
  - split; [reflexivity|]. split; [constructor|]. cbn. split; [reflexivity|]. split; [lra|]. rewrite Rminus_eq_0, Rabs_R0. lra.
  - unfold vs. cbn [concat group_values] in *. rewrite app_length, squares_app in *. pose proof (squares_pos g) as Pg. pose proof (squares_pos (concat gs)) as Ps. destruct (group_near k g Fg ltac:(lia) ltac:(lra)) as (Fv & Pv & Ev). destruct (IH (S k) ltac:(lia) ltac:(lra)) as (L1 & F1 & T1 & P1 & E1).
    cbn [length]. split; [now rewrite L1|]. split; [now constructor|]. unfold total_abs, total. cbn [fold_right]. fold (total_abs (group_values (S k) gs)). fold (total (group_values (S k) gs)). rewrite T1, Rabs_right by lra. split; [reflexivity|]. split; [lra|]. rewrite plus_INR. apply Rabs_le_inv in Ev, E1. apply Rabs_le. lra.
Qed.
Lemma total_near gs : Forall (Forall finite) gs -> (length (concat gs) + length gs <= N)%nat -> squares_of (concat gs) <= safe d -> let s := sum_loop m d sum 0 two fzero gs in
  finite s /\ 0 <= real s /\ Rabs (real s - squares_of (concat gs)) <= (2.5 * INR N + 10) * u d * squares_of (concat gs) + half_tiny d * / u d.
Proof.
  intros F L B. cbv zeta. destruct (groups_near gs 0 F ltac:(lia) B) as (L1 & F1 & T1 & P1 & E1). rewrite loop_fold. set (vs := group_values 0 gs) in *. set (T := squares_of (concat gs)) in *. assert (PT : 0 <= T) by apply squares_pos.
  pose proof (fold_sum vs [] fzero (sum_zero (floats F64))) as Sm. cbn [app] in Sm. set (s := fold_left fadd vs fzero) in *. pose proof (u_small d) as (U1 & U2). pose proof (inv_small 24 ltac:(lia)) as U3. pose proof (half_tiny_pos d) as H5. destruct (tiny_u d) as (H6 & _). destruct a_small as (A1 & A2).
  destruct (u_wide d) as (Uw & _). pose proof (u_pos F64) as U4. assert (Lr : INR (length vs) <= INR N) by (apply le_INR; lia). pose proof (pos_INR (length vs)) as Pl. assert (Lu : INR (length vs) * u F64 <= INR N * u d) by (apply Rmult_le_compat; lra). pose proof (gamma_small F64 (length vs) ltac:(lra)) as Gm. pose proof (gamma_pos F64 (length vs)) as Gp.
  assert (Cn : INR (length (concat gs)) * u d <= / 16). { apply Rle_trans with (/ 32); [|lra]. eapply Rle_trans; [|exact HN]. apply Rmult_le_compat_r; [lra|]. apply le_INR. lia. }
  assert (Hh : half_tiny d * INR (length (concat gs)) <= half_tiny d * / u d / 16). { unfold Rdiv. rewrite Rmult_assoc. apply Rmult_le_compat_l; [lra|]. apply Rmult_le_reg_r with (u d); [exact U1|]. replace (/ u d * / 16 * u d) with (/ 16) by (field; lra). exact Cn. }
  assert (Hu : half_tiny d * / u d <= / 1000). { apply Rmult_le_reg_r with (u d); [exact U1|]. rewrite Rmult_assoc, Rinv_l by lra. lra. } assert (Hp : 0 < half_tiny d * / u d) by (apply Rmult_lt_0_compat; [exact H5|now apply Rinv_0_lt_compat]).
  assert (S3 : 1 <= safe d) by apply safe_1. assert (AT : a * T <= 0.1 * T) by (apply Rmult_le_compat_r; lra). apply Rabs_le_inv in E1.
  assert (Fs : finite s). { apply (sum_finite _ _ _ Sm F1). change (@length (lane (floats F64)) vs) with (@length (val F64) vs). rewrite T1. pose proof (safe_largest F64). assert ((1 + gamma F64 (length vs)) * total vs <= 1.1 * total vs) by (apply Rmult_le_compat_r; lra). pose proof (safe_wide d). lra. }
  destruct (sum_error _ _ _ Sm Fs) as (_ & Es). change (@length (lane (floats F64)) vs) with (@length (val F64) vs) in Es. rewrite T1 in Es. pose proof (gamma_le F64 (length vs - 1) (length vs) ltac:(lia)) as Gl. assert (Es2 : gamma F64 (length vs - 1) * total vs <= gamma F64 (length vs) * total vs) by (apply Rmult_le_compat_r; lra). assert (Es3 : gamma F64 (length vs) * total vs <= 0.1 * total vs) by (apply Rmult_le_compat_r; lra).
  apply Rabs_le_inv in Es. split; [exact Fs|]. split; [lra|].
  assert (C2 : (length vs + length (concat gs) <= N)%nat) by lia. apply le_INR in C2. rewrite plus_INR in C2. 
  assert (Es4 : gamma F64 (length vs) * total vs <= 8 / 7 * (INR (length vs) * u d) * (1.1 * T + half_tiny d * / u d * (5 / 16))). { apply Rmult_le_compat; try lra. eapply Rle_trans; [exact Gm|]. apply Rmult_le_compat_l; [lra|]. apply Rmult_le_compat_l; lra. }
  pose proof (pos_INR (length (concat gs))) as Pc. 
  assert (K2 : INR (length vs) * u d * (half_tiny d * / u d) <= / 16 * (half_tiny d * / u d)) by (apply Rmult_le_compat_r; [lra|]; apply Rle_trans with (/ 32); [|lra]; eapply Rle_trans; [|exact HN]; apply Rmult_le_compat_r; lra).
  assert (K3 : 0 <= INR (length vs) * u d * T) by (apply Rmult_le_pos; [apply Rmult_le_pos|]; lra).
  assert (K4 : INR (length vs) * u d * T <= INR N * u d * T) by (apply Rmult_le_compat_r; [lra|]; apply Rmult_le_compat_r; lra).
  apply Rabs_le. split; lra.
Qed.
End Norms.
