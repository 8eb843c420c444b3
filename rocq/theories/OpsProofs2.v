(** * The losses *)
From Coq Require Import Reals List Arith Bool ZArith Lia Lra.
From Coquelicot Require Import Coquelicot.
From Verif Require Import DenseModel DenseSpec DenseLemmas ArithModel ArithSpec GradModel GradSpec GradLemmas GradProofs GradProofs4 GradProofs5 GradProofs6 GradProofs9 GradProofs10 OpsModel OpsSpec OpsLemmas OpsProofs.
Import ListNotations.
Open Scope R_scope.

Lemma same_entries x y : wf x -> wf y -> same_shape y x -> (x = y <-> forall k, (k < size x)%nat -> entry x k = entry y k).
Proof.
  intros Wx Wy HS. split; [intros ->; auto|]. intros H. rewrite (flat_of x Wx), (flat_of' y x Wy HS). apply flat_ext. rewrite <- size_wf by auto. exact H.
Qed.

Lemma mae_value x y m : wf x -> wf y -> same_shape y x ->
  mae x y m = Some (scalar (let s := total2 (fun a b => Rabs (a - b)) x y in if m then s / INR (size x) else s)).
Proof.
  intros Wx Wy HS. rewrite (flat_of x Wx) at 1. rewrite (flat_of' y x Wy HS) at 1. unfold mae, reduce. steps. unfold total2. rewrite (size_wf x Wx). destruct m; steps; reflexivity.
Qed.
Lemma mse_value x y m : wf x -> wf y -> same_shape y x ->
  mse x y m = Some (scalar (let s := total2 (fun a b => (a - b) ^ 2 / 2) x y in if m then s / INR (size x) else s)).
Proof.
  intros Wx Wy HS. rewrite (flat_of x Wx) at 1. rewrite (flat_of' y x Wy HS) at 1. unfold mse, reduce. steps. unfold total2. rewrite (size_wf x Wx).
  destruct m; steps; do 2 f_equal; [apply (f_equal (fun s => s / INR (rows x * cols x)))|]; apply Rsum_ext; intros k _; lra.
Qed.
Lemma distance_loss (x y : mat) (f : R -> R -> R) : wf x -> wf y -> same_shape y x -> (forall a b, 0 <= f a b) -> (forall a b, f a b = 0 <-> a = b) ->
  0 <= total2 f x y /\ (total2 f x y = 0 <-> x = y).
Proof.
  intros Wx Wy HS H1 H2. split; [apply Rsum_nonneg; auto|]. rewrite (same_entries x y Wx Wy HS). split.
  - intros H k Hk. apply H2. apply (Rsum_zero (size x) (fun k => f (entry x k) (entry y k))); auto.
  - intros H. apply Rsum_0. intros k Hk. apply H2. auto.
Qed.
Lemma mean_sign m (s n : R) : 0 < n -> 0 <= s -> 0 <= (if m : bool then s / n else s) /\ ((if m then s / n else s) = 0 <-> s = 0).
Proof.
  intros Hn Hs. destruct m; [|tauto]. split.
  - apply Rle_mult_inv_pos; auto.
  - split; [intros H; unfold Rdiv in H; apply Rmult_integral in H as [H|H]; auto; pose proof (Rinv_0_lt_compat n Hn); lra|intros ->; unfold Rdiv; ring].
Qed.
Lemma mae_zero x y m : wf x -> wf y -> same_shape y x -> (0 < size x)%nat ->
  exists v, mae x y m = Some (scalar v) /\ 0 <= v /\ (v = 0 <-> x = y).
Proof.
  intros Wx Wy HS Hn. eexists. split; [apply mae_value; auto|]. cbv zeta.
  destruct (distance_loss x y (fun a b => Rabs (a - b)) Wx Wy HS) as (D1 & D2); [intros; apply Rabs_pos|intros a b; split; [intros H; pose proof (Rabs_no_R0 (a - b)); destruct (Req_dec (a - b) 0); [lra|contradict H; auto]|intros ->; rewrite Rminus_eq_0; apply Rabs_R0]|].
  destruct (mean_sign m _ (INR (size x)) (lt_0_INR _ Hn) D1) as (M1 & M2). split; [exact M1|]. rewrite M2. exact D2.
Qed.
Lemma mse_zero x y m : wf x -> wf y -> same_shape y x -> (0 < size x)%nat ->
  exists v, mse x y m = Some (scalar v) /\ 0 <= v /\ (v = 0 <-> x = y).
Proof.
  intros Wx Wy HS Hn. eexists. split; [apply mse_value; auto|]. cbv zeta.
  destruct (distance_loss x y (fun a b => (a - b) ^ 2 / 2) Wx Wy HS) as (D1 & D2); [intros a b; pose proof (pow2_ge_0 (a - b)); lra|intros a b; split; [intros H; assert (H0 : (a - b) * (a - b) = 0) by lra; apply Rmult_integral in H0; lra|intros ->; field]|].
  destruct (mean_sign m _ (INR (size x)) (lt_0_INR _ Hn) D1) as (M1 & M2). split; [exact M1|]. rewrite M2. exact D2.
Qed.
Lemma nll_value x y : wf x -> wf y -> same_shape y x -> nll x y = Some (scalar (- total2 (fun p t => t * ln p) x y)).
Proof.
  intros Wx Wy HS. rewrite (flat_of x Wx) at 1. rewrite (flat_of' y x Wy HS) at 1. unfold nll. steps. unfold total2. rewrite (size_wf x Wx). reflexivity.
Qed.
(** a one-hot target picks one logarithm *)
Lemma nll_one_hot x y c : wf x -> wf y -> same_shape y x -> (c < size x)%nat -> (forall k, (k < size x)%nat -> entry y k = if (k =? c)%nat then 1 else 0) ->
  nll x y = Some (scalar (- ln (entry x c))).
Proof.
  intros Wx Wy HS Hc HY. rewrite nll_value by auto. do 3 f_equal. unfold total2.
  rewrite (Rsum_ext _ _ (fun k => if (k =? c)%nat then ln (entry x k) else 0)); [now apply (Rsum_delta (size x) c (fun k => ln (entry x k)))|].
  intros k Hk. rewrite HY by auto. destruct (k =? c)%nat; ring.
Qed.

(** ** Cross entropy *)
Lemma prob_range x k : (k < size x)%nat -> 0 < prob x k <= 1.
Proof.
  intros Hk. assert (Hp : 0 < total exp x) by (apply total_pos; [lia|apply exp_pos]). unfold prob. split; [apply Rdiv_lt_0_compat; auto using exp_pos|].
  apply (Rle_div_l (exp (entry x k)) 1 (total exp x)); auto. rewrite Rmult_1_l. apply (Rsum_one (size x) (fun k => exp (entry x k)) k); auto. intros; apply Rlt_le, exp_pos.
Qed.
Lemma prob_sum x : (0 < size x)%nat -> Rsum (size x) (prob x) = 1.
Proof.
  intros Hn. unfold prob, Rdiv. rewrite Rsum_mult_r. apply Rinv_r. pose proof (total_pos exp x Hn exp_pos). unfold total in *. lra.
Qed.
Lemma prob_lt_1 x k : (1 < size x)%nat -> (k < size x)%nat -> prob x k < 1.
Proof.
  intros Hn Hk. assert (Hp : 0 < total exp x) by (apply total_pos; [lia|apply exp_pos]).
  assert (H : exists j, (j < size x)%nat /\ j <> k) by (destruct (Nat.eq_dec k 0); [exists 1%nat|exists 0%nat]; lia). destruct H as (j & Hj & Hne).
  pose proof (prob_sum x ltac:(lia)) as HS. pose proof (prob_range x j Hj) as Pj.
  assert (HG : prob x k + prob x j <= Rsum (size x) (prob x)).
  { rewrite <- (Rsum_delta (size x) k (prob x) Hk), <- (Rsum_delta (size x) j (prob x) Hj), <- Rsum_plus. apply Rsum_le. intros i Hi. pose proof (prob_range x i Hi).
    destruct (Nat.eqb_spec i k), (Nat.eqb_spec i j); try lra; subst; congruence. }
  lra.
Qed.
Lemma cross_entropy_value x c : vector x -> (c < size x)%nat -> cross_entropy x (Z.of_nat c) = Some (scalar (- ln (prob x c))).
Proof.
  intros HV Hc. unfold cross_entropy. rewrite v_at1 by (auto using flat_vector; apply HV). cbn [bind]. steps. rewrite log_sum_exp_vector by auto. cbn [bind]. steps.
  do 2 f_equal. unfold prob. rewrite ln_div; [rewrite ln_exp; unfold entry; ring|apply exp_pos|apply total_pos; [lia|apply exp_pos]].
Qed.
Lemma cross_entropy_sign x c : (c < size x)%nat -> 0 <= - ln (prob x c) /\ (- ln (prob x c) = 0 <-> size x = 1%nat).
Proof.
  intros Hc. destruct (prob_range x c Hc) as (P1 & P2). split.
  - pose proof (ln_le (prob x c) 1 P1 P2). rewrite ln_1 in H. lra.
  - split; [|intros H1].
    + intros H. destruct (Nat.eq_dec (size x) 1); auto. exfalso. assert (H0 : (1 < size x)%nat) by lia. pose proof (prob_lt_1 x c H0 Hc) as H2. pose proof (ln_increasing _ _ P1 H2) as H3. rewrite ln_1 in H3. lra.
    + assert (E : prob x c = 1). { pose proof (prob_sum x ltac:(lia)) as HS. rewrite H1 in HS. unfold Rsum in HS. cbn in HS. replace c with 0%nat by lia. lra. }
      rewrite E, ln_1. ring.
Qed.
Lemma weighted_cross_entropy_value w x c : vector x -> (c < size x)%nat -> vector w -> (c < size w)%nat ->
  weighted_cross_entropy w x (Z.of_nat c) = Some (scalar (- entry w c * ln (prob x c))).
Proof.
  intros HV Hc HW Hw. unfold weighted_cross_entropy. rewrite cross_entropy_value by auto. cbn [bind].
  rewrite at_vector by (auto using flat_vector). cbn [bind]. steps. do 2 f_equal. unfold entry. ring.
Qed.
Lemma perplexity_value x c : vector x -> (c < size x)%nat -> perplexity x (Z.of_nat c) = Some (scalar (1 / prob x c)) /\ 1 <= 1 / prob x c.
Proof.
  intros HV Hc. destruct (prob_range x c Hc) as (P1 & P2). split.
  - unfold perplexity. rewrite cross_entropy_value by auto. cbn [bind]. steps. do 2 f_equal. rewrite exp_Ropp, exp_ln by auto. unfold Rdiv. ring.
  - apply (Rle_div_r 1 1 (prob x c)); lra.
Qed.
Definition focus (p gamma : R) : R := if Rlt_dec p 1 then Rpower (1 - p) gamma else if Req_EM_T gamma 0 then 1 else 0.
Lemma focal_loss_value x c gamma : vector x -> (c < size x)%nat ->
  focal_loss x (Z.of_nat c) gamma = Some (scalar (focus (prob x c) gamma * - ln (prob x c))).
Proof.
  intros HV Hc. destruct (prob_range x c Hc) as (P1 & P2). unfold focal_loss. rewrite cross_entropy_value by auto. cbn [bind]. steps. do 3 f_equal.
  rewrite Ropp_involutive, exp_ln by auto. unfold focus. destruct (Rlt_dec (prob x c) 1) as [H|H].
  - apply go_pow_pos. lra.
  - replace (1 - prob x c) with 0 by lra. unfold go_pow, Ris0. destruct (Req_EM_T gamma 0); auto. unfold Rltb. destruct (Rlt_dec 0 0); [lra|]. destruct (Req_EM_T 0 0); [auto|congruence].
Qed.
Lemma focus_range p gamma : 0 < p <= 1 -> 0 <= gamma -> 0 <= focus p gamma <= 1.
Proof.
  intros Hp Hg. unfold focus. destruct (Rlt_dec p 1); [|destruct (Req_EM_T gamma 0); lra]. split; [apply Rlt_le, exp_pos|].
  unfold Rpower. rewrite <- exp_0 at 2. assert (ln (1 - p) <= 0) by (rewrite <- ln_1; apply ln_le; lra). assert (H1 : gamma * ln (1 - p) <= 0) by nra.
  destruct H1 as [H1|H1]; [left; now apply exp_increasing|rewrite H1; lra].
Qed.
Lemma focal_loss_bounds x c gamma : (c < size x)%nat -> 0 <= gamma -> 0 <= focus (prob x c) gamma * - ln (prob x c) <= - ln (prob x c).
Proof.
  intros Hc Hg. pose proof (focus_range _ gamma (prob_range x c Hc) Hg). destruct (cross_entropy_sign x c Hc) as (H1 & _). nra.
Qed.
Lemma weighted_focal_loss_value w x c gamma : vector x -> (c < size x)%nat -> vector w -> (c < size w)%nat ->
  weighted_focal_loss w x (Z.of_nat c) gamma = Some (scalar (entry w c * (focus (prob x c) gamma * - ln (prob x c)))).
Proof.
  intros HV Hc HW Hw. unfold weighted_focal_loss. rewrite focal_loss_value by auto. cbn [bind].
  rewrite at_vector by (auto using flat_vector). cbn [bind]. steps. do 2 f_equal. unfold entry. ring.
Qed.

(** ** Quantization losses *)
Lemma zero_one_value x : wf x -> zero_one_quantization x = Some (scalar (total (fun v => v ^ 2 * (1 - v) ^ 2) x)).
Proof.
  intros W. rewrite (flat_of x W) at 1. unfold zero_one_quantization. steps. do 2 f_equal. unfold total. rewrite (size_wf x W). apply Rsum_ext. intros k _. ring.
Qed.
Lemma norm2_value x : wf x -> norm2_quantization x = Some (scalar ((total (fun v => v ^ 2) x - 1) ^ 2)).
Proof.
  intros W. rewrite (flat_of x W) at 1. unfold norm2_quantization. steps. do 2 f_equal. unfold total. rewrite (size_wf x W).
  rewrite (Rsum_ext _ (fun k => entry x k * entry x k) (fun k => entry x k ^ 2)) by (intros; ring). ring.
Qed.
Lemma one_hot_value x q : wf x -> one_hot_quantization x q = Some (scalar ((total (fun v => v ^ 2 * (1 - v) ^ 2) x + (total (fun v => v ^ 2) x - 1) ^ 2) * q)).
Proof. intros W. unfold one_hot_quantization. rewrite zero_one_value, norm2_value by auto. cbn [bind]. steps. reflexivity. Qed.
Lemma zero_one_sign x : 0 <= total (fun v => v ^ 2 * (1 - v) ^ 2) x /\
  (total (fun v => v ^ 2 * (1 - v) ^ 2) x = 0 <-> forall k, (k < size x)%nat -> entry x k = 0 \/ entry x k = 1).
Proof.
  assert (HP : forall v : R, 0 <= v ^ 2 * (1 - v) ^ 2) by (intros v; apply Rmult_le_pos; apply pow2_ge_0).
  assert (HZ : forall v : R, v ^ 2 * (1 - v) ^ 2 = 0 <-> v = 0 \/ v = 1).
  { intros v. split; [|intros [->| ->]; ring]. intros H. apply Rmult_integral in H as [H|H]; [left|right]; assert (H' : forall a, a ^ 2 = 0 -> a = 0) by (intros a Ha; assert (Ha' : a * a = 0) by lra; apply Rmult_integral in Ha'; lra); apply H' in H; lra. }
  split; [apply Rsum_nonneg; auto|]. split.
  - intros H k Hk. apply HZ. apply (Rsum_zero (size x) (fun k => entry x k ^ 2 * (1 - entry x k) ^ 2)); auto.
  - intros H. apply Rsum_0. intros k Hk. apply HZ; auto.
Qed.
Lemma zero_one_count n f : (forall k, (k < n)%nat -> f k = 0 \/ f k = 1) -> Rsum n (fun k => f k ^ 2) = 1 ->
  exists c, (c < n)%nat /\ forall k, (k < n)%nat -> f k = if (k =? c)%nat then 1 else 0.
Proof.
  intros H HS. assert (HE : exists c, (c < n)%nat /\ f c = 1).
  { clear -H HS. induction n; [unfold Rsum in HS; cbn in HS; lra|]. destruct (H n ltac:(lia)) as [E|E]; [|exists n; auto].
    rewrite Rsum_r, E in HS. destruct IHn as (c & Hc & Ec); auto; [lra|]. exists c; auto. }
  destruct HE as (c & Hc & Ec). exists c. split; auto. intros k Hk. destruct (Nat.eqb_spec k c) as [->|Hne]; auto. destruct (H k Hk) as [E|E]; auto. exfalso.
  assert (HG : 1 + 1 <= Rsum n (fun k => f k ^ 2)).
  { pose proof (Rsum_delta n c (fun _ => 1) Hc) as D1. pose proof (Rsum_delta n k (fun _ => 1) Hk) as D2. cbv beta in D1, D2. rewrite <- D1 at 1. rewrite <- D2 at 1.
    rewrite <- Rsum_plus. apply Rsum_le. intros i Hi. destruct (Nat.eqb_spec i c), (Nat.eqb_spec i k); subst; try congruence; rewrite ?E, ?Ec; nra. }
  lra.
Qed.
Lemma one_hot_sign x q : 0 < q -> let v := (total (fun v => v ^ 2 * (1 - v) ^ 2) x + (total (fun v => v ^ 2) x - 1) ^ 2) * q in
  0 <= v /\ (v = 0 <-> exists c, (c < size x)%nat /\ forall k, (k < size x)%nat -> entry x k = if (k =? c)%nat then 1 else 0).
Proof.
  intros Hq v. destruct (zero_one_sign x) as (Z1 & Z2). set (a := total (fun v => v ^ 2 * (1 - v) ^ 2) x) in *. set (b := total (fun v => v ^ 2) x) in *.
  assert (0 <= (b - 1) ^ 2) by apply pow2_ge_0. split; [unfold v; nra|]. split.
  - intros H0. unfold v in H0. apply Rmult_integral in H0 as [H0|H0]; [|lra]. assert (Ha : a = 0) by lra. assert (Hb : (b - 1) * (b - 1) = 0) by lra.
    assert (b = 1) by (apply Rmult_integral in Hb; lra). apply zero_one_count; [apply Z2; auto|exact H1].
  - intros (c & Hc & HC). unfold v. replace a with 0. replace b with 1; [ring|]; symmetry.
    + unfold b, total. rewrite (Rsum_ext _ _ (fun k => if (k =? c)%nat then (fun _ => 1) k else 0)) by (intros k Hk; rewrite HC by auto; destruct (k =? c)%nat; ring). now rewrite Rsum_delta.
    + symmetry. apply Z2. intros k Hk. rewrite HC by auto. destruct (k =? c)%nat; auto.
Qed.
Lemma distance_value x target : fits x 1 1 -> distance x target = Some (scalar (Rabs (target - rget x 0 0))).
Proof. intros H. rewrite (fits_scalar x H) at 1. unfold distance. steps. reflexivity. Qed.

(** ** Sequences *)
Fixpoint sum_losses {P Q} (l : P -> Q -> R) (ps : list P) (ts : list Q) : R :=
  match ps, ts with p :: ps, t :: ts => l p t + sum_losses l ps ts | _, _ => 0 end.
Lemma loss_seq_value {P Q} (loss : P -> Q -> option mat) (l : P -> Q -> R) ps ts m : ps <> [] -> length ps = length ts ->
  Forall2 (fun p t => loss p t = Some (scalar (l p t))) ps ts ->
  loss_seq loss ps ts m = Some (scalar (if m then sum_losses l ps ts / INR (length ps) else sum_losses l ps ts)).
Proof.
  intros Hne HL H. destruct H as [|p t ps ts H1 H]; [congruence|]. unfold loss_seq. rewrite H1. cbn [bind].
  assert (HG : forall s, (fix go (ps : list P) (ts : list Q) (l : mat) : option mat :=
                 match ps, ts with
                 | [], _ => Some l
                 | p :: ps, t :: ts => do m <- loss p t; do l <- fwd add_fn [l; m]; go ps ts l
                 | _ :: _, [] => None
                 end) ps ts (scalar s) = Some (scalar (s + sum_losses l ps ts))).
  { clear -H. induction H as [|p t ps ts H1 H IH]; intros s; [cbn [sum_losses]; now rewrite Rplus_0_r|]. rewrite H1. cbn [bind]. steps. rewrite IH. cbn [sum_losses]. do 2 f_equal. ring. }
  rewrite HG. cbn [bind]. destruct m; [steps|]; reflexivity.
Qed.
Lemma spg_value ps ts : ps <> [] -> Forall2 (fun p t => fits p 1 1 /\ fits t 1 1) ps ts ->
  spg ps ts = Some (scalar (- sum_losses (fun p t => rget p 0 0 * rget t 0 0) ps ts)).
Proof.
  intros Hne H. destruct H as [|p t ps ts (Hp & Ht) H]; [congruence|]. unfold spg. rewrite (fits_scalar p Hp) at 1. rewrite (fits_scalar t Ht) at 1. steps. cbn [ag_add].
  change (fwd copy_fn [scalar (rget p 0 0 * rget t 0 0)]) with (Some (scalar (rget p 0 0 * rget t 0 0))). cbn [bind].
  assert (HG : forall s, (fix go (ps ts : list mat) (l : option mat) : option (option mat) :=
             match ps, ts with
             | [], _ => Some l
             | p :: ps, t :: ts => do m <- fwd prod_fn [p; t]; do l <- ag_add l m; go ps ts (Some l)
             | _ :: _, [] => None
             end) ps ts (Some (scalar s)) = Some (Some (scalar (s + sum_losses (fun p t => rget p 0 0 * rget t 0 0) ps ts)))).
  { clear -H. induction H as [|p t ps ts (Hp & Ht) H IH]; intros s; [cbn [sum_losses]; now rewrite Rplus_0_r|].
    rewrite (fits_scalar p Hp) at 1. rewrite (fits_scalar t Ht) at 1. steps. cbn [ag_add]. steps. rewrite IH. cbn [sum_losses]. do 3 f_equal. ring. }
  rewrite HG. cbn [bind]. steps. reflexivity.
Qed.
