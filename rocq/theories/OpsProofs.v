(** * LogSumExp, LogSoftmax and the losses *)
From Coq Require Import Reals List Arith Bool ZArith Lia Lra.
From Coquelicot Require Import Coquelicot.
From Verif Require Import DenseModel DenseSpec DenseLemmas DenseProofs DenseProofs2 ArithModel ArithSpec ArithProofs GradModel GradSpec GradLemmas GradProofs GradProofs2 GradProofs4 GradProofs5 GradProofs6 GradProofs7 GradProofs8 GradProofs9 GradProofs10 OpsModel OpsSpec OpsLemmas.
Import ListNotations.
Open Scope R_scope.

Lemma size_fits x r c : fits x r c -> size x = (r * c)%nat.
Proof. apply fits_len. Qed.
Lemma flat_of x : wf x -> x = flat (rows x) (cols x) (entry x).
Proof. intros H. apply flat_self. now apply fits_wf. Qed.
Lemma size_wf x : wf x -> size x = (rows x * cols x)%nat.
Proof. auto. Qed.
Lemma flat_of' y x : wf y -> same_shape y x -> y = flat (rows x) (cols x) (entry y).
Proof. intros H (<- & <-). now apply flat_of. Qed.
Lemma flat_entries x f : wf x -> entries (flat (rows x) (cols x) f) x f.
Proof.
  intros H. split; [apply flat_fits|]. split; [split; reflexivity|]. intros k Hk. apply flat_nth. now rewrite <- size_wf.
Qed.
Lemma flat_vector x : vector x -> is_vector x = true.
Proof. unfold is_vector. intros (_ & [->| ->] & _); cbn; rewrite ?orb_true_r; reflexivity. Qed.

Lemma Rsum_nonneg n f : (forall k, (k < n)%nat -> 0 <= f k) -> 0 <= Rsum n f.
Proof. induction n; intros H; [unfold Rsum; cbn; lra|]. rewrite Rsum_r. specialize (IHn ltac:(auto)). specialize (H n ltac:(auto)). lra. Qed.
Lemma Rsum_zero n f : (forall k, (k < n)%nat -> 0 <= f k) -> Rsum n f = 0 -> forall k, (k < n)%nat -> f k = 0.
Proof.
  induction n; intros H E k Hk; [lia|]. rewrite Rsum_r in E. pose proof (Rsum_nonneg n f ltac:(auto)). pose proof (H n ltac:(auto)).
  destruct (Nat.eq_dec k n) as [->|]; [lra|]. apply IHn; auto; [lra|lia].
Qed.
Lemma Rsum_le n f g : (forall k, (k < n)%nat -> f k <= g k) -> Rsum n f <= Rsum n g.
Proof. induction n; intros H; [unfold Rsum; cbn; lra|]. rewrite !Rsum_r. specialize (IHn ltac:(auto)). specialize (H n ltac:(auto)). lra. Qed.
Lemma Rsum_one n f k : (k < n)%nat -> (forall k, (k < n)%nat -> 0 <= f k) -> f k <= Rsum n f.
Proof.
  induction n; intros Hk H; [lia|]. rewrite Rsum_r. destruct (Nat.eq_dec k n) as [->|].
  - pose proof (Rsum_nonneg n f ltac:(auto)). lra.
  - specialize (IHn ltac:(lia) ltac:(auto)). specialize (H n ltac:(auto)). lra.
Qed.
Lemma total_pos f x : (0 < size x)%nat -> (forall v, 0 < f v) -> 0 < total f x.
Proof. intros Hn H. apply Rsum_pos; auto. Qed.

(** ** LogSumExp *)
Lemma shift_out m (S : R) : 0 < S -> m + ln (S * exp (- m)) = ln S.
Proof. intros H. rewrite ln_mult, ln_exp by (auto; apply exp_pos). ring. Qed.
Lemma exp_shift n f m : Rsum n (fun k => exp (f k - m)) = Rsum n (fun k => exp (f k)) * exp (- m).
Proof. rewrite <- Rsum_mult_r. apply Rsum_ext. intros k _. unfold Rminus. rewrite exp_plus. ring. Qed.

Lemma log_sum_exp_vector x : vector x -> log_sum_exp [x] = Some (scalar (ln (total exp x))).
Proof.
  intros HV. pose proof (flat_vector x HV) as Hv. destruct HV as (Hw & _ & Hn). destruct (reduce_max_value x Hw Hv) as (k & Hk & E & _); [unfold size in Hn; rewrite Hw in Hn; auto|].
  unfold log_sum_exp. rewrite E. cbn [bind]. set (m := nth k (data x) 0). rewrite (flat_of x Hw) at 1. steps.
  do 2 f_equal. rewrite exp_shift, <- size_wf by auto. apply shift_out. apply total_pos; auto using exp_pos.
Qed.

Lemma lse_fold m xs : List.Forall (fun x : mat => fits x 1 1) xs -> forall s,
  fold_opt (fun s v => do d <- fwd sub_fn [v; scalar m]; do e <- fwd exp_fn [d]; do s <- ag_add s e; Some (Some s)) xs (Some (scalar s)) =
  Some (Some (scalar (s + fold_right (fun x t => exp (rget x 0 0 - m) + t) 0 xs))).
Proof.
  induction 1 as [|x xs Hx H IH]; intros s; cbn [fold_opt fold_right]; [rewrite Rplus_0_r; reflexivity|].
  rewrite (fits_scalar x Hx) at 1. steps. cbn [ag_add]. steps. rewrite IH. do 3 f_equal. ring.
Qed.
Lemma scalar_max_any xs : xs <> [] -> List.Forall (fun x : mat => fits x 1 1) xs -> exists m, fwd scalar_max_fn xs = Some (scalar m).
Proof.
  intros Hne HF. assert (H : exists k, scalar_max_loop 0 xs 0 0 = Some k /\ (k < length xs)%nat).
  { destruct (scalar_max_best xs 0 0 0 HF) as [(k & E & Hk & _)|(E & _)]; [exists k; auto|]. exists 0%nat. split; auto. destruct xs; [congruence|cbn; lia]. }
  destruct H as (k & E & Hk). cbn [fwd scalar_max_fn]. rewrite E. destruct (nth_error xs k) as [x|] eqn:Ex; [|apply nth_error_None in Ex; lia].
  exists (rget x 0 0). destruct xs; [congruence|]. cbn [bind]. rewrite Ex. cbn [bind]. rewrite clone_id. f_equal. apply fits_scalar.
  rewrite Forall_forall in HF. apply HF. eapply nth_error_In; eauto.
Qed.
Lemma fold_exp_shift m (xs : list mat) : fold_right (fun x t => exp (rget x 0 0 - m) + t) 0 xs = fold_right (fun x t => exp (rget x 0 0) + t) 0 xs * exp (- m).
Proof. induction xs as [|x xs IH]; cbn; [ring|]. rewrite IH. unfold Rminus. rewrite exp_plus. ring. Qed.
Lemma fold_exp_pos (xs : list mat) : xs <> [] -> 0 < fold_right (fun x t => exp (rget x 0 0) + t) 0 xs.
Proof.
  intros H. destruct xs as [|x xs]; [congruence|]. clear H. revert x. induction xs as [|y xs IH]; intros x; cbn.
  - pose proof (exp_pos (rget x 0 0)). lra.
  - pose proof (exp_pos (rget x 0 0)). specialize (IH y). cbn in IH. lra.
Qed.
Lemma log_sum_exp_scalars xs : xs <> [] -> List.Forall (fun x : mat => fits x 1 1) xs ->
  log_sum_exp xs = Some (scalar (ln (fold_right (fun x t => exp (rget x 0 0) + t) 0 xs))).
Proof.
  intros Hne HF. destruct xs as [|x [|y xs]]; [congruence| |].
  - inversion HF as [|? ? Hx _]; subst. rewrite log_sum_exp_vector.
    + do 3 f_equal. unfold total. rewrite (size_fits x 1 1 Hx). unfold Rsum. cbn. rewrite (rget_flat x 1 1) by auto. unfold entry. cbn. ring.
    + destruct Hx as (A & B & C). split; auto. split; auto. rewrite (size_fits x 1 1) by (repeat split; auto). lia.
  - set (l := x :: y :: xs) in *. destruct (scalar_max_any l Hne HF) as (m & Em).
    unfold log_sum_exp. unfold l at 1. fold l. rewrite Em. cbn [bind]. subst l. inversion HF as [|? ? Hx HF']; subst.
    cbn [fold_opt]. rewrite (fits_scalar x Hx) at 1. steps. cbn [ag_add]. change (fwd copy_fn [scalar (exp (rget x 0 0 - m))]) with (Some (scalar (exp (rget x 0 0 - m)))). cbn [bind].
    pose proof (lse_fold m (y :: xs) HF' (exp (rget x 0 0 - m))) as E. cbn [fold_opt] in E. rewrite E. cbn [bind]. steps. do 2 f_equal.
    change (exp (rget x 0 0 - m) + fold_right (fun x t => exp (rget x 0 0 - m) + t) 0 (y :: xs)) with (fold_right (fun x t => exp (rget x 0 0 - m) + t) 0 (x :: y :: xs)).
    rewrite fold_exp_shift. apply shift_out. apply fold_exp_pos. auto.
Qed.
(** bounds *)
Lemma lse_bounds x : (0 < size x)%nat -> forall k, (k < size x)%nat -> (forall i, (i < size x)%nat -> entry x i <= entry x k) ->
  entry x k <= ln (total exp x) <= entry x k + ln (INR (size x)).
Proof.
  intros Hn k Hk Hm. pose proof (total_pos exp x Hn exp_pos) as Hp. split.
  - rewrite <- (ln_exp (entry x k)) at 1. assert (H : exp (entry x k) <= total exp x) by (apply (Rsum_one (size x) (fun k => exp (entry x k)) k); auto; intros; apply Rlt_le, exp_pos).
    destruct H as [H|H]; [left; apply ln_increasing; auto using exp_pos|rewrite H; lra].
  - rewrite <- (ln_exp (entry x k)) at 1. rewrite <- ln_mult; [|apply exp_pos|apply lt_0_INR; auto].
    assert (H : total exp x <= exp (entry x k) * INR (size x)).
    { rewrite Rmult_comm, <- Rsum_const. apply Rsum_le. intros i Hi. specialize (Hm i Hi). destruct Hm as [Hm|Hm]; [left; now apply exp_increasing|rewrite Hm; lra]. }
    destruct H as [H|H]; [left; apply ln_increasing; auto|rewrite H; lra].
Qed.
Lemma log_softmax_value wide x : vector x ->
  exists s l, fwd (softmax_fn wide) [x] = Some s /\ log_softmax wide x = Some l /\ wf l /\ rows l = size x /\ cols l = 1%nat /\
    forall k, (k < size x)%nat -> entry l k = ln (entry s k) /\ entry l k = entry x k - ln (total exp x).
Proof.
  intros HV. pose proof (flat_vector x HV) as Hv. destruct HV as (Hw & _ & Hn). destruct (softmax_value x Hw Hv Hn) as (s & E & He).
  pose proof (elems_fits _ _ _ _ He) as Fs. exists s. unfold log_softmax. change (fwd (softmax_fn wide) [x]) with (m_softmax x). rewrite E. cbn [bind].
  assert (EL : fwd log_fn [s] = Some (flat (length (data x)) 1 (fun k => ln (entry s k)))) by (rewrite (flat_self s _ _ Fs) at 1; apply v_log). rewrite EL. eexists. split; [reflexivity|]. split; [reflexivity|]. split; [apply flat_fits|]. split; [reflexivity|]. split; [reflexivity|].
  intros k Hk. assert (El : entry (flat (length (data x)) 1 (fun k => ln (entry s k))) k = ln (entry s k)) by (apply flat_nth; unfold size in Hk; lia).
  split; [exact El|]. rewrite El. unfold entry at 1. rewrite (elems_nth _ _ _ _ He Hk).
  rewrite ln_div; [now rewrite ln_exp|apply exp_pos|apply exps_pos; auto].
Qed.
