(** * Properties of SparseMax and SparseMaxLoss *)
From Coq Require Import Reals List Arith Bool ZArith Lia Lra.
From Verif Require Import DenseModel DenseSpec ArithModel GradModel GradSpec GradLemmas GradProofs GradProofs6 GradProofs9 GradProofs10 OpsModel OpsSpec OpsLemmas AttSpec AttProofs SparseModel SparseSpec SparseProofs SparseProofs2 SparseProofs3.
Import ListNotations.
Open Scope R_scope.

Lemma as_flat x : wf x -> (0 < size x)%nat -> x = flat (rows x) (cols x) (entry x) /\ (0 < rows x * cols x)%nat /\ size x = (rows x * cols x)%nat.
Proof. intros Hw Hn. pose proof (fits_wf x Hw) as Hx. pose proof (fits_len _ _ _ Hx) as L. unfold size in *. split; [exact (flat_self x _ _ Hx)|lia]. Qed.
Lemma entry_flat r c f k : (k < r * c)%nat -> entry (flat r c f) k = f k.
Proof. apply flat_nth. Qed.
Lemma projection_ext n x p q : (forall i, (i < n)%nat -> p i = q i) -> projection n x p -> projection n x q.
Proof.
  intros E ((P1 & P2) & B). split; [split; [intros i Hi; rewrite <- E; auto|rewrite <- P2; apply Rsum_ext; intros; symmetry; auto]|].
  assert (D : dist2 n q x = dist2 n p x) by (apply Rsum_ext; intros; rewrite E; auto).
  intros u Hu. destruct (B u Hu) as (B1 & B2). rewrite D. split; [exact B1|]. intros F i Hi. rewrite <- E by auto. auto.
Qed.

(** ** C15 *)
(** What is missing of C15: the inputs whose positive parts sum to less than one. *)
Theorem C15_projection_partial : forall x, wf x -> (0 < size x)%nat -> 1 <= Rsum (size x) (fun i => Rmax 0 (entry x i)) ->
  exists y, fwd sparse_max_fn [x] = Some y /\ wf y /\ same_shape y x /\ projection (size x) (entry x) (entry y).
Proof.
  intros x Hw Hn H1. destruct (as_flat x Hw Hn) as (Ex & Hp & En). pose proof (tau_of_threshold x Hn) as T. change (length (data x)) with (size x) in T.
  pose proof (proj2 (proj1 (threshold_sign _ _ _ T)) H1) as Ht. rewrite En in *.
  exists (flat (rows x) (cols x) (proj (entry x) (tau_of x))). split; [cbn [fwd sparse_max_fn un]; rewrite Ex at 1; now apply sparse_max_is_proj|]. split; [apply flat_fits|]. split; [split; reflexivity|].
  eapply projection_ext; [|exact (proj_closest _ _ _ T)]. intros i Hi. symmetry. now apply entry_flat.
Qed.
Print Assumptions C15_projection_partial.
(** For all the others the result is not the projection (or there is none). *)
Theorem C15_projection_only : forall x y, wf x -> (0 < size x)%nat -> fwd sparse_max_fn [x] = Some y -> projection (size x) (entry x) (entry y) ->
  1 <= Rsum (size x) (fun i => Rmax 0 (entry x i)).
Proof.
  intros x y Hw Hn HF HP. destruct (as_flat x Hw Hn) as (Ex & Hp & En). pose proof (tau_of_threshold x Hn) as T. change (length (data x)) with (size x) in T.
  apply (threshold_sign _ _ _ T). rewrite En in *. cbn [fwd sparse_max_fn un] in HF. rewrite Ex in HF at 1. destruct (sparse_max_value _ _ _ _ Hp T) as (mx & (k & Hk & Ek) & M & E). rewrite E in HF.
  destruct (Rltb mx 0); [discriminate|]. injection HF as <-.
  destruct (proj_closest _ _ _ T) as (S1 & C1). destruct HP as (S2 & C2).
  assert (Q : entry (flat (rows x) (cols x) (fun k => Rmin mx (proj (entry x) (tau_of x) k))) k = proj (entry x) (tau_of x) k).
  { apply C1; auto. apply Rle_antisym; [apply (C2 _ S1)|apply (C1 _ S2)]. }
  rewrite entry_flat in Q by auto. pose proof (Rmin_l mx (proj (entry x) (tau_of x) k)) as L. rewrite Q in L. unfold proj in L. pose proof (Rmax_r 0 (entry x k - tau_of x)). lra.
Qed.
Print Assumptions C15_projection_only.
(** The exact result: the projection with every value above the largest entry cut down to it; a panic if every entry is negative. *)
Theorem C15_value : forall x, wf x -> (0 < size x)%nat -> exists p mx, projection (size x) (entry x) p /\
  (exists k, (k < size x)%nat /\ entry x k = mx) /\ (forall k, (k < size x)%nat -> entry x k <= mx) /\
  (mx < 0 -> fwd sparse_max_fn [x] = None) /\
  (0 <= mx -> exists y, fwd sparse_max_fn [x] = Some y /\ wf y /\ same_shape y x /\ forall k, (k < size x)%nat -> entry y k = Rmin mx (p k)).
Proof.
  intros x Hw Hn. destruct (as_flat x Hw Hn) as (Ex & Hp & En). pose proof (tau_of_threshold x Hn) as T. change (length (data x)) with (size x) in T. rewrite En in *.
  destruct (sparse_max_value _ _ _ _ Hp T) as (mx & K & M & E). exists (proj (entry x) (tau_of x)), mx. split; [now apply proj_closest|]. do 2 (split; [assumption|]).
  cbn [fwd sparse_max_fn un]. rewrite <- Ex in E. rewrite E. split; intros H.
  - now rewrite Rltb_true.
  - rewrite Rltb_false by lra. eexists. split; [reflexivity|]. split; [apply flat_fits|]. split; [split; reflexivity|]. intros k Hk. now apply entry_flat.
Qed.
Print Assumptions C15_value.
(** SparseMax([0.5]) is 0.5, no distribution at all; SparseMax([-1]) panics. *)
Theorem C15_refuted :
  (exists x y, wf x /\ (0 < size x)%nat /\ fwd sparse_max_fn [x] = Some y /\ ~ simplex (size x) (entry y)) /\
  (exists x, wf x /\ (0 < size x)%nat /\ fwd sparse_max_fn [x] = None).
Proof.
  split.
  - set (x := mkDense 1 1 [/ 2]). destruct (C15_value x eq_refl) as (p & mx & _ & (k & Hk & Ek) & _ & _ & V); [cbn; lia|]. cbn in Hk. assert (k = 0%nat) as -> by lia. cbn in Ek.
    destruct V as (y & Ey & _ & _ & V); [lra|]. exists x, y. split; [reflexivity|]. split; [cbn; lia|]. split; [exact Ey|]. intros (_ & S1). unfold Rsum in S1. cbn in S1.
    rewrite V in S1 by (cbn; lia). pose proof (Rmin_l mx (p 0%nat)). lra.
  - set (x := mkDense 1 1 [-1]). destruct (C15_value x eq_refl) as (p & mx & _ & (k & Hk & Ek) & _ & V & _); [cbn; lia|]. cbn in Hk. assert (k = 0%nat) as -> by lia. cbn in Ek.
    exists x. split; [reflexivity|]. split; [cbn; lia|]. apply V. lra.
Qed.
Print Assumptions C15_refuted.
(** The gradient, wherever the projection is computed around x and x is off the boundary between supports: no entry at the threshold. *)
Theorem C15_gradient_partial : forall req x, wf x -> is_vector x = true -> (0 < size x)%nat ->
  1 < Rsum (size x) (fun i => Rmax 0 (entry x i)) ->
  (forall t, Rsum (size x) (fun i => Rmax 0 (entry x i - t)) = 1 -> forall k, (k < size x)%nat -> entry x k <> t) ->
  correct sparse_max_fn req [x].
Proof.
  intros req x Hw Hv Hn H1 H. pose proof (tau_of_threshold x Hn) as T. change (length (data x)) with (size x) in T.
  apply (sparse_max_correct req x (tau_of x)); auto. apply (threshold_sign _ _ _ T). exact H1.
Qed.
Print Assumptions C15_gradient_partial.
Example C15_case : let x := mkDense 3 1 [2; 3/2; -5] in
  wf x /\ is_vector x = true /\ (0 < size x)%nat /\ 1 < Rsum (size x) (fun i => Rmax 0 (entry x i)) /\
  (forall t, Rsum (size x) (fun i => Rmax 0 (entry x i - t)) = 1 -> forall k, (k < size x)%nat -> entry x k <> t) /\
  exists y, fwd sparse_max_fn [x] = Some y /\ entry y 0 = 3/4 /\ entry y 1 = 1/4 /\ entry y 2 = 0.
Proof.
  cbv zeta. set (x := mkDense 3 1 [2; 3/2; -5]).
  assert (S3 : forall f, Rsum (size x) f = f 0%nat + f 1%nat + f 2%nat) by (intros f; unfold Rsum; cbn; ring).
  assert (T : threshold_of (size x) (entry x) (5/4)).
  { unfold threshold_of. rewrite S3. cbn. rewrite (Rmax_right 0 (2 - _)), (Rmax_right 0 (3/2 - _)), Rmax_left by lra. lra. }
  split; [reflexivity|]. split; [reflexivity|]. split; [cbn; lia|]. split; [|split].
  - rewrite S3. cbn. rewrite (Rmax_right 0 2), (Rmax_right 0 (3/2)), Rmax_left by lra. lra.
  - intros t Ht k Hk. assert (t = 5/4) as -> by (apply (threshold_unique (size x) (entry x)); auto). cbn in Hk. destruct k as [|[|[|k]]]; [cbn; lra|cbn; lra|cbn; lra|lia].
  - change x with (flat 3 1 (entry x)). eexists. split; [apply (sparse_max_is_proj 3 1 (entry x) (5/4)); [lia|exact T|lra]|]. rewrite !entry_flat by lia. unfold proj. cbn.
    rewrite (Rmax_right 0 (2 - _)), (Rmax_right 0 (3/2 - _)), Rmax_left by lra. lra.
Qed.

(** ** C53 SparseMaxLoss *)
(** Entry i of the output is x_i less a half and the largest value of <q, x> - |q|^2/2 over the simplex. *)
Theorem C53_value : forall x, wf x -> (0 < size x)%nat -> exists b y, best_payoff (size x) (entry x) b /\
  fwd sparse_max_loss_fn [x] = Some y /\ wf y /\ same_shape y x /\ forall k, (k < size x)%nat -> entry y k = entry x k - (b + 1 / 2).
Proof.
  intros x Hw Hn. destruct (as_flat x Hw Hn) as (Ex & Hp & En). pose proof (tau_of_threshold x Hn) as T. change (length (data x)) with (size x) in T. rewrite En in *.
  eexists. eexists. split; [apply (payoff_best _ _ _ T)|]. split; [rewrite Ex at 1; apply (loss_value _ _ _ _ Hp T)|]. split; [apply flat_fits|]. split; [split; reflexivity|].
  intros k Hk. now apply entry_flat.
Qed.
Print Assumptions C53_value.
(** Every gradient handed out is the derivative, also where the projection is not differentiable. *)
Theorem C53_gradient : forall req x, wf x -> (0 < size x)%nat -> correct sparse_max_loss_fn req [x].
Proof. exact sparse_loss_correct. Qed.
Print Assumptions C53_gradient.
(** No output is positive: the loss for target k, minus output k, is at least zero. *)
Theorem C53_sign : forall x y, wf x -> (0 < size x)%nat -> fwd sparse_max_loss_fn [x] = Some y -> forall k, (k < size x)%nat -> entry y k <= 0.
Proof.
  intros x y Hw Hn HF k Hk. destruct (C53_value x Hw Hn) as (b & y' & (_ & B) & E & _ & _ & V). assert (y' = y) as -> by congruence. rewrite V by auto.
  set (q := fun i => if (i =? k)%nat then 1 else 0).
  assert (S1 : forall f, Rsum (size x) (fun i => q i * f i) = f k).
  { intros f. rewrite (Rsum_ext _ _ (fun i => if (i =? k)%nat then f i else 0)) by (intros i Hi; unfold q; destruct (i =? k)%nat; ring). now apply Rsum_delta. }
  assert (Q : simplex (size x) q).
  { split; [intros i Hi; unfold q; destruct (i =? k)%nat; lra|]. rewrite (Rsum_ext _ _ (fun i => q i * 1)) by (intros; ring). apply (S1 (fun _ => 1)). }
  specialize (B q Q). unfold payoff in B. rewrite !S1 in B. unfold q in B. rewrite Nat.eqb_refl in B. lra.
Qed.
Print Assumptions C53_sign.
Example C53_case : let x := mkDense 2 1 [1/2; -1/2] in exists y, fwd sparse_max_loss_fn [x] = Some y /\ entry y 0 = 0 /\ entry y 1 = -1.
Proof.
  cbv zeta. set (x := mkDense 2 1 [1/2; -1/2]). assert (T : threshold_of 2 (entry x) (-1/2)). { unfold threshold_of, Rsum. cbn. rewrite (Rmax_right 0 (1/2 - _)), Rmax_left by lra. lra. }
  eexists. split; [change x with (flat 2 1 (entry x)); apply (loss_value 2 1 (entry x) (-1/2)); [lia|exact T]|]. rewrite !entry_flat by lia. unfold payoff, proj, Rsum. cbn.
  rewrite (Rmax_right 0 (1/2 - _)), Rmax_left by lra. lra.
Qed.
