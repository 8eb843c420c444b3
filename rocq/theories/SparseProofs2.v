(** * The values of SparseMax and SparseMaxLoss *)
From Coq Require Import Reals List Arith Bool ZArith Lia Lra Psatz Permutation.
From Verif Require Import DenseModel DenseSpec ArithModel ArithSpec ArithProofs GradModel GradSpec GradLemmas GradProofs6 GradProofs9 GradProofs10 OpsModel OpsSpec OpsLemmas OpsProofs AttSpec AttProofs SparseModel SparseSpec SparseProofs.
Import ListNotations.
Open Scope R_scope.

Lemma fold_tau (z : nat -> R) (on : nat -> bool) k n : (forall i, (i < n)%nat -> on i = (i <? k)%nat) -> forall m, (m <= n)%nat ->
  fold_left (fun '(q, tau) i => if on i then ((if (q <? Z.of_nat i + 1)%Z then (Z.of_nat i + 1)%Z else q), tau + z i) else (q, tau)) (seq 0 m) ((-1)%Z, 0)
  = (if (Nat.min m k =? 0)%nat then (-1)%Z else Z.of_nat (Nat.min m k), Rsum (Nat.min m k) z).
Proof.
  intros O. induction m as [|m IH]; intros Hm; [reflexivity|]. rewrite seq_S, fold_left_app, IH by lia. cbn [fold_left plus]. rewrite O by lia.
  destruct (Nat.ltb_spec m k).
  - replace (Nat.min m k) with m by lia. replace (Nat.min (S m) k) with (S m) by lia. rewrite Rsum_r. cbn [Nat.eqb]. f_equal.
    destruct (Nat.eqb_spec m 0) as [->|]; [reflexivity|]. destruct (Z.ltb_spec (Z.of_nat m) (Z.of_nat m + 1)); lia.
  - now replace (Nat.min (S m) k) with (Nat.min m k) by lia.
Qed.

Lemma common_value v : (0 < length (data v))%nat -> exists c, sparse_common v = Some c /\ sm_zs c = sort_desc (data v) /\
  threshold_of (length (data v)) (entry v) (sm_tau c) /\
  forall i, (i < length (data v))%nat -> Rltb (nth i (sm_sums c) 0) (nth i (sm_bounds c) 0) = Rltb (sm_tau c) (nth i (sm_zs c) 0).
Proof.
  intros Hn. unfold sparse_common. set (zs := sort_desc (data v)). assert (Lz : length zs = length (data v)) by apply sort_length. rewrite Lz. set (n := length (data v)) in *.
  set (z := fun i => nth i zs 0).
  destruct (cum_sum_spec 0 1 Rplus Rmult Rsrt (mkDense n 1 zs)) as (m & Em & Hm); [unfold wf; cbn; lia|unfold is_vector; cbn; now rewrite orb_true_r|].
  rewrite Em. cbn [bind]. cbn [data] in Hm. rewrite Lz in Hm. apply elems_has in Hm.
  assert (Sm : forall i, (i < n)%nat -> nth i (data m) 0 = Rsum (S i) z). { intros i Hi. rewrite (elems_nth m n _ i Hm Hi). reflexivity. }
  assert (Bd : forall i, (i < n)%nat -> nth i (map (fun i => 1 + INR (i + 1) * nth i zs 0) (seq 0 n)) 0 = 1 + INR (i + 1) * z i) by (intros i Hi; now rewrite nth_mapseq).
  assert (Dz : forall i j, (i <= j < n)%nat -> z j <= z i) by (intros i j Hij; apply (sort_desc_ok (data v)); fold zs; lia).
  destruct (cond_prefix z n Hn Dz) as (k & Hk & HC).
  assert (On : forall i, (i < n)%nat -> Rltb (nth i (data m) 0) (nth i (map (fun i => 1 + INR (i + 1) * nth i zs 0) (seq 0 n)) 0) = (i <? k)%nat).
  { intros i Hi. rewrite Sm, Bd by auto. specialize (HC i Hi). unfold cond in HC. unfold Rltb. destruct (Rlt_dec _ _), (Nat.ltb_spec i k); try reflexivity; exfalso; [apply HC in r; lia|apply n0, HC; lia]. }
  pose proof (fold_tau (fun i => nth i zs 0) _ k n On n (le_n n)) as FT. cbv beta in FT. rewrite FT. change (fun i => nth i zs 0) with z. clear FT. replace (Nat.min n k) with k by lia. replace (k =? 0)%nat with false by (symmetry; apply Nat.eqb_neq; lia).
  eexists. split; [reflexivity|]. cbn [sm_zs sm_tau sm_sums sm_bounds]. split; [reflexivity|]. rewrite <- INR_IZR_INZ. fold (tau z k). split.
  - pose proof (tau_threshold z n Hn Dz k Hk HC) as T. unfold threshold_of in *. rewrite <- T. unfold entry.
    pose proof (lsum_perm (fun u => Rmax 0 (u - tau z k)) _ _ (sort_perm (data v))) as P. rewrite !lsum_Rsum in P. fold zs in P. rewrite Lz in P. exact P.
  - intros i Hi. rewrite On by auto. fold (z i). unfold Rltb. destruct (Nat.ltb_spec i k), (Rlt_dec (tau z k) (z i)) as [L|L]; try reflexivity; exfalso.
    + apply L. now apply (above z n Hn Dz k Hk HC).
    + pose proof (below z n Hn Dz k Hk HC i ltac:(lia)). lra.
Qed.

(** the threshold of x as a function of x, chosen by the algorithm *)
Definition tau_of (x : mat) : R := match sparse_common x with Some c => sm_tau c | None => 0 end.
Lemma tau_of_threshold x : (0 < length (data x))%nat -> threshold_of (length (data x)) (entry x) (tau_of x).
Proof. intros H. unfold tau_of. destruct (common_value x H) as (c & -> & _ & T & _). exact T. Qed.
Lemma threshold_shift n x t a : threshold_of n x t <-> threshold_of n (fun i => x i - a) (t - a).
Proof. unfold threshold_of. rewrite (Rsum_ext n (fun i => Rmax 0 (x i - a - (t - a))) (fun i => Rmax 0 (x i - t))); [reflexivity|]. intros. f_equal. ring. Qed.
Lemma threshold_ext n x y t : (forall i, (i < n)%nat -> x i = y i) -> threshold_of n x t <-> threshold_of n y t.
Proof. intros H. unfold threshold_of. rewrite (Rsum_ext n _ (fun i => Rmax 0 (y i - t))); [reflexivity|]. intros. now rewrite H. Qed.

Lemma flat_max r c f : (0 < r * c)%nat -> exists mx, mat_max Rltb (flat r c f) = Some mx /\ (exists k, (k < r * c)%nat /\ f k = mx) /\ forall k, (k < r * c)%nat -> f k <= mx.
Proof.
  intros Hn. destruct (max_min_spec Rltb R_order (flat r c f)) as (M & _ & N & _). destruct (mat_max Rltb (flat r c f)) as [mx|] eqn:E.
  - exists mx. split; [reflexivity|]. destruct (M mx eq_refl) as (I & U). split.
    + destruct (In_nth _ _ 0 I) as (k & Hk & Ek). cbn in Hk. rewrite map_length, seq_length in Hk. exists k. split; [auto|]. now rewrite flat_nth in Ek.
    + intros k Hk. specialize (U (f k)). unfold Rltb in U. destruct (Rlt_dec mx (f k)); [|lra]. discriminate U. rewrite <- (flat_nth r c f k Hk). apply nth_In. cbn. now rewrite map_length, seq_length.
  - exfalso. pose proof (proj1 N eq_refl) as X. apply (f_equal (@length R)) in X. cbn in X. rewrite map_length, seq_length in X. lia.
Qed.

Lemma flat_len r c f : length (data (flat r c f)) = (r * c)%nat.
Proof. cbn. now rewrite map_length, seq_length. Qed.
(** Forward: the projection, except that what exceeds the largest entry of x is cut off and a negative largest entry panics *)
Lemma sparse_max_value r c f t : (0 < r * c)%nat -> threshold_of (r * c) f t -> exists mx,
  (exists k, (k < r * c)%nat /\ f k = mx) /\ (forall k, (k < r * c)%nat -> f k <= mx) /\
  m_sparse_max (flat r c f) = if Rltb mx 0 then None else Some (flat r c (fun k => Rmin mx (proj f t k))).
Proof.
  intros Hn T. destruct (flat_max r c f Hn) as (mx & Em & I & U). exists mx. split; [auto|]. split; [auto|]. unfold m_sparse_max. rewrite Em. cbn [bind].
  pose proof (m_subs_elems (flat r c f) mx r c (flat_fits r c f)) as Hs.
  assert (Es : m_subs (flat r c f) mx = flat r c (fun k => f k - mx)) by (apply (elems_flat _ _ _ _ _ Hs); intros i j Hi Hj; cbv beta; now rewrite flat_rget').
  rewrite Es. destruct (common_value (flat r c (fun k => f k - mx))) as (cm & -> & _ & Tc & _); [now rewrite flat_len|]. cbn [bind]. rewrite flat_len in Tc.
  assert (Et : sm_tau cm = t - mx).
  { apply (threshold_unique (r * c) (fun k => f k - mx)); [|now apply threshold_shift]. refine (proj1 (threshold_ext _ _ _ _ _) Tc). intros i Hi. unfold entry. now rewrite flat_nth. }
  rewrite Et. unfold sub_scalar_in_place. pose proof (const_in_elems Rplus (flat r c (fun k => f k - mx)) (- (t - mx)) r c (flat_fits _ _ _)) as Hc.
  set (w := mat_const_in_place 0 Rplus (flat r c (fun k => f k - mx)) (- (t - mx))) in *. pose proof Hc as (Ww & Rw & Cw & Vw).
  destruct (clip_spec 0 Rltb w 0 mx Ww) as (C1 & C2). destruct (Rltb mx 0) eqn:Neg; [now apply C1|]. destruct (C2 eq_refl) as (m & -> & Hm). f_equal. rewrite Rw, Cw in Hm. apply elems_has in Hm.
  apply (elems_flat _ _ _ _ _ Hm). intros i j Hi Hj. cbv beta zeta. change (get 0 w i j) with (rget w i j). rewrite Vw, flat_rget' by auto. unfold Rltb in *. destruct (Rlt_dec mx 0); [discriminate|].
  unfold proj, Rmax. destruct (Rle_dec 0 (f (i * c + j)%nat - t)); unfold Rmin;
    repeat match goal with |- context [Rlt_dec ?a ?b] => destruct (Rlt_dec a b) | |- context [Rle_dec ?a ?b] => destruct (Rle_dec a b) end; cbn iota; lra.
Qed.

(** the sum over the support in terms of the projection *)
Lemma reg_value n x t :
  Rsum n (fun i => if Rltb t (x i) then x i * x i - t * t else 0) / 2 = payoff n x (proj x t).
Proof.
  unfold payoff. unfold Rdiv. rewrite <- !Rsum_mult_r.
  assert (X : forall a b f, (forall i, (i < n)%nat -> f i = a i - b i) -> Rsum n f = Rsum n a - Rsum n b).
  { intros a b f H. rewrite (Rsum_ext n f (fun i => a i + b i * -1)) by (intros; rewrite H by auto; ring). rewrite !Rsum_plus, Rsum_mult_r. ring. }
  apply X. intros i Hi. unfold proj, Rmax, Rltb. destruct (Rlt_dec t (x i)), (Rle_dec 0 (x i - t)); try lra. assert (E : x i = t) by lra. rewrite E. lra.
Qed.
Lemma payoff_best n x t : threshold_of n x t -> best_payoff n x (payoff n x (proj x t)).
Proof.
  intros T. split; [exists (proj x t); split; [now apply proj_simplex|reflexivity]|]. intros q Q. destruct (proj_closest n x t T) as (_ & C). destruct (C q Q) as (D & _).
  assert (E : forall p, payoff n x p = (Rsum n (fun i => x i * x i) - dist2 n p x) / 2).
  { intros p. unfold payoff, dist2.
    rewrite (Rsum_ext n (fun i => (p i - x i) * (p i - x i)) (fun i => x i * x i + (p i * p i + p i * x i * -2))) by (intros; ring).
    rewrite !Rsum_plus, Rsum_mult_r. lra. }
  rewrite !E. lra.
Qed.
Lemma best_unique n x v v' : best_payoff n x v -> best_payoff n x v' -> v = v'.
Proof. intros ((p & P & <-) & B) ((q & Q & <-) & B'). apply Rle_antisym; auto. Qed.
Lemma fold_plus (g : nat -> R) (on : nat -> bool) n : fold_left (fun s i => if on i then s + g i else s) (seq 0 n) 0 = Rsum n (fun i => if on i then g i else 0).
Proof. induction n as [|n IH]; [reflexivity|]. rewrite seq_S, fold_left_app, IH, Rsum_r. cbn [fold_left plus]. destruct (on n); lra. Qed.
Lemma loss_value r c f t : (0 < r * c)%nat -> threshold_of (r * c) f t ->
  fwd sparse_max_loss_fn [flat r c f] = Some (flat r c (fun k => f k - (payoff (r * c) f (proj f t) + 1 / 2))).
Proof.
  intros Hn T. cbn [fwd sparse_max_loss_fn un]. unfold clone. change (mkDense (rows (flat r c f)) (cols (flat r c f)) (data (flat r c f))) with (flat r c f) || idtac.
  destruct (common_value (flat r c f)) as (cm & Ec & Ez & Tc & On); [now rewrite flat_len|]. rewrite flat_len in *.
  assert (Et : sm_tau cm = t). { apply (threshold_unique (r * c) f); [|auto]. refine (proj1 (threshold_ext _ _ _ _ _) Tc). intros i Hi. unfold entry. now rewrite flat_nth. }
  rewrite Ec. cbn [bind]. f_equal. rewrite (fold_plus (fun i => nth i (sm_zs cm) 0 * nth i (sm_zs cm) 0 - sm_tau cm * sm_tau cm)). rewrite Ez, sort_length, flat_len, <- Ez.
  rewrite (Rsum_ext (r * c) _ (fun i => if Rltb t (nth i (sm_zs cm) 0) then nth i (sm_zs cm) 0 * nth i (sm_zs cm) 0 - t * t else 0)) by (intros i Hi; now rewrite On, Et).
  assert (L : length (sm_zs cm) = (r * c)%nat) by (now rewrite Ez, sort_length, flat_len).
  rewrite <- L at 1. rewrite <- (lsum_Rsum (fun u => if Rltb t u then u * u - t * t else 0)). rewrite Ez, <- (lsum_perm _ _ _ (sort_perm _)), lsum_Rsum, flat_len.
  rewrite (Rsum_ext (r * c) _ (fun i => if Rltb t (f i) then f i * f i - t * t else 0)) by (intros i Hi; now rewrite flat_nth).
  pose proof (reg_value (r * c) f t) as RV. set (s := Rsum (r * c) _) in *. unfold sub_scalar_in_place.
  apply (elems_flat _ _ _ _ _ (const_in_elems Rplus (flat r c f) _ r c (flat_fits _ _ _))). intros i j Hi Hj. cbv beta. rewrite flat_rget' by auto. lra.
Qed.
