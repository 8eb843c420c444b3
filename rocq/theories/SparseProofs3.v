(** * The gradients of SparseMax and SparseMaxLoss *)
From Coq Require Import Reals List Arith Bool ZArith Lia Lra Psatz Permutation.
From Coquelicot Require Import Coquelicot.
From Verif Require Import DenseModel DenseSpec DenseLemmas DenseProofs DenseProofs2 ArithModel ArithSpec ArithProofs GradModel GradSpec GradLemmas GradProofs GradProofs5 GradProofs6 GradProofs9 GradProofs10 OpsModel OpsSpec OpsLemmas OpsProofs AttSpec AttProofs SparseModel SparseSpec SparseProofs SparseProofs2.
Import ListNotations.
Open Scope R_scope.

(** ** When the projection is computed *)
Lemma Rsum_le n f g : (forall i, (i < n)%nat -> f i <= g i) -> Rsum n f <= Rsum n g.
Proof. induction n as [|n IH]; intros H; [unfold Rsum; cbn; lra|]. rewrite !Rsum_r. pose proof (H n ltac:(lia)). pose proof (IH ltac:(intros; apply H; lia)). lra. Qed.
Lemma threshold_sign n x t : threshold_of n x t -> (0 <= t <-> 1 <= Rsum n (fun i => Rmax 0 (x i))) /\ (0 < t <-> 1 < Rsum n (fun i => Rmax 0 (x i))).
Proof.
  intros T. unfold threshold_of in T.
  assert (A : 0 <= t -> 1 <= Rsum n (fun i => Rmax 0 (x i))) by (intros; rewrite <- T; apply Rsum_le; intros i Hi; unfold Rmax; destruct (Rle_dec 0 (x i - t)), (Rle_dec 0 (x i)); lra).
  assert (B : t <= 0 -> Rsum n (fun i => Rmax 0 (x i)) <= 1) by (intros; rewrite <- T; apply Rsum_le; intros i Hi; unfold Rmax; destruct (Rle_dec 0 (x i - t)), (Rle_dec 0 (x i)); lra).
  assert (P : exists i, (i < n)%nat /\ 0 < x i - t).
  { destruct (Rsum_some n (fun i => Rmax 0 (x i - t))) as (i & Hi & Hp); [intros; apply Rmax_l|lra|]. exists i. split; auto. unfold Rmax in Hp. destruct (Rle_dec 0 (x i - t)); lra. }
  assert (C : 0 < t -> 1 < Rsum n (fun i => Rmax 0 (x i))).
  { intros Ht. destruct P as (i & Hi & Hp). assert (0 < Rsum n (fun i => Rmax 0 (x i) + - Rmax 0 (x i - t))).
    - apply (Rsum_pos_one n _ i); auto; [intros j Hj|]; unfold Rmax; repeat match goal with |- context [Rle_dec ?a ?b] => destruct (Rle_dec a b) end; lra.
    - rewrite Rsum_plus in H. rewrite (Rsum_ext n (fun i => - Rmax 0 (x i - t)) (fun i => Rmax 0 (x i - t) * -1)) in H by (intros; ring). rewrite Rsum_mult_r, T in H. lra. }
  assert (D : t < 0 -> Rsum n (fun i => Rmax 0 (x i)) < 1).
  { intros Ht. destruct P as (i & Hi & Hp). assert (0 < Rsum n (fun i => Rmax 0 (x i - t) + - Rmax 0 (x i))).
    - apply (Rsum_pos_one n _ i); auto; [intros j Hj|]; unfold Rmax; repeat match goal with |- context [Rle_dec ?a ?b] => destruct (Rle_dec a b) end; lra.
    - rewrite Rsum_plus in H. rewrite (Rsum_ext n (fun i => - Rmax 0 (x i)) (fun i => Rmax 0 (x i) * -1)) in H by (intros; ring). rewrite Rsum_mult_r, T in H. lra. }
  split; split; auto; intros H; destruct (Rlt_le_dec t 0), (Rlt_le_dec 0 t); try lra; (pose proof (B ltac:(lra)) || pose proof (D ltac:(lra))); lra.
Qed.
(** the largest entry is above the threshold *)
Lemma threshold_max n x t mx : threshold_of n x t -> (forall k, (k < n)%nat -> x k <= mx) -> t < mx.
Proof.
  intros T M. destruct (Rsum_some n (fun i => Rmax 0 (x i - t))) as (i & Hi & Hp); [intros; apply Rmax_l|unfold threshold_of in T; lra|]. specialize (M i Hi). unfold Rmax in Hp. destruct (Rle_dec 0 (x i - t)); lra.
Qed.
Lemma sparse_max_is_proj r c f t : (0 < r * c)%nat -> threshold_of (r * c) f t -> 0 <= t -> m_sparse_max (flat r c f) = Some (flat r c (proj f t)).
Proof.
  intros Hn T Ht. destruct (sparse_max_value r c f t Hn T) as (mx & _ & M & ->). pose proof (threshold_max _ _ _ mx T M).
  rewrite Rltb_false by lra. f_equal. apply flat_ext. intros k Hk. apply Rmin_right. unfold proj. apply Rmax_lub; [lra|]. specialize (M k Hk). lra.
Qed.

(** ** The loops of the backward pass *)
Lemma fold_opt_app {A S} (f : S -> A -> option S) l l' s : fold_opt f (l ++ l') s = (do s' <- fold_opt f l s; fold_opt f l' s').
Proof. revert s. induction l as [|a l IH]; intros s; [reflexivity|]. cbn. destruct (f s a); cbn; auto. Qed.
Lemma fold_opt_map {A B S} (f : S -> B -> option S) (h : A -> B) l s : fold_opt f (map h l) s = fold_opt (fun s a => f s (h a)) l s.
Proof. revert s. induction l as [|a l IH]; intros s; [reflexivity|]. cbn. destruct (f s (h a)); cbn; auto. Qed.
Lemma nonzero_flat r c (y : nat -> R) : is_vector (flat r c y) = true ->
  do_vec_non_zero Ris0 (flat r c y) = Some (map (fun k => (k, y k)) (filter (fun k => negb (Ris0 (y k))) (seq 0 (r * c)))).
Proof.
  intros V. unfold do_vec_non_zero. rewrite V, vec_nonzero_spec. f_equal. cbn [data flat]. rewrite map_length, seq_length.
  assert (E : forall l, filter (fun p : nat * R => negb (Ris0 (snd p))) (combine l (map y l)) = map (fun k => (k, y k)) (filter (fun k => negb (Ris0 (y k))) l)).
  { induction l as [|k l IH]; [reflexivity|]. cbn [map combine filter snd]. rewrite IH. now destruct (Ris0 (y k)). }
  apply E.
Qed.
Definition count_on (n : nat) (on : nat -> bool) : R := Rsum n (fun k => if on k then 1 else 0).
Definition sum_on (n : nat) (on : nat -> bool) (g : nat -> R) : R := Rsum n (fun k => if on k then g k else 0).
Lemma sum_loop r c (g : nat -> R) (on : nat -> bool) (y : nat -> R) : is_vector (flat r c g) = true -> forall m, (m <= r * c)%nat ->
  fold_opt (fun '(sum, count) (p : nat * R) => do v <- at_ (flat r c g) [Z.of_nat (fst p)]; Some (sum + v, count + 1)) (map (fun k => (k, y k)) (filter on (seq 0 m))) (0, 0)
  = Some (sum_on m on g, count_on m on).
Proof.
  intros V. induction m as [|m IH]; intros Hm; [reflexivity|]. rewrite seq_S, filter_app, map_app, fold_opt_app, IH by lia. cbn [bind Nat.add filter]. unfold sum_on, count_on. rewrite !Rsum_r.
  destruct (on m); cbn [map fold_opt fst]; [|now rewrite !Rplus_0_r].
  rewrite at_vector by (auto; rewrite flat_len; lia). cbn [bind]. rewrite flat_nth by lia. reflexivity.
Qed.
Lemma set_flat r c (h : nat -> R) v k : is_vector (flat r c h) = true -> (k < r * c)%nat -> set_ (flat r c h) v [Z.of_nat k] = Some (flat r c (fun i => if (i =? k)%nat then v else h i)).
Proof.
  intros V Hk. unfold set_. rewrite offset_one by apply flat_fits. rewrite V. cbn [rows cols flat andb].
  destruct (Z.leb_spec 0 (Z.of_nat k)), (Z.ltb_spec (Z.of_nat k) (Z.of_nat (r * c))); try lia. cbn [andb]. rewrite Nat2Z.id.
  change (data (mkDense r c (map h (seq 0 (r * c))))) with (data (flat r c h)). rewrite flat_len. destruct (Nat.ltb_spec k (r * c)); [|lia]. f_equal.
  unfold flat. f_equal. apply DenseLemmas.nth_ext. intros i. rewrite nth_put. cbn [data]. rewrite map_length, seq_length.
  destruct (Nat.ltb_spec i (r * c)).
  - rewrite !(nth_error_nth' _ 0) by (rewrite map_length, seq_length; auto). rewrite !nth_map_seq by auto. rewrite (Nat.eqb_sym k i). now destruct (i =? k)%nat.
  - rewrite !(proj2 (nth_error_None _ _)) by (rewrite map_length, seq_length; auto). now destruct (k =? i)%nat.
Qed.
Lemma set_loop r c (g : nat -> R) (a : R) (on : nat -> bool) (y : nat -> R) : is_vector (flat r c g) = true -> forall m, (m <= r * c)%nat ->
  fold_opt (fun gx (p : nat * R) => do v <- at_ (flat r c g) [Z.of_nat (fst p)]; set_ gx (v - a) [Z.of_nat (fst p)]) (map (fun k => (k, y k)) (filter on (seq 0 m))) (flat r c (fun _ => 0))
  = Some (flat r c (fun k => if (k <? m)%nat && on k then g k - a else 0)).
Proof.
  intros V. induction m as [|m IH]; intros Hm; [cbn; f_equal; apply flat_ext; intros; reflexivity|].
  rewrite seq_S, filter_app, map_app, fold_opt_app, IH by lia. cbn [bind Nat.add filter].
  destruct (on m) eqn:O; cbn [map fold_opt fst].
  - rewrite at_vector by (auto; rewrite flat_len; lia). cbn [bind]. rewrite flat_nth by lia. rewrite set_flat by (auto; lia). cbn [bind]. f_equal. apply flat_ext. intros k Hk.
    destruct (Nat.eqb_spec k m) as [->|].
    + rewrite O. now destruct (Nat.ltb_spec m (S m)); [|lia].
    + destruct (Nat.ltb_spec k m), (Nat.ltb_spec k (S m)); try lia; reflexivity.
  - f_equal. apply flat_ext. intros k Hk. destruct (Nat.ltb_spec k m), (Nat.ltb_spec k (S m)); try lia; try reflexivity. replace k with m by lia. now rewrite O.
Qed.

Lemma proj_on f t k : negb (Ris0 (proj f t k)) = Rltb t (f k).
Proof.
  unfold Ris0, proj, Rmax, Rltb. destruct (Rle_dec 0 (f k - t)), (Rlt_dec t (f k)); try lra; match goal with |- context [Req_EM_T ?a ?b] => destruct (Req_EM_T a b) end; try lra; reflexivity.
Qed.
Lemma zeros_flat x r c : fits x r c -> m_zeros_like x = flat r c (fun _ => 0).
Proof.
  intros (_ & Hr & Hc). unfold m_zeros_like, zeros_like, zeros, flat. rewrite Hr, Hc. f_equal. generalize 0%nat. induction (r * c)%nat as [|n IH]; intros k; [reflexivity|]. cbn. f_equal. apply IH.
Qed.
(** the backward pass: on the support the gradient less its mean there, elsewhere nothing *)
Lemma sparse_max_back r c f t g req : (0 < r * c)%nat -> is_vector (flat r c f) = true -> threshold_of (r * c) f t -> 0 <= t ->
  bwd sparse_max_fn [flat r c f] req (flat r c g) = Some (hand_out 0 req [flat r c (fun k => if Rltb t (f k) then g k - sum_on (r * c) (fun k => Rltb t (f k)) g / count_on (r * c) (fun k => Rltb t (f k)) else 0)]).
Proof.
  intros Hn V T Ht. cbn [bwd sparse_max_fn un_b]. rewrite (sparse_max_is_proj r c f t) by auto. cbn [bind].
  rewrite nonzero_flat by exact V. cbn [bind]. rewrite (filter_ext _ _ (proj_on f t)).
  rewrite sum_loop by (auto; exact V). cbn [bind fst snd]. rewrite (zeros_flat _ r c (flat_fits r c f)).
  rewrite (set_loop r c g) by (auto; exact V). rewrite when1. do 3 f_equal. apply flat_ext. intros k Hk. now destruct (Nat.ltb_spec k (r * c)); [|lia].
Qed.

(** ** SparseMax where it is differentiable *)
Lemma sum_on_ext n on (f g : nat -> R) : (forall k, (k < n)%nat -> on k = true -> f k = g k) -> sum_on n on f = sum_on n on g.
Proof. intros H. apply Rsum_ext. intros k Hk. destruct (on k) eqn:O; auto. Qed.
Lemma sum_on_minus n on (f : nat -> R) a : sum_on n on (fun k => f k - a) = sum_on n on f - a * count_on n on.
Proof.
  unfold sum_on, count_on. rewrite (Rsum_ext n _ (fun k => (if on k then f k else 0) + (if on k then 1 else 0) * - a)) by (intros k Hk; destruct (on k); ring).
  rewrite Rsum_plus, Rsum_mult_r. ring.
Qed.
(** a number t with the entries of [on] above it and the others not, and the right sum, is the threshold *)
Lemma threshold_on n (f : nat -> R) (on : nat -> bool) t : (forall k, (k < n)%nat -> if on k then t < f k else f k <= t) -> threshold_of n f t <-> sum_on n on f - t * count_on n on = 1.
Proof.
  intros H. rewrite <- sum_on_minus. unfold threshold_of, sum_on. rewrite (Rsum_ext n _ (fun k => if on k then f k - t else 0)); [reflexivity|].
  intros k Hk. specialize (H k Hk). destruct (on k); [apply Rmax_right|apply Rmax_left]; lra.
Qed.
Lemma count_on_pos n f t : threshold_of n f t -> 0 < count_on n (fun k => Rltb t (f k)).
Proof.
  intros T. destruct (Rsum_some n (fun i => Rmax 0 (f i - t))) as (i & Hi & Hp); [intros; apply Rmax_l|unfold threshold_of in T; lra|].
  apply (Rsum_pos_one n _ i); auto; [intros k Hk; destruct (Rltb t (f k)); lra|]. rewrite Rltb_true; [lra|]. unfold Rmax in Hp. destruct (Rle_dec 0 (f i - t)); lra.
Qed.
Lemma sparse_max_correct req x t : wf x -> is_vector x = true -> (0 < size x)%nat -> threshold_of (size x) (entry x) t -> 0 < t ->
  (forall k, (k < size x)%nat -> entry x k <> t) -> correct sparse_max_fn req [x].
Proof.
  intros Hw Hv Hn T Ht Hne. pose proof (fits_wf x Hw) as Hx. pose proof (fits_len _ _ _ Hx) as L. change (length (data x)) with (size x) in L. rewrite L in *.
  set (r := rows x) in *. set (c := cols x) in *. set (n := (r * c)%nat) in *.
  set (on := fun k => Rltb t (entry x k)). set (N := count_on n on). pose proof (count_on_pos n (entry x) t T) as HN. fold on in HN. fold N in HN.
  set (G := fun gy : mat => flat r c (fun k => if on k then nth k (data gy) 0 - sum_on n on (fun k => nth k (data gy) 0) / N else 0)).
  pose proof (flat_self x r c Hx) as Ex. change (fun k => nth k (data x) 0) with (entry x) in Ex.
  apply (correct_intro sparse_max_fn req [x] r c (fun gy => [G gy]) (flat r c (proj (entry x) t))).
  - cbn [fwd sparse_max_fn un]. rewrite Ex at 1. apply sparse_max_is_proj; auto; lra.
  - apply flat_fits.
  - intros gy Hg. split.
    + rewrite (flat_self gy r c Hg). rewrite Ex at 1. rewrite (sparse_max_back r c (entry x) t) by (auto; try lra; now rewrite <- Ex).
      do 3 f_equal. apply flat_ext. intros k Hk. fold n. unfold on, N. cbv beta. destruct (Rltb t (entry x k)); [|reflexivity]. rewrite flat_nth by auto. f_equal. f_equal.
      apply sum_on_ext. intros i Hi _. now rewrite flat_nth.
    + constructor; [apply flat_fits|constructor].
  - intros Xs Vs HMv HX _. destruct (one_mover Xs Vs x r c HMv HX Hx) as (X & V & -> & -> & HX0 & HXf & HVf & HD).
    assert (HDk : forall k, (k < n)%nat -> is_derive (fun s => entry (X s) k) 0 (entry V k)) by (intros k Hk; apply (flat_derive X V r c); auto).
    assert (HDs : is_derive (fun s => sum_on n on (entry (X s))) 0 (sum_on n on (entry V))).
    { apply (Rsum_derive n (fun k s => if on k then entry (X s) k else 0) (fun k => if on k then entry V k else 0)). intros k Hk. destruct (on k); [auto|apply d_const]. }
    set (T' := fun s => (sum_on n on (entry (X s)) - 1) / N).
    assert (HDT : is_derive T' 0 (sum_on n on (entry V) / N)).
    { unfold T', Rdiv. apply (d_scal (fun s => sum_on n on (entry (X s)) - 1)).
      eapply d_ext; [reflexivity| |apply (d_minus _ (fun _ => 1) 0 _ 0 HDs (d_const 1 0))]. ring. }
    assert (On : forall k, (k < n)%nat -> if on k then t < entry x k else entry x k < t).
    { intros k Hk. specialize (Hne k Hk). unfold on, Rltb. destruct (Rlt_dec t (entry x k)); lra. }
    assert (HT0 : T' 0 = t).
    { unfold T'. rewrite HX0. assert (E : sum_on n on (entry x) - t * N = 1).
      { apply (threshold_on n (entry x) on t); auto. intros k Hk. specialize (On k Hk). destruct (on k); lra. }
      replace (sum_on n on (entry x) - 1) with (t * N) by lra. field. lra. }
    exists (fun s i j => let k := (i * c + j)%nat in if on k then entry (X s) k - T' s else 0), (fun i j => let k := (i * c + j)%nat in if on k then entry V k - sum_on n on (entry V) / N else 0).
    split; [|split].
    + apply (filter_imp (fun s => (forall k, (k < n)%nat -> 0 < if on k then entry (X s) k - T' s else T' s - entry (X s) k) /\ 0 < T' s)).
      * intros s (Hs & Hp). pose proof (flat_self (X s) r c (HXf s)) as Es. change (fun k => nth k (data (X s)) 0) with (entry (X s)) in Es.
        assert (Ts : threshold_of n (entry (X s)) (T' s)).
        { apply (threshold_on n _ on); [intros k Hk; specialize (Hs k Hk); destruct (on k); lra|]. fold N. unfold T'. field. lra. }
        exists (flat r c (proj (entry (X s)) (T' s))). split; [cbn [at_time map fwd sparse_max_fn un]; rewrite Es at 1; apply sparse_max_is_proj; auto; lra|].
        apply (flat_elems _ r c (fun k => if on k then entry (X s) k - T' s else 0) (flat_fits _ _ _)). intros k Hk. rewrite flat_nth by auto. specialize (Hs k Hk). unfold proj.
        destruct (on k); [apply Rmax_right|apply Rmax_left]; lra.
      * apply filter_and.
        -- apply locally_nat. intros k Hk. specialize (On k Hk). destruct (on k).
           ++ apply (locally_curve (fun s => entry (X s) k - T' s) _ (fun v => 0 < v) (d_minus _ _ 0 _ _ (HDk k Hk) HDT)). apply (open_gt 0). rewrite HX0, HT0. lra.
           ++ apply (locally_curve (fun s => T' s - entry (X s) k) _ (fun v => 0 < v) (d_minus _ _ 0 _ _ HDT (HDk k Hk))). apply (open_gt 0). rewrite HX0, HT0. lra.
        -- apply (locally_curve T' _ (fun v => 0 < v) HDT). apply (open_gt 0). rewrite HT0. lra.
    + intros i j Hi Hj. cbv zeta. assert (Hk : (i * c + j < n)%nat) by (unfold n; nia). destruct (on (i * c + j)%nat); [|apply d_const]. apply (d_minus _ _ 0 _ _ (HDk _ Hk) HDT).
    + intros gy Hg. rewrite total1. rewrite (inner_flat (G gy) V r c (flat_fits _ _ _) HVf). cbv zeta.
      rewrite (inner2_flat gy r c (fun k => if on k then entry V k - sum_on n on (entry V) / N else 0) Hg). fold n.
      set (A := sum_on n on (entry V)). set (B := sum_on n on (fun k => nth k (data gy) 0)).
      rewrite (Rsum_ext n _ (fun k => (if on k then nth k (data gy) 0 * entry V k else 0) + (if on k then nth k (data gy) 0 else 0) * - (A / N))) by (intros k Hk; destruct (on k); ring).
      rewrite (Rsum_ext n (fun k => nth k (data (G gy)) 0 * _) (fun k => (if on k then nth k (data gy) 0 * entry V k else 0) + (if on k then entry V k else 0) * - (B / N))).
      * rewrite !Rsum_plus, !Rsum_mult_r. fold (sum_on n on (entry V)) (sum_on n on (fun k => nth k (data gy) 0)). fold A B. field. lra.
      * intros k Hk. unfold G. rewrite flat_nth by auto. unfold entry. fold B. destruct (on k); ring.
Qed.

(** ** SparseMaxLoss: differentiable everywhere, though the projection is not *)
Lemma Rsum_minus n f g : Rsum n (fun k => f k - g k) = Rsum n f - Rsum n g.
Proof. rewrite (Rsum_ext n _ (fun k => f k + g k * -1)) by (intros; ring). rewrite Rsum_plus, Rsum_mult_r. ring. Qed.
(** the best payoff grows by no less than <p, d>, and by no more than <p, d> + |d|^2 *)
Lemma payoff_growth n x y t u : threshold_of n x t -> threshold_of n y u ->
  0 <= payoff n y (proj y u) - payoff n x (proj x t) - Rsum n (fun i => proj x t i * (y i - x i)) <= Rsum n (fun i => (y i - x i) * (y i - x i)).
Proof.
  intros T U. set (p := proj x t). set (q := proj y u).
  assert (P : simplex n p) by now apply proj_simplex. assert (Q : simplex n q) by now apply proj_simplex.
  destruct (payoff_best n y u U) as (_ & By). destruct (payoff_best n x t T) as (_ & Bx). specialize (By p P). specialize (Bx q Q). fold q in By. fold p in Bx.
  pose proof (proj_vi n x t T q Q) as V1. pose proof (proj_vi n y u U p P) as V2. fold p in V1. fold q in V2.
  assert (D : forall a, payoff n y a = payoff n x a + Rsum n (fun i => a i * (y i - x i))).
  { intros a. unfold payoff. rewrite (Rsum_ext n (fun i => a i * (y i - x i)) (fun i => a i * y i - a i * x i)) by (intros; ring). rewrite Rsum_minus. ring. }
  pose proof (D p) as Dp. pose proof (D q) as Dq. split; [lra|].
  set (dq := Rsum n (fun i => q i * (y i - x i))) in *. set (dp := Rsum n (fun i => p i * (y i - x i))) in *.
  assert (dq - dp <= Rsum n (fun i => (y i - x i) * (y i - x i))); [|lra].
  assert (E : Rsum n (fun i => (y i - x i) * (y i - x i)) = dq - dp + (Rsum n (fun i => (q i - p i) * (p i - x i)) + Rsum n (fun i => (p i - q i) * (q i - y i))) + Rsum n (fun i => (y i - x i - (q i - p i)) * (y i - x i - (q i - p i)))).
  { unfold dq, dp. rewrite <- Rsum_minus, <- !Rsum_plus. apply Rsum_ext. intros; ring. }
  assert (0 <= Rsum n (fun i => (y i - x i - (q i - p i)) * (y i - x i - (q i - p i)))) by (apply Rsum_nonneg; intros; apply Rle_0_sqr). lra.
Qed.
Lemma squeeze (D E : R -> R) : (forall s, 0 <= D s <= E s) -> E 0 = 0 -> is_derive E 0 0 -> is_derive D 0 0.
Proof.
  intros H E0 HE. apply is_derive_Reals. apply is_derive_Reals in HE. intros eps He. destruct (HE eps He) as (d & Hd). exists d. intros h Hh Hs. specialize (Hd h Hh Hs).
  pose proof (H 0) as H0. pose proof (H (0 + h)) as Hp. rewrite E0 in *. assert (D 0 = 0) as -> by lra. rewrite !Rminus_0_r in *. unfold Rdiv in *. rewrite Rabs_mult in *.
  eapply Rle_lt_trans; [|exact Hd]. apply Rmult_le_compat_r; [apply Rabs_pos|]. rewrite !Rabs_pos_eq; lra.
Qed.

Lemma payoff_derive n (X : R -> nat -> R) (V : nat -> R) (T : R -> R) : (forall s, threshold_of n (X s) (T s)) ->
  (forall k, (k < n)%nat -> is_derive (fun s => X s k) 0 (V k)) -> is_derive (fun s => payoff n (X s) (proj (X s) (T s))) 0 (Rsum n (fun k => proj (X 0) (T 0) k * V k)).
Proof.
  intros HT HD. set (p := proj (X 0) (T 0)). set (b := payoff n (X 0) p).
  set (D := fun s => payoff n (X s) (proj (X s) (T s)) - b - Rsum n (fun i => p i * (X s i - X 0 i))).
  set (E := fun s => Rsum n (fun i => (X s i - X 0 i) * (X s i - X 0 i))).
  assert (HDi : forall i, (i < n)%nat -> is_derive (fun s => X s i - X 0 i) 0 (V i)).
  { intros i Hi. eapply d_ext; [reflexivity| |apply (d_minus _ (fun _ => X 0 i) 0 _ 0 (HD i Hi) (d_const _ 0))]. ring. }
  assert (HE : is_derive E 0 0).
  { unfold E. eapply d_ext; [reflexivity| |apply (Rsum_derive n (fun i s => (X s i - X 0 i) * (X s i - X 0 i)) (fun i => 0))].
    - apply Rsum_0; auto.
    - intros i Hi. eapply d_ext; [reflexivity| |apply (d_mult _ _ 0 _ _ (HDi i Hi) (HDi i Hi))]. cbv beta. ring. }
  assert (HD0 : is_derive D 0 0).
  { apply (squeeze D E); auto.
    - intros s. apply payoff_growth; auto.
    - unfold E. apply Rsum_0. intros; ring. }
  assert (HL : is_derive (fun s => Rsum n (fun i => p i * (X s i - X 0 i))) 0 (Rsum n (fun i => p i * V i))).
  { apply (Rsum_derive n (fun i s => p i * (X s i - X 0 i)) (fun i => p i * V i)). intros i Hi. eapply d_ext; [| |apply (d_scal _ 0 _ (p i) (HDi i Hi))]; intros; cbv beta; ring. }
  eapply d_ext; [| |apply (d_plus _ (fun _ => b) 0 _ 0 (d_plus _ _ 0 _ _ HD0 HL) (d_const b 0))]; [intros s; unfold D; cbv beta; ring|ring].
Qed.

Lemma sparse_loss_correct req x : wf x -> (0 < size x)%nat -> correct sparse_max_loss_fn req [x].
Proof.
  intros Hw Hn. pose proof (fits_wf x Hw) as Hx. pose proof (fits_len _ _ _ Hx) as L. change (length (data x)) with (size x) in L. rewrite L in *.
  set (r := rows x) in *. set (c := cols x) in *. set (n := (r * c)%nat) in *.
  assert (TT : forall a, fits a r c -> threshold_of n (entry a) (tau_of a)).
  { intros a Ha. pose proof (fits_len _ _ _ Ha) as La. fold n in La. rewrite <- La. apply tau_of_threshold. lia. }
  assert (HF : forall a, fits a r c -> fwd sparse_max_loss_fn [a] = Some (flat r c (fun k => entry a k - (payoff n (entry a) (proj (entry a) (tau_of a)) + 1 / 2)))).
  { intros a Ha. rewrite (flat_self a r c Ha) at 1. change (fun k => nth k (data a) 0) with (entry a). apply loss_value; auto. }
  set (t := tau_of x). set (p := proj (entry x) t).
  set (G := fun gy : mat => flat r c (fun k => entry gy k - p k * Rsum n (entry gy))).
  apply (correct_intro sparse_max_loss_fn req [x] r c (fun gy => [G gy]) (flat r c (fun k => entry x k - (payoff n (entry x) p + 1 / 2)))).
  - apply HF; auto.
  - apply flat_fits.
  - intros gy Hg. split; [|constructor; [apply flat_fits|constructor]].
    cbn [bwd sparse_max_loss_fn un_b]. destruct (common_value x) as (cm & Ec & _ & _ & _); [unfold size in *; lia|].
    assert (Et : sm_tau cm = t) by (unfold t, tau_of; now rewrite Ec).
    assert (clone x = x) as -> by (unfold clone; now destruct x). rewrite Ec. cbn [bind]. rewrite Et.
    pose proof (flat_self gy r c Hg) as Eg. change (fun k => nth k (data gy) 0) with (entry gy) in Eg.
    assert (mat_sum 0 Rplus gy = Rsum n (entry gy)) as -> by (rewrite Eg at 1; apply flat_sum).
    rewrite (elems_flat (m_apply _ x) r c _ (fun k => p k * Rsum n (entry gy)) (m_apply_elems _ x r c Hx)).
    + rewrite Eg at 1. pose proof (v_sub r c (entry gy) (fun k => p k * Rsum n (entry gy))) as VS. cbn [fwd sub_fn] in VS. unfold bin in VS. rewrite VS. apply when1.
    + intros i j Hi Hj. cbv beta. rewrite (rget_flat x r c) by auto. reflexivity.
  - intros Xs Vs HMv HX _. destruct (one_mover Xs Vs x r c HMv HX Hx) as (X & V & -> & -> & HX0 & HXf & HVf & HD).
    assert (HDk : forall k, (k < n)%nat -> is_derive (fun s => entry (X s) k) 0 (entry V k)) by (intros k Hk; apply (flat_derive X V r c); auto).
    pose proof (payoff_derive n (fun s => entry (X s)) (entry V) (fun s => tau_of (X s)) (fun s => TT _ (HXf s)) HDk) as HP. cbv beta in HP. rewrite HX0 in HP. fold t p in HP.
    exists (fun s i j => let k := (i * c + j)%nat in entry (X s) k - (payoff n (entry (X s)) (proj (entry (X s)) (tau_of (X s))) + 1 / 2)), (fun i j => let k := (i * c + j)%nat in entry V k - Rsum n (fun k => p k * entry V k)).
    split; [|split].
    + apply filter_forall. intros s. eexists. split; [apply (HF (X s)); auto|].
      apply (flat_elems _ r c (fun k => entry (X s) k - (payoff n (entry (X s)) (proj (entry (X s)) (tau_of (X s))) + 1 / 2)) (flat_fits _ _ _)). intros k Hk. now rewrite flat_nth.
    + intros i j Hi Hj. cbv zeta. assert (Hk : (i * c + j < n)%nat) by (unfold n; nia).
      eapply d_ext; [reflexivity| |apply (d_minus _ _ 0 _ _ (HDk _ Hk) (d_plus _ (fun _ => 1 / 2) 0 _ 0 HP (d_const _ 0)))]. ring.
    + intros gy Hg. rewrite total1. rewrite (inner_flat (G gy) V r c (flat_fits _ _ _) HVf). cbv zeta.
      rewrite (inner2_flat gy r c (fun k => entry V k - Rsum n (fun k => p k * entry V k)) Hg). fold n.
      set (A := Rsum n (fun k => p k * entry V k)).
      rewrite (Rsum_ext n _ (fun k => entry gy k * entry V k + entry gy k * - A)) by (intros; unfold entry; ring).
      rewrite (Rsum_ext n (fun k => nth k (data (G gy)) 0 * _) (fun k => entry gy k * entry V k + (p k * entry V k) * - Rsum n (entry gy))).
      * rewrite !Rsum_plus, !Rsum_mult_r. fold A. ring.
      * intros k Hk. unfold G. rewrite flat_nth by auto. unfold entry. ring.
Qed.
