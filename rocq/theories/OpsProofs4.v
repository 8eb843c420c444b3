(** * The helpers for sequences of nodes *)
From Coq Require Import Reals List Arith Bool ZArith Lia Lra.
From Coquelicot Require Import Coquelicot.
From Verif Require Import DenseModel DenseSpec DenseLemmas DenseProofs DenseProofs2 ArithModel ArithSpec GradModel GradSpec GradLemmas GradProofs GradProofs2 GradProofs4 GradProofs5 GradProofs6 GradProofs7 GradProofs9 GradProofs10 GradProofs13 OpsModel OpsSpec OpsLemmas OpsProofs OpsProofs2 OpsProofs3.
Import ListNotations.
Open Scope R_scope.

Lemma each_map {A B} (f : A -> option B) (g : A -> B) l : (forall x, In x l -> f x = Some (g x)) -> each f l = Some (map g l).
Proof. intros H. apply each_some. now apply Forall_forall. Qed.
Lemma each_none {A B} (f : A -> option B) l x : In x l -> f x = None -> each f l = None.
Proof.
  induction l as [|y l IH]; intros H E; [destruct H|]. cbn. destruct H as [->|H]; [rewrite E; reflexivity|].
  destruct (f y); cbn; [|reflexivity]. rewrite IH by auto. reflexivity.
Qed.

Lemma separate_matrix_value x : wf x ->
  separate_matrix x = Some (map (fun i => map (fun j => scalar (rget x i j)) (seq 0 (cols x))) (seq 0 (rows x))).
Proof.
  intros W. apply each_map. intros i Hi. apply in_seq in Hi. apply each_map. intros j Hj. apply in_seq in Hj. cbn.
  rewrite (at_rget x (rows x) (cols x)) by (auto using fits_wf; lia). rewrite !Nat2Z.id. reflexivity.
Qed.
Lemma map_nth_all {A} (f : R -> A) (l : list R) : map (fun i => f (nth i l 0)) (seq 0 (length l)) = map f l.
Proof.
  induction l as [|v l IH]; [reflexivity|]. cbn [length seq map nth]. f_equal. rewrite <- seq_shift, map_map. exact IH.
Qed.
Lemma separate_vec_value x : wf x -> is_vector x = true -> separate_vec x = Some (map scalar (data x)).
Proof.
  intros W V. unfold separate_vec. rewrite (each_map _ (fun i => scalar (nth i (data x) 0))).
  - now rewrite map_nth_all.
  - intros i Hi. apply in_seq in Hi. apply v_at1; auto. lia.
Qed.

Lemma submatrix_column x n a b : fits x n 1 -> (a < n)%nat -> (a <= b <= n)%nat ->
  submatrix x (Z.of_nat a) 0 (Z.of_nat b) 1 = Some (mkDense (b - a) 1 (firstn (b - a) (skipn a (data x)))).
Proof.
  intros (W & Hr & Hc) Ha Hb. unfold submatrix, slice_bad. rewrite Hr, Hc.
  replace (Z.of_nat 1) with 1%Z by reflexivity.
  destruct (Z.ltb_spec (Z.of_nat a) 0), (Z.leb_spec (Z.of_nat n) (Z.of_nat a)), (Z.ltb_spec (Z.of_nat n) (Z.of_nat b)), (Z.ltb_spec (Z.of_nat b) (Z.of_nat a)); try lia.
  cbn -[slice]. rewrite !Nat2Z.id, !Nat.mul_1_r. reflexivity.
Qed.

(** the consecutive pieces of a list *)
Lemma pieces_concat {A} c s : forall (l : list A), length l = (c * s)%nat -> concat (map (fun i => firstn s (skipn (i * s) l)) (seq 0 c)) = l.
Proof.
  induction c as [|c IH]; intros l L; cbn [seq map concat]; [symmetry; apply length_zero_iff_nil; lia|].
  cbn [Nat.mul skipn]. rewrite <- seq_shift, map_map. rewrite (map_ext _ (fun i => firstn s (skipn (i * s) (skipn s l)))).
  - rewrite IH; [apply firstn_skipn|]. rewrite skipn_length. lia.
  - intros i. rewrite skipn_skipn. do 2 f_equal. lia.
Qed.
Lemma split_vec_column x c s : fits x (c * s) 1 -> (0 < c)%nat -> (0 < s)%nat ->
  split_vec x (Z.of_nat c) = Some (map (fun i => mkDense s 1 (firstn s (skipn (i * s) (data x)))) (seq 0 c)).
Proof.
  intros Hx Hc Hs. pose proof (fits_len _ _ _ Hx) as L. rewrite Nat.mul_1_r in L. unfold split_vec. rewrite L.
  destruct (Z.eqb_spec (Z.of_nat c) 0); [lia|]. rewrite Nat2Z.inj_mul.
  rewrite Z.mul_comm, Z.rem_mul by lia. destruct (Z.ltb_spec (Z.of_nat c) 0); [lia|]. cbn [negb Z.eqb]. rewrite Z.div_mul, Nat2Z.id by lia.
  apply each_map. intros i Hi. apply in_seq in Hi. cbn -[submatrix].
  replace (Z.of_nat i * Z.of_nat s)%Z with (Z.of_nat (i * s)) by lia. replace (Z.of_nat (i * s) + Z.of_nat s)%Z with (Z.of_nat (i * s + s)) by lia.
  rewrite (submatrix_column x (c * s)) by (auto; nia). do 2 f_equal; [|f_equal]; lia.
Qed.
Lemma split_vec_pieces x c s : fits x (c * s) 1 -> (0 < c)%nat -> (0 < s)%nat -> exists ys,
  split_vec x (Z.of_nat c) = Some ys /\ length ys = c /\ List.Forall (fun y => fits y s 1) ys /\ concat (map data ys) = data x /\ concat_v ys = Some x.
Proof.
  intros Hx Hc Hs. pose proof (fits_len _ _ _ Hx) as L. rewrite Nat.mul_1_r in L.
  exists (map (fun i => mkDense s 1 (firstn s (skipn (i * s) (data x)))) (seq 0 c)). split; [apply split_vec_column; auto|]. split; [now rewrite map_length, seq_length|].
  assert (F : List.Forall (fun y : mat => fits y s 1) (map (fun i => mkDense s 1 (firstn s (skipn (i * s) (data x)))) (seq 0 c))).
  { apply Forall_forall. intros y Hy. apply in_map_iff in Hy as (i & <- & Hi). apply in_seq in Hi. apply fits_mk. rewrite firstn_length, skipn_length. nia. }
  split; [exact F|]. assert (D : concat (map data (map (fun i => mkDense s 1 (firstn s (skipn (i * s) (data x)))) (seq 0 c))) = data x).
  { rewrite map_map. cbn. now apply pieces_concat. }
  split; [exact D|]. destruct (concat_spec (map (fun i => mkDense s 1 (firstn s (skipn (i * s) (data x)))) (seq 0 c))) as [C1 C2].
  destruct (concat_v _) as [m|] eqn:E.
  - destruct (C1 m eq_refl) as (E1 & E2 & E3 & E4). destruct Hx as (W & Hr & Hc'). f_equal. rewrite D in E1. rewrite E1, L in E2. destruct m, x. cbn in *. subst. reflexivity.
  - destruct (proj1 C2 eq_refl) as (v & Hv & Hf). rewrite Forall_forall in F. apply F in Hv. destruct Hv as (_ & _ & Hv). unfold is_vector in Hf. rewrite Hv, orb_true_r in Hf. discriminate.
Qed.
(** A row vector of two or more elements cannot be split. *)
Lemma split_vec_row x n chunks : fits x 1 n -> (2 <= n)%nat -> split_vec x chunks = None.
Proof.
  intros Hx Hn. pose proof (fits_len _ _ _ Hx) as L. rewrite Nat.mul_1_l in L. unfold split_vec. rewrite L.
  destruct (Z.eqb_spec chunks 0); [reflexivity|]. destruct (Z.eqb_spec (Z.rem (Z.of_nat n) chunks) 0) as [E|]; [|reflexivity]. cbn [negb].
  destruct (Z.ltb_spec chunks 0); [reflexivity|]. rewrite Z.rem_mod_nonneg in E by lia. apply Z.div_exact in E; [|lia]. set (s := (Z.of_nat n / chunks)%Z) in *.
  assert (0 < s)%Z by nia. destruct Hx as (W & Hr & Hc). destruct (Z.eq_dec s 1) as [Es|Es].
  - apply (each_none _ _ 1%nat); [apply in_seq; lia|]. cbn [fwd slice_fn un]. apply (proj2 (submatrix_panics x _ _ _ _)). unfold slice_ok. lia.
  - apply (each_none _ _ 0%nat); [apply in_seq; lia|]. cbn [fwd slice_fn un]. apply (proj2 (submatrix_panics x _ _ _ _)). unfold slice_ok. lia.
Qed.

Lemma nth_error_seq_R n : forall a k, nth_error (seq a n) k = if (k <? n)%nat then Some (a + k)%nat else None.
Proof.
  induction n as [|n IH]; intros a [|k]; cbn [seq nth_error]; try reflexivity; [cbn; f_equal; lia|]. rewrite IH. change (S k <? S n)%nat with (k <? n)%nat. replace (S a + k)%nat with (a + S k)%nat by lia. reflexivity.
Qed.
Lemma pad_value {A} (xs : list A) n padding :
  (ag_pad xs n padding = None <-> (n < 0)%Z) /\
  forall ys, ag_pad xs n padding = Some ys -> Z.of_nat (length ys) = n /\
    forall k, (k < length ys)%nat -> nth_error ys k = if (k <? length xs)%nat then nth_error xs k else Some (padding k).
Proof.
  unfold ag_pad. destruct (Z.eqb_spec (Z.of_nat (length xs)) n) as [E|E].
  - split; [split; [discriminate|lia]|]. intros ys [= <-]. split; auto. intros k Hk. destruct (Nat.ltb_spec k (length xs)); [reflexivity|lia].
  - destruct (Z.ltb_spec n (Z.of_nat (length xs))) as [H|H].
    + destruct (Z.ltb_spec n 0) as [H0|H0]; [split; [split; auto|discriminate]|].
      split; [split; [discriminate|lia]|]. intros ys [= <-]. rewrite firstn_length. split; [lia|]. intros k Hk. destruct (Nat.ltb_spec k (length xs)); [|lia].
      rewrite <- (firstn_skipn (Z.to_nat n) xs) at 2. rewrite nth_error_app1; [reflexivity|]. rewrite firstn_length. lia.
    + split; [split; [discriminate|lia]|]. intros ys [= <-]. rewrite app_length, map_length, seq_length. split; [lia|]. intros k Hk. destruct (Nat.ltb_spec k (length xs)).
      * now rewrite nth_error_app1.
      * rewrite nth_error_app2 by auto. rewrite nth_error_map, nth_error_seq_R. destruct (Nat.ltb_spec (k - length xs) (Z.to_nat n - length xs)); [|lia]. cbn. do 2 f_equal. lia.
Qed.
Lemma map2_value {A B C} (f : A -> B -> C) xs ys :
  (ag_map2 f xs ys = None <-> length xs <> length ys) /\
  forall zs, ag_map2 f xs ys = Some zs -> length zs = length xs /\
    forall k x y, nth_error xs k = Some x -> nth_error ys k = Some y -> nth_error zs k = Some (f x y).
Proof.
  unfold ag_map2. destruct (Nat.eqb_spec (length xs) (length ys)) as [E|E]; cbn [negb].
  - split; [split; [discriminate|congruence]|]. intros zs [= <-]. rewrite map_length, combine_length. split; [lia|].
    clear E. revert ys. induction xs as [|a xs IH]; intros [|b ys] [|k] x y; cbn; try discriminate.
    + intros [= ->] [= ->]. reflexivity.
    + apply IH.
  - split; [tauto|discriminate].
Qed.

(** Sum, Mean, Maximum, Minimum *)
Section Folds.
Variables (r c : nat) (xs : list mat).
Hypotheses (Hne : xs <> []) (HX : List.Forall (shaped r c) xs).
Lemma sum_value : ag_sum xs = Some (flat r c (batch_sum xs)).
Proof. now apply fold_nodes_add. Qed.
Lemma mean_value : ag_mean xs = Some (flat r c (fun k => batch_sum xs k / INR (length xs))).
Proof. unfold ag_mean. rewrite (fold_nodes_add r c) by auto. cbn [bind]. steps. reflexivity. Qed.
End Folds.
Section Extrema.
Variables (r c : nat) (op : R -> R -> R) (f : gfun).
Hypothesis Hf : forall g h, fwd f [flat r c g; flat r c h] = Some (flat r c (fun k => op (g k) (h k))).
Lemma fold_op xs : List.Forall (shaped r c) xs -> forall g, fold_opt (fun s x => fwd f [s; x]) xs (flat r c g) =
  Some (flat r c (fun k => fold_left (fun m x => op m (entry x k)) xs (g k))).
Proof.
  induction 1 as [|x xs Hx H IH]; intros g; cbn [fold_opt fold_left]; [reflexivity|].
  rewrite (shaped_flat r c x Hx) at 1. rewrite Hf. cbn [bind]. rewrite IH. reflexivity.
Qed.
Lemma fold_nodes_op x xs : shaped r c x -> List.Forall (shaped r c) xs -> fold_nodes f (x :: xs) =
  Some (flat r c (fun k => fold_left (fun m x => op m (entry x k)) xs (entry x k))).
Proof. intros Hx H. cbn [fold_nodes]. rewrite (shaped_flat r c x Hx) at 1. apply fold_op; auto. Qed.
End Extrema.
Lemma fold_max xs k : forall m, m <= fold_left (fun m x => Rmax m (entry x k)) xs m /\ (forall x, In x xs -> entry x k <= fold_left (fun m x => Rmax m (entry x k)) xs m) /\
  (fold_left (fun m x => Rmax m (entry x k)) xs m = m \/ exists x, In x xs /\ fold_left (fun m x => Rmax m (entry x k)) xs m = entry x k).
Proof.
  induction xs as [|x xs IH]; intros m; cbn [fold_left].
  - repeat split; [lra|intros x []|now left].
  - destruct (IH (Rmax m (entry x k))) as (H1 & H2 & H3). pose proof (Rmax_l m (entry x k)). pose proof (Rmax_r m (entry x k)). repeat split.
    + lra.
    + intros y [<-|Hy]; [lra|auto].
    + destruct H3 as [H3|(y & Hy & H3)]; [|right; exists y; split; [right; auto|auto]]. rewrite H3. destruct (Rmax_case_strong m (entry x k) (fun v => v = m \/ v = entry x k)) as [E|E]; auto.
      right. exists x. split; [now left|auto].
Qed.
Lemma fold_min xs k : forall m, fold_left (fun m x => Rmin m (entry x k)) xs m <= m /\ (forall x, In x xs -> fold_left (fun m x => Rmin m (entry x k)) xs m <= entry x k) /\
  (fold_left (fun m x => Rmin m (entry x k)) xs m = m \/ exists x, In x xs /\ fold_left (fun m x => Rmin m (entry x k)) xs m = entry x k).
Proof.
  induction xs as [|x xs IH]; intros m; cbn [fold_left].
  - repeat split; [lra|intros x []|now left].
  - destruct (IH (Rmin m (entry x k))) as (H1 & H2 & H3). pose proof (Rmin_l m (entry x k)). pose proof (Rmin_r m (entry x k)). repeat split.
    + lra.
    + intros y [<-|Hy]; [lra|auto].
    + destruct H3 as [H3|(y & Hy & H3)]; [|right; exists y; split; [right; auto|auto]]. rewrite H3. destruct (Rmin_case_strong m (entry x k) (fun v => v = m \/ v = entry x k)) as [E|E]; auto.
      right. exists x. split; [now left|auto].
Qed.
Lemma maximum_value r c xs : xs <> [] -> List.Forall (shaped r c) xs -> exists y, ag_maximum xs = Some y /\ fits y r c /\
  forall k, (k < r * c)%nat -> (forall x, In x xs -> entry x k <= entry y k) /\ exists x, In x xs /\ entry y k = entry x k.
Proof.
  intros Hne H. destruct H as [|x xs Hx H]; [congruence|]. eexists. split; [apply (fold_nodes_op r c Rmax max_fn (v_max r c)); auto|]. split; [apply flat_fits|].
  intros k Hk. assert (Ey : entry (flat r c (fun k => fold_left (fun m x => Rmax m (entry x k)) xs (entry x k))) k = fold_left (fun m x => Rmax m (entry x k)) xs (entry x k)) by now apply (flat_nth r c (fun k => fold_left (fun m x => Rmax m (entry x k)) xs (entry x k))).
  rewrite Ey. destruct (fold_max xs k (entry x k)) as (H1 & H2 & H3). split.
  - intros z [<-|Hz]; auto.
  - destruct H3 as [->|(z & Hz & ->)]; [exists x|exists z]; split; auto; [now left|now right].
Qed.
Lemma minimum_value r c xs : xs <> [] -> List.Forall (shaped r c) xs -> exists y, ag_minimum xs = Some y /\ fits y r c /\
  forall k, (k < r * c)%nat -> (forall x, In x xs -> entry y k <= entry x k) /\ exists x, In x xs /\ entry y k = entry x k.
Proof.
  intros Hne H. destruct H as [|x xs Hx H]; [congruence|]. eexists. split; [apply (fold_nodes_op r c Rmin min_fn (v_min r c)); auto|]. split; [apply flat_fits|].
  intros k Hk. assert (Ey : entry (flat r c (fun k => fold_left (fun m x => Rmin m (entry x k)) xs (entry x k))) k = fold_left (fun m x => Rmin m (entry x k)) xs (entry x k)) by now apply (flat_nth r c (fun k => fold_left (fun m x => Rmin m (entry x k)) xs (entry x k))).
  rewrite Ey. destruct (fold_min xs k (entry x k)) as (H1 & H2 & H3). split.
  - intros z [<-|Hz]; auto.
  - destruct H3 as [->|(z & Hz & ->)]; [exists x|exists z]; split; auto; [now left|now right].
Qed.

(** the views *)
Lemma row_views_value x : wf x -> exists ys, row_views x = Some ys /\ length ys = rows x /\
  forall i y, nth_error ys i = Some y -> is_matrix y 1 (cols x) (fun _ j => elem x i j).
Proof.
  intros W. assert (H : forall i, (i < rows x)%nat -> exists y, fwd (row_view_fn (Z.of_nat i)) [x] = Some y /\ is_matrix y 1 (cols x) (fun _ j => elem x i j)).
  { intros i Hi. cbn. destruct (extract_row_spec x (Z.of_nat i) W) as (y & Hy & E); [lia|]. rewrite Nat2Z.id in E. eauto. }
  revert H. unfold row_views. generalize (rows x). intros n H.
  assert (G : forall a, (a <= n)%nat -> exists ys, each (fun i => fwd (row_view_fn (Z.of_nat i)) [x]) (seq a (n - a)) = Some ys /\ length ys = (n - a)%nat /\
     forall i y, nth_error ys i = Some y -> is_matrix y 1 (cols x) (fun _ j => elem x (a + i) j)).
  { intros a Ha. remember (n - a)%nat as m eqn:E. revert a Ha E. induction m as [|m IH]; intros a Ha E; cbn [seq each].
    - exists []. split; [reflexivity|]. split; [reflexivity|]. intros [|i] y; discriminate.
    - destruct (H a) as (y & Hy & Ey); [lia|]. rewrite Hy. cbn [bind]. destruct (IH (S a)) as (ys & E1 & E2 & E3); [lia|lia|]. rewrite E1. cbn [bind]. exists (y :: ys). cbn. rewrite E2.
      split; [reflexivity|]. split; [reflexivity|]. intros [|i] z; cbn; [intros [= <-]; now rewrite Nat.add_0_r|]. intros Hz. replace (a + S i)%nat with (S a + i)%nat by lia. auto. }
  destruct (G 0%nat) as (ys & E1 & E2 & E3); [lia|]. rewrite Nat.sub_0_r in *. eauto.
Qed.
Lemma col_views_value x : wf x -> exists ys, col_views x = Some ys /\ length ys = cols x /\
  forall j y, nth_error ys j = Some y -> is_matrix y (rows x) 1 (fun i _ => elem x i j).
Proof.
  intros W. assert (H : forall i, (i < cols x)%nat -> exists y, fwd (col_view_fn (Z.of_nat i)) [x] = Some y /\ is_matrix y (rows x) 1 (fun k _ => elem x k i)).
  { intros i Hi. cbn. destruct (extract_column_spec 0 x (Z.of_nat i) W) as (y & Hy & E); [lia|]. rewrite Nat2Z.id in E. eauto. }
  revert H. unfold col_views. generalize (cols x). intros n H.
  assert (G : forall a, (a <= n)%nat -> exists ys, each (fun i => fwd (col_view_fn (Z.of_nat i)) [x]) (seq a (n - a)) = Some ys /\ length ys = (n - a)%nat /\
     forall i y, nth_error ys i = Some y -> is_matrix y (rows x) 1 (fun k _ => elem x k (a + i))).
  { intros a Ha. remember (n - a)%nat as m eqn:E. revert a Ha E. induction m as [|m IH]; intros a Ha E; cbn [seq each].
    - exists []. split; [reflexivity|]. split; [reflexivity|]. intros [|i] y; discriminate.
    - destruct (H a) as (y & Hy & Ey); [lia|]. rewrite Hy. cbn [bind]. destruct (IH (S a)) as (ys & E1 & E2 & E3); [lia|lia|]. rewrite E1. cbn [bind]. exists (y :: ys). cbn. rewrite E2.
      split; [reflexivity|]. split; [reflexivity|]. intros [|i] z; cbn; [intros [= <-]; now rewrite Nat.add_0_r|]. intros Hz. replace (a + S i)%nat with (S a + i)%nat by lia. auto. }
  destruct (G 0%nat) as (ys & E1 & E2 & E3); [lia|]. rewrite Nat.sub_0_r in *. eauto.
Qed.

(** BiLinear, BiAffine, PositiveELU *)
Lemma scalar_elems m h : elems m 1 1 h -> m = scalar (h 0%nat 0%nat).
Proof. intros H. rewrite (fits_scalar m (elems_fits _ _ _ _ H)). f_equal. apply (rget_elems _ _ _ _ 0%nat 0%nat H); lia. Qed.
Lemma bi_linear_value wide w x1 x2 n m : fits w n m -> fits x1 n 1 -> fits x2 m 1 ->
  bi_linear wide w x1 x2 = Some (scalar (Rsum n (fun i => Rsum m (fun j => rget x1 i 0 * rget w i j * rget x2 j 0)))).
Proof.
  intros Hw H1 H2. unfold bi_linear. cbn [fwd transpose_fn un bind mul_fn bin]. pose proof (m_t_elems x1 n 1 H1) as Et.
  destruct (m_mul_elems wide (m_t x1) w 1 n m (elems_fits _ _ _ _ Et) Hw) as (a & -> & Ea). cbn [bind].
  destruct (m_mul_elems wide a x2 1 m 1 (elems_fits _ _ _ _ Ea) H2) as (b & -> & Eb). f_equal. rewrite (scalar_elems b _ Eb). f_equal.
  rewrite Rsum_swap. apply Rsum_ext. intros j Hj. rewrite (rget_elems _ _ _ _ 0%nat j Ea) by lia. rewrite <- Rsum_mult_r. apply Rsum_ext. intros i Hi.
  rewrite (rget_elems _ _ _ _ 0%nat i Et) by lia. ring.
Qed.
Lemma inner_product wide u x n : fits u n 1 -> fits x n 1 ->
  (do ut <- fwd transpose_fn [u]; fwd (mul_fn wide) [ut; x]) = Some (scalar (Rsum n (fun i => rget u i 0 * rget x i 0))).
Proof.
  intros Hu Hx. cbn [fwd transpose_fn un bind mul_fn bin]. pose proof (m_t_elems u n 1 Hu) as Et.
  destruct (m_mul_elems wide (m_t u) x 1 n 1 (elems_fits _ _ _ _ Et) Hx) as (a & -> & Ea). f_equal. rewrite (scalar_elems a _ Ea). f_equal.
  apply Rsum_ext. intros i Hi. rewrite (rget_elems _ _ _ _ 0%nat i Et) by lia. ring.
Qed.
Lemma bi_affine_value wide w u v b x1 x2 n m : fits w n m -> fits u n 1 -> fits v m 1 -> fits b 1 1 -> fits x1 n 1 -> fits x2 m 1 ->
  bi_affine wide w u v b x1 x2 = Some (scalar (Rsum n (fun i => Rsum m (fun j => rget x1 i 0 * rget w i j * rget x2 j 0)) +
    Rsum n (fun i => rget u i 0 * rget x1 i 0) + Rsum m (fun j => rget v j 0 * rget x2 j 0) + rget b 0 0)).
Proof.
  intros Hw Hu Hv Hb H1 H2. unfold bi_affine. rewrite (bi_linear_value wide w x1 x2 n m) by auto. cbn [bind].
  pose proof (inner_product wide u x1 n Hu H1) as E1. cbn [fwd transpose_fn un bind] in E1 |- *. rewrite E1. cbn [bind]. steps.
  pose proof (inner_product wide v x2 m Hv H2) as E2. cbn [fwd transpose_fn un bind] in E2 |- *. rewrite E2. cbn [bind]. steps.
  rewrite (fits_scalar b Hb) at 1. steps. reflexivity.
Qed.
Lemma positive_elu_value x : wf x -> exists y, positive_elu x = Some y /\ entries y x (fun k => if Rle_dec (entry x k) 0 then exp (entry x k) else entry x k + 1).
Proof.
  intros W. eexists. split; [|now apply flat_entries]. unfold positive_elu. rewrite (flat_of x W) at 1. unfold elu_fn. rewrite v_unary1. cbn [bind]. steps. f_equal. apply flat_ext. intros k Hk.
  unfold elu, Rleb. destruct (Rle_dec (entry x k) 0); lra.
Qed.

(** ModuleList *)
Lemma module_list_app ms1 ms2 xs : module_list_forward (ms1 ++ ms2) xs = (do ys <- module_list_forward ms1 xs; module_list_forward ms2 ys).
Proof.
  revert xs. induction ms1 as [|m ms IH]; intros xs; [reflexivity|]. unfold module_list_forward in *. cbn. destruct (m xs); cbn; auto.
Qed.

(** Dropout *)
Lemma Int_part_unit v : 0 <= v < 1 -> IZR (Int_part v) = 0.
Proof.
  intros H. destruct (base_Int_part v) as [A B]. assert (Int_part v < 1)%Z by (apply lt_IZR; simpl; lra). assert (-1 < Int_part v)%Z by (apply lt_IZR; simpl; lra).
  replace (Int_part v) with 0%Z by lia. reflexivity.
Qed.
Lemma bernoulli_flat r c p u : (forall k, 0 <= u k < 1) -> bernoulli r c p u = flat r c (fun k => if Rlt_dec (u k) p then 0 else 1).
Proof.
  intros H. unfold bernoulli, flat. f_equal. apply map_ext. intros k. cbv zeta. replace (u k * (1 - 0) + 0) with (u k) by ring. rewrite Int_part_unit by auto.
  destruct (Rlt_dec (u k) p); lra.
Qed.
Lemma ag_dropout_value p u x : wf x -> (forall k, 0 <= u k < 1) -> 0 <= p <= 1 ->
  exists y, ag_dropout p u x = Some y /\ entries y x (fun k => if Rlt_dec (u k) p then 0 else entry x k / (1 - p)).
Proof.
  intros W H Hp. unfold ag_dropout. destruct (Req_EM_T p 0) as [->|Hp0].
  - exists x. split; [reflexivity|]. split; [auto|]. split; [split; auto|]. intros k Hk. destruct (Rlt_dec (u k) 0); [specialize (H k); lra|]. field.
  - rewrite bernoulli_flat by auto. destruct (dropout_value p (flat (rows x) (cols x) (fun k => if Rlt_dec (u k) p then 0 else 1)) x (rows x) (cols x)) as (y & Hy & Ey & _).
    + now apply fits_wf.
    + apply flat_fits.
    + intros v Hv. cbn in Hv. apply in_map_iff in Hv as (k & <- & _). destruct (Rlt_dec (u k) p); auto.
    + exists y. split; [exact Hy|].
      rewrite (elems_flat y _ _ _ (fun k => if Rlt_dec (u k) p then 0 else entry x k / (1 - p)) Ey); [now apply flat_entries|].
      intros i j Hi Hj. rewrite flat_rget' by auto. rewrite (rget_flat x (rows x) (cols x)) by (auto using fits_wf). unfold entry.
      destruct (Rlt_dec (u (i * cols x + j)%nat) p) as [Hu|Hu], (Rlt_dec 0 (1 - p)) as [Hq|Hq].
      * unfold Rdiv. ring.
      * ring.
      * field. lra.
      * exfalso. specialize (H (i * cols x + j)%nat). lra.
Qed.
