(** * Proofs about the feed-forward layers *)
From Coq Require Import Reals List Arith Bool ZArith Lia Lra.
From Verif Require Import DenseModel DenseSpec DenseLemmas ArithModel GradModel GradSpec GradLemmas GradProofs2 GradProofs6 GradProofs8 GradProofs9 GradProofs13
  OpsModel OpsSpec OpsLemmas OpsProofs3 OpsProofs4 AttModel AttSpec AttProofs ConvModel ConvSpec ConvProofs ConvProofs2 RnnSpec RnnProofs ActModel ActSpec ActProofs PoolModel LayerModel LayerSpec.
Import ListNotations.
Open Scope nat_scope.

Lemma Forall_vec_map {A} n (g : A -> mat) l : (forall a, is_vec n (g a)) -> List.Forall (is_vec n) (map g l).
Proof. intros H. apply Forall_forall. intros x Hx. apply in_map_iff in Hx. destruct Hx as (a & <- & _). apply H. Qed.
Lemma Forall_in {A} (P : A -> Prop) l x : List.Forall P l -> In x l -> P x.
Proof. intros H. now apply Forall_forall. Qed.
Lemma kth_map {A} (g : A -> mat) l i d : i < length l -> kth (map g l) i = g (nth i l d).
Proof. intros H. unfold kth. rewrite (nth_indep _ _ (g d)) by now rewrite map_length. apply map_nth. Qed.
Lemma kth_error xs i : i < length xs -> nth_error xs i = Some (kth xs i).
Proof. intros. now apply nth_error_nth'. Qed.
Lemma kth_in xs i : i < length xs -> In (kth xs i) xs.
Proof. intros. now apply nth_In. Qed.
Lemma kth_seq (g : nat -> mat) n i : i < n -> kth (map g (seq 0 n)) i = g i.
Proof. intros. rewrite (kth_map _ _ _ 0) by now rewrite seq_length. now rewrite seq_nth. Qed.
Lemma map_kth xs : xs = map (kth xs) (seq 0 (length xs)).
Proof.
  apply (List.nth_ext _ _ (mkDense 0 0 []) (mkDense 0 0 [])); [now rewrite map_length, seq_length|]. intros k Hk.
  change (kth xs k = kth (map (kth xs) (seq 0 (length xs))) k). now rewrite kth_seq.
Qed.

Section Layers.
Variable wide : bool.

Lemma norm_value n e m x : norm_fits m n e -> is_vec n x -> layer_norm (ln_w m) (ln_b m) (ln_eps m) x = Some (normed n e m x).
Proof.
  intros (Fw & Fb & ->) Fx. destruct Fw as (W1 & R1 & C1), Fb as (W2 & R2 & C2). pose proof Fx as (W & R' & C).
  destruct (layer_norm_value x W (ln_w m) (ln_b m) (scalar e) W1) as (y & E & Ey); unfold same_shape; try rewrite R1; try rewrite R2; try rewrite C1; try rewrite C2; auto; [now repeat split|].
  rewrite E. f_equal. destruct Ey as (Wy & (Ry & Cy) & H). rewrite (is_vec_self n y) by (repeat split; congruence). apply vec_ext. intros k Hk.
  rewrite H by now rewrite (is_vec_size n x). reflexivity.
Qed.
Lemma norms_value n e m xs : norm_fits m n e -> List.Forall (is_vec n) xs -> lnorm_forward m xs = Some (map (normed n e m) xs).
Proof. intros Hm Hx. apply each_map. intros x Hi. apply norm_value; auto. now apply (Forall_in _ xs). Qed.
Lemma plain_value n a f xs : plain a f -> List.Forall (is_vec n) xs -> activation_forward wide a [] xs = Some (map (acted n f) xs).
Proof.
  intros (k & Hk & <- & Ha & ->) Hx. change (@nil mat) with (map scalar (@nil R)). rewrite entrywise_value; auto; [|rewrite Ha; auto|].
  - f_equal. apply map_ext_in. intros x Hi. destruct (Forall_in _ _ _ Hx Hi) as (W & R' & C). rewrite R', C. unfold acted. now rewrite vec_flat.
  - eapply Forall_impl; [|exact Hx]. now intros x (W & _).
Qed.
Lemma slice_value n o t x : is_vec t x -> o < t -> o + n <= t -> fwd (slice_fn (Z.of_nat o) 0 (Z.of_nat (o + n)) 1) [x] = Some (part n o x).
Proof.
  intros Fx Ho Hn. pose proof Fx as (W & R' & C). destruct (slice_gives x (Z.of_nat o) 0 (Z.of_nat (o + n)) 1 W) as (y & E & Hy); try lia.
  rewrite E. f_equal. replace (Z.to_nat (Z.of_nat (o + n) - Z.of_nat o)) with n in Hy by lia. rewrite (elems_vec _ _ _ Hy). apply vec_ext. intros k Hk.
  rewrite Nat2Z.id. change (Z.to_nat 0 + 0) with 0. now rewrite (rget_vec t) by (auto; lia).
Qed.
Lemma transpose_row n f v : elems v 1 n (fun _ j => f j) -> fwd transpose_fn [v] = Some (vec n f).
Proof.
  intros Hv. destruct (transpose_gives v 1 n (elems_fits _ _ _ _ Hv)) as (t & Et & Ht). rewrite Et. f_equal. rewrite (elems_vec _ _ _ Ht). apply vec_ext.
  intros j Hj. now rewrite (rget_elems _ _ _ _ 0 j Hv) by lia.
Qed.

Lemma row_get n (f : nat -> R) i j : i < 1 -> j < n -> rget (mkDense 1 n (map f (seq 0 n))) i j = f j.
Proof.
  intros Hi Hj. rewrite (rget_flat _ 1 n) by (auto; repeat split; unfold wf; cbn; rewrite map_length, seq_length; lia). cbn [data].
  replace (i * n + j) with j by (replace i with 0 by lia; lia). now rewrite nth_map_seq.
Qed.

(** flatten *)
Lemma flatten_one x : wf x -> (do f <- fwd flatten_fn [x]; fwd transpose_fn [f]) = Some (column (data x)).
Proof.
  intros W. rewrite flatten_gives by auto. cbn [bind]. rewrite (transpose_row (rows x * cols x) (fun k => entry x k)).
  - f_equal. unfold vec, column. rewrite map_length, seq_length, W. f_equal. rewrite <- W.
    apply (List.nth_ext _ _ 0%R 0%R); [now rewrite map_length, seq_length|]. intros k Hk. rewrite map_length, seq_length in Hk. now rewrite nth_map_seq.
  - repeat split; cbn [rows cols data]; try lia; [unfold wf; cbn; rewrite W; lia|]. intros i j Hi Hj. rewrite (rget_flat _ 1 (rows x * cols x)) by (auto; repeat split; unfold wf; cbn; rewrite W; lia). now replace i with 0 by lia.
Qed.
Lemma flatten_value xs : xs <> [] -> List.Forall (fun x => wf x) xs -> flatten_forward xs = Some [column (concat (map data xs))].
Proof.
  intros Hne Hx. unfold flatten_forward. rewrite (each_map _ (fun x => column (data x))).
  2:{ intros x Hi. apply flatten_one. now apply (Forall_in _ xs). }
  cbn [bind]. destruct (concat_gives (map (fun x : mat => column (data x)) xs)) as (y & E & W & C & D).
  - destruct xs; [congruence|discriminate].
  - apply forallb_forall. intros v Hv. apply in_map_iff in Hv. destruct Hv as (x & <- & _). unfold is_vector. cbn. apply orb_true_r.
  - rewrite E. cbn [bind]. do 2 f_equal. rewrite map_map in D. cbn [data column] in D. destruct y as [r c l]. cbn in *. subst c. unfold wf in W. cbn in W. subst l. change (map (fun x : mat => data x) xs) with (map (@data R) xs) in *. unfold column. rewrite W. f_equal. lia.
Qed.

(** sqrdist *)
Lemma sqrdist_value n d b xs : fits b n d -> List.Forall (is_vec d) xs ->
  sqrdist_forward wide b xs = Some (map (fun x => scalar (Rsum n (fun i => Rsum d (fun j => rget b i j * entry x j) ^ 2))%R) xs).
Proof.
  intros Fb Hx. apply each_map. intros x Hi. pose proof (Forall_in _ _ _ Hx Hi) as Fx. cbv beta in *.
  destruct (mul_gives wide b x n d 1 Fb Fx) as (m & Em & Hm). rewrite Em. cbn [bind].
  destruct (transpose_gives m n 1 (elems_fits _ _ _ _ Hm)) as (t & Et & Ht). rewrite Et. cbn [bind].
  destruct (mul_gives wide t m 1 n 1 (elems_fits _ _ _ _ Ht) (elems_fits _ _ _ _ Hm)) as (y & Ey & Hy). rewrite Ey. f_equal.
  rewrite (fits_scalar y (elems_fits _ _ _ _ Hy)). f_equal. rewrite (rget_elems _ _ _ _ 0 0 Hy) by lia. apply Rsum_ext. intros i Hi'.
  rewrite (rget_elems _ _ _ _ 0 i Ht), (rget_elems _ _ _ _ i 0 Hm) by lia. cbn [pow]. rewrite Rmult_1_r.
  f_equal; apply Rsum_ext; intros j Hj; now rewrite (rget_vec d) by auto.
Qed.

(** highway *)
Lemma prod_self n g x : is_vec n x -> fwd prod_fn [vec n g; x] = Some (vec n (fun k => g k * entry x k)%R).
Proof. intros Fx. rewrite (is_vec_self n x Fx) at 1. apply c_prod. Qed.
Lemma add_self n g x : is_vec n x -> fwd add_fn [vec n g; x] = Some (vec n (fun k => g k + entry x k)%R).
Proof. intros Fx. rewrite (is_vec_self n x Fx) at 1. apply c_add. Qed.
Lemma highway_value n f m x : linear_fits (hw_in m) n n -> linear_fits (hw_t m) n n -> plain (hw_act m) f -> is_vec n x ->
  highway_one wide m x = Some (highway_output n f m x).
Proof.
  intros F1 F2 Ha Fx. unfold highway_one. rewrite (layer_value wide n n) by auto. cbn [bind]. unfold layer at 1. rewrite c_sigmoid. cbn [bind].
  rewrite (layer_value wide n n) by auto. cbn [bind]. rewrite (plain_value n (hw_act m) f); [|exact Ha|repeat constructor; apply vec_fits]. cbn [bind map nth_error].
  unfold acted. rewrite c_prod. cbn [bind]. rewrite c_rsub. cbn [bind]. rewrite (prod_self n _ x Fx). cbn [bind]. rewrite c_add. f_equal.
  apply vec_ext. intros k Hk. unfold through. unfold layer. rewrite !entry_vec by auto. reflexivity.
Qed.
Lemma highway_missing k m x : In k entrywise -> 0 < arity k -> number k = hw_act m -> highway_one wide m x = None.
Proof.
  intros Hk Ha Hn. unfold highway_one. destruct (fwd (affine_fn wide) _) as [a|]; [cbn [bind]|reflexivity].
  destruct (fwd sigmoid_fn [a]) as [t|]; [cbn [bind]|reflexivity]. destruct (fwd (affine_fn wide) _) as [p|]; [cbn [bind]|reflexivity].
  rewrite <- Hn. rewrite (entrywise_missing wide k [] [p]) by (auto; discriminate). reflexivity.
Qed.

(** sgu *)
Lemma sgu_value n l e f m xs : 0 < n -> xs <> [] -> length xs = l -> sgu_fits m n l e f -> List.Forall (is_vec (2 * n)) xs ->
  sgu_forward wide m xs = Some (map (sgu_output n e f m xs) (seq 0 l)).
Proof.
  intros Hn Hne Hl (Fn & Fw & Fb & Fs & Fa) Hx. unfold sgu_forward. destruct xs as [|x0 xt] eqn:Exs; [congruence|]. rewrite <- Exs in *. clear Hne.
  assert (F0 : is_vec (2 * n) x0) by (apply (Forall_in _ xs); auto; rewrite Exs; now left).
  destruct F0 as (_ & R0 & C0). rewrite R0, C0. replace (2 * n * 1) with (n + n) by lia. replace ((n + n) / 2) with n by (replace (n + n) with (n * 2) by lia; now rewrite Nat.div_mul).
  cbv zeta. rewrite (each_map _ (part n 0)). 2:{ intros x Hi. apply (slice_value n 0 (2 * n)); [now apply (Forall_in _ xs)|lia|lia]. }
  cbn [bind]. rewrite (each_map _ (part n n)). 2:{ intros x Hi. apply (slice_value n n (2 * n)); [now apply (Forall_in _ xs)|lia|lia]. }
  cbn [bind]. rewrite (norms_value n e) by (auto; apply Forall_vec_map; intros; apply vec_fits). cbn [bind]. rewrite map_map.
  rewrite Fs. rewrite (conv1x1_value wide _ _ l n); [|rewrite map_length; now rewrite Hl|auto|destruct xs; [discriminate|discriminate]|apply Forall_vec_map; intros; apply vec_fits].
  cbn [bind]. rewrite map_length.
  set (g := fun o => vec n _). 
  assert (E : (if (sgu_act m =? Identity)%Z then Some (map g (seq 0 l)) else activation_forward wide (sgu_act m) [] (map g (seq 0 l))) = Some (map (fun o => acted n f (g o)) (seq 0 l))).
  { destruct (Z.eqb_spec (sgu_act m) Identity) as [Ei|_].
    - destruct Fa as (k & Hk & En & _ & ->). f_equal. apply map_ext. intros o. unfold acted. rewrite (is_vec_self n (g o)) at 1 by apply vec_fits. apply vec_ext. intros j _.
      rewrite Ei in En. unfold Identity in En. unfold entrywise in Hk. cbn [In] in Hk. repeat (destruct Hk as [<-|Hk]); cbn in En; try discriminate; [reflexivity|destruct Hk].
    - rewrite (plain_value n _ f) by (auto; apply Forall_vec_map; intros; apply vec_fits). now rewrite map_map. }
  rewrite E. cbn [bind]. rewrite map_length, seq_length. apply each_map. intros i Hi. apply in_seq in Hi.
  rewrite (kth_error (map (fun o => acted n f (g o)) (seq 0 l))) by (rewrite map_length, seq_length; lia). rewrite kth_seq by lia. cbn [bind].
  rewrite (kth_error (map (part n 0) xs)) by (rewrite map_length; lia). cbn [bind]. rewrite (kth_map _ _ _ (mkDense 0 0 [])) by lia. fold (kth xs i).
  unfold acted, part. rewrite c_prod. f_equal. apply vec_ext. intros k Hk. unfold g. rewrite entry_vec by auto. cbn [Nat.add]. do 3 f_equal. apply Rsum_ext. intros j Hj.
  rewrite (kth_map _ _ _ (mkDense 0 0 [])) by auto. reflexivity.
Qed.

(** gmlp *)
Lemma block_value d n l e1 e2 f m xs : 0 < n -> xs <> [] -> length xs = l -> gblock_fits m d n l e1 e2 f -> List.Forall (is_vec d) xs ->
  residual_forward wide m xs = Some (gblock_output d n e1 e2 f m xs).
Proof.
  intros Hn Hne Hl (F1 & F2 & F3 & F4) Hx. unfold residual_forward, prenorm_forward. rewrite (norms_value d e1) by auto. cbn [bind].
  unfold block_forward, module_list_forward. cbn [fold_opt]. rewrite (layers_value wide (2 * n) d) by (auto; apply Forall_vec_map; intros; apply vec_fits). cbn [bind].
  rewrite map_map. rewrite (plain_value (2 * n) GELU gelu_of).
  2:{ exists (nth 9 entrywise (mkAct 0 Coq.Strings.String.EmptyString 0 (fun _ v => v))). split; [apply nth_In; cbn; lia|]. repeat split. }
  2:{ apply Forall_vec_map; intros; apply vec_fits. }
  cbn [bind]. rewrite map_map. set (us := map _ xs).
  rewrite (sgu_value n l e2 f); [|auto|unfold us; destruct xs; [congruence|discriminate]|unfold us; now rewrite map_length|auto|apply Forall_vec_map; intros; apply vec_fits].
  cbn [bind]. rewrite (layers_value wide d n) by (auto; apply Forall_vec_map; intros; apply vec_fits). cbn [bind]. rewrite map_map, map_length, seq_length.
  unfold gblock_output. fold us. rewrite Hl. apply each_map. intros i Hi. apply in_seq in Hi.
  rewrite kth_error by (rewrite map_length, seq_length; lia). rewrite kth_seq by lia. cbn [bind]. rewrite kth_error by lia. cbn [bind].
  unfold layer at 1. rewrite (add_self d) by (apply (Forall_in _ xs); auto; apply kth_in; lia). f_equal.
  unfold plus. apply vec_ext. intros k Hk. unfold layer. rewrite entry_vec by auto. reflexivity.
Qed.
Lemma blocks_value d n l e1 e2 f ms : 0 < n -> 0 < l -> List.Forall (fun m => gblock_fits m d n l e1 e2 f) ms -> forall xs, length xs = l -> List.Forall (is_vec d) xs ->
  module_list_forward (map (residual_forward wide) ms) xs = Some (fold_left (fun ys m => gblock_output d n e1 e2 f m ys) ms xs).
Proof.
  intros Hn Hp Hm. unfold module_list_forward. induction Hm as [|m ms Fm Hm IH]; intros xs Hl Hx; [reflexivity|]. cbn [map fold_opt fold_left].
  rewrite (block_value d n l e1 e2 f) by (auto; (destruct xs; [cbn in Hl; lia|discriminate])). cbn [bind]. apply IH.
  - unfold gblock_output. now rewrite map_length, seq_length.
  - apply Forall_vec_map. intros; apply vec_fits.
Qed.
Lemma zeros_vec d : mkDense d 1 (repeat 0%R d) = vec d (fun _ => 0%R).
Proof. unfold vec, column. rewrite map_length, seq_length. f_equal. generalize 0. induction d as [|d IH]; intros a; [reflexivity|]. cbn. now rewrite <- IH. Qed.
Lemma pad_filled d l xs : length xs <= l -> ag_pad xs (Z.of_nat l) (fun _ => mkDense d 1 (repeat 0%R d)) = Some (filled d l xs).
Proof.
  intros Hl. unfold ag_pad, filled. rewrite zeros_vec. destruct (Z.eqb_spec (Z.of_nat (length xs)) (Z.of_nat l)) as [E|E].
  - replace (l - length xs) with 0 by lia. now rewrite app_nil_r.
  - destruct (Z.ltb_spec (Z.of_nat l) (Z.of_nat (length xs))); [lia|]. do 2 f_equal. rewrite Nat2Z.id. generalize (l - length xs) at 1 2; intros k; generalize (length xs); induction k as [|k IH]; intros a; [reflexivity|]; cbn; now rewrite IH.
Qed.
Lemma filled_length d l xs : length xs <= l -> length (filled d l xs) = l.
Proof. intros H. unfold filled. rewrite app_length, repeat_length. lia. Qed.
Lemma gmlp_value m d n l e1 e2 f xs : 0 < n -> gm_dim m = d -> gm_seq m = l -> List.Forall (fun b => gblock_fits b d n l e1 e2 f) (gm_layers m) ->
  xs <> [] -> length xs <= l -> List.Forall (is_vec d) xs ->
  gmlp_forward wide m xs = Some (fold_left (fun ys b => gblock_output d n e1 e2 f b ys) (gm_layers m) (filled d l xs)).
Proof.
  intros Hn Hd Hs Hm Hne Hl Hx. unfold gmlp_forward. rewrite Hs. destruct (Nat.ltb_spec l (length xs)) as [H|_]; [lia|]. destruct xs as [|x0 xt] eqn:E; [congruence|].
  rewrite <- E in *. rewrite Hd, pad_filled by auto. cbn [bind]. apply (blocks_value d n l e1 e2 f); auto.
  - assert (0 < length xs) by (rewrite E; cbn; lia). lia.
  - now apply filled_length.
  - apply Forall_app. split; auto. apply Forall_forall. intros x Hi. apply repeat_spec in Hi. subst x. apply vec_fits.
Qed.

(** mixer *)
Lemma ff_value n h f m xs : ff_fits m n h f -> List.Forall (is_vec n) xs -> ff_forward wide m xs = Some (map (ff_output n h f m) xs).
Proof.
  intros (F1 & F2 & Fa) Hx. unfold ff_forward, module_list_forward. cbn [fold_opt]. rewrite (layers_value wide h n) by auto. cbn [bind].
  rewrite (plain_value h _ f) by (auto; apply Forall_vec_map; intros; apply vec_fits). cbn [bind]. rewrite map_map.
  rewrite (layers_value wide n h) by (auto; apply Forall_vec_map; intros; apply vec_fits). cbn [bind]. now rewrite map_map.
Qed.
Lemma residual_value d ys xs : length ys = length xs -> List.Forall (is_vec d) ys -> List.Forall (is_vec d) xs ->
  mixer_residual ys xs = Some (map (fun i => plus d (kth ys i) (kth xs i)) (seq 0 (length xs))).
Proof.
  intros Hl Hy Hx. unfold mixer_residual, ag_map2. rewrite Hl, Nat.eqb_refl. cbn [negb bind].
  replace (combine ys xs) with (map (fun i => (kth ys i, kth xs i)) (seq 0 (length xs))).
  2:{ apply (List.nth_ext _ _ (mkDense 0 0 [], mkDense 0 0 []) (mkDense 0 0 [], mkDense 0 0 [])); [rewrite map_length, seq_length, combine_length; lia|]. rewrite map_length, seq_length.
      intros i Hi. rewrite nth_mapseq by auto. now rewrite combine_nth. }
  rewrite map_map. cbn [fst snd]. rewrite (map_ext_in _ (fun i => Some (plus d (kth ys i) (kth xs i)))); [apply each_some_map|].
  intros i Hi. apply in_seq in Hi. rewrite (is_vec_self d (kth ys i)) at 1 by (apply (Forall_in _ ys); auto; apply kth_in; lia).
  now rewrite (add_self d) by (apply (Forall_in _ xs); auto; apply kth_in; lia).
Qed.
Lemma columns_value d xs : xs <> [] -> List.Forall (is_vec d) xs -> (do s <- fwd stack_fn xs; col_views s) = Some (map (across xs) (seq 0 d)).
Proof.
  intros Hne Hx. rewrite (stack_value d) by auto. cbn [bind]. unfold col_views. cbn [cols rows_of]. apply each_map. intros j Hj. apply in_seq in Hj.
  pose proof (rows_fits d xs Hx) as (W & R' & C). destruct (col_view_gives (rows_of d xs) (Z.of_nat j) W) as (y & E & Hy); [lia|]. rewrite E. f_equal.
  rewrite R' in Hy. rewrite (elems_vec _ _ _ Hy). apply vec_ext. intros i Hi. rewrite Nat2Z.id. apply rows_rget; auto; lia.
Qed.
Lemma uncolumns_value n ys : ys <> [] -> List.Forall (is_vec n) ys ->
  (do s <- fwd stack_fn ys; do t <- fwd transpose_fn [s]; do rs <- row_views t; each (fun r => fwd transpose_fn [r]) rs) = Some (map (across ys) (seq 0 n)).
Proof.
  intros Hne Hy. rewrite (stack_value n) by auto. cbn [bind]. destruct (transpose_gives (rows_of n ys) _ _ (rows_fits n ys Hy)) as (t & Et & Ht). rewrite Et. cbn [bind].
  pose proof Ht as (W & R' & C & V). unfold row_views. rewrite R'.
  rewrite (each_map _ (fun i => mkDense 1 (length ys) (map (fun j => entry (kth ys j) i) (seq 0 (length ys))))).
  2:{ intros i Hi. apply in_seq in Hi. destruct (row_view_gives t (Z.of_nat i) W) as (y & E & (A & B & C' & D)); [lia|]. rewrite E. f_equal. rewrite Nat2Z.id in D.
      apply (mat_ext _ _ 1 (length ys) (fun _ j => entry (kth ys j) i) (fun _ j => entry (kth ys j) i)); auto; repeat split; auto; try congruence.
      - intros a b Ha Hb. rewrite D by lia. rewrite V by lia. now rewrite rows_rget by (auto; lia).
      - unfold wf; cbn; rewrite map_length, seq_length; lia.
      - intros a b Ha Hb. now rewrite row_get by auto. }
  cbn [bind]. rewrite (each_map _ (fun r => vec (length ys) (fun j => rget r 0 j))).
  2:{ intros r Hr. apply in_map_iff in Hr. destruct Hr as (i & <- & _). apply transpose_row. repeat split; cbn [rows cols data]; try lia; [unfold wf; cbn; rewrite map_length, seq_length; lia|].
      intros a b Ha Hb. now replace a with 0 by lia. }
  rewrite map_map. f_equal. apply map_ext. intros i. apply vec_ext. intros j Hj. now rewrite row_get by lia.
Qed.
Lemma token_value d h1 e1 f1 m xs : 0 < d -> xs <> [] -> norm_fits (mx_tnorm m) d e1 -> ff_fits (mx_tff m) (length xs) h1 f1 -> List.Forall (is_vec d) xs ->
  (do t <- token_mix wide m xs; mixer_residual t xs) = Some (map (token_mixed d h1 e1 f1 m xs) (seq 0 (length xs))).
Proof.
  intros Hd Hne F1 F2 Hx. unfold token_mix. rewrite (norms_value d e1) by auto. cbn [bind].
  set (ns := map (normed d e1 (mx_tnorm m)) xs).
  assert (Hns : List.Forall (is_vec d) ns) by (apply Forall_vec_map; intros; apply vec_fits).
  assert (Hnn : ns <> []) by (unfold ns; destruct xs; [congruence|discriminate]).
  pose proof (columns_value d ns Hnn Hns) as Ec. destruct (fwd stack_fn ns) as [s|]; [|discriminate]. cbn [bind] in *. rewrite Ec. cbn [bind].
  assert (Ln : length ns = length xs) by (unfold ns; now rewrite map_length).
  rewrite (ff_value (length xs) h1 f1); [|auto|apply Forall_vec_map; intros; rewrite <- Ln; apply vec_fits]. cbn [bind]. rewrite map_map.
  set (ys := map _ (seq 0 d)).
  pose proof (uncolumns_value (length xs) ys) as Eu. assert (Hyn : ys <> []) by (unfold ys; destruct d; [lia|discriminate]).
  assert (Hy : List.Forall (is_vec (length xs)) ys) by (apply Forall_vec_map; intros; apply vec_fits). specialize (Eu Hyn Hy).
  destruct (fwd stack_fn ys) as [s'|]; [|discriminate]. cbn [bind] in *. destruct (fwd transpose_fn [s']) as [t|]; [|discriminate]. cbn [bind] in *.
  destruct (row_views t) as [rs|]; [|discriminate]. cbn [bind] in *. rewrite Eu. cbn [bind].
  assert (Ly : length ys = d) by (unfold ys; now rewrite map_length, seq_length).
  rewrite (residual_value d); [|now rewrite map_length, seq_length|apply Forall_vec_map; intros; rewrite <- Ly; apply vec_fits|auto]. f_equal. apply map_ext_in. intros i Hi. apply in_seq in Hi.
  rewrite kth_seq by lia. unfold token_mixed, plus. apply vec_ext. intros k Hk. f_equal. unfold across at 1. rewrite Ly, entry_vec by auto. unfold ys. rewrite kth_seq by auto. reflexivity.
Qed.
Lemma mixer_value d l h1 h2 e1 e2 f1 f2 m xs : 0 < d -> 0 < l -> mixer_fits m d l h1 h2 e1 e2 f1 f2 -> length xs = l -> List.Forall (is_vec d) xs ->
  mixer_forward wide m xs = Some (map (mixer_output d h1 h2 e1 e2 f1 f2 m xs) (seq 0 l)).
Proof.
  intros Hd Hl (Fc & F1 & F2 & F3 & F4) Hx Hv. assert (Hne : xs <> []) by (destruct xs; [cbn in Hx; lia|discriminate]).
  unfold mixer_forward. rewrite Fc, Hx, Nat.ltb_irrefl. rewrite <- Hx in F2. pose proof (token_value d h1 e1 f1 m xs Hd Hne F1 F2 Hv) as E.
  destruct (token_mix wide m xs) as [t|]; [|discriminate]. cbn [bind] in *. rewrite E. cbn [bind]. unfold channel_mix.
  rewrite (norms_value d e2) by (auto; apply Forall_vec_map; intros; apply vec_fits). cbn [bind].
  rewrite (ff_value d h2 f2) by (auto; rewrite map_map; apply Forall_vec_map; intros; apply vec_fits). cbn [bind]. rewrite !map_map.
  rewrite (residual_value d); [|now rewrite !map_length|apply Forall_vec_map; intros; apply vec_fits|apply Forall_vec_map; intros; apply vec_fits].
  rewrite map_length, seq_length, Hx. f_equal. apply map_ext_in. intros i Hi. apply in_seq in Hi. rewrite !kth_seq by lia. reflexivity.
Qed.

(** calls that panic *)
Lemma linear_mismatch m x : cols (lin_w m) <> rows x -> fwd (affine_fn wide) [lin_b m; lin_w m; x] = None.
Proof. intros H. unfold affine_fn. cbn [fwd]. unfold m_mul, mat_mul. now rewrite (proj2 (Nat.eqb_neq _ _) H). Qed.
Lemma mixer_short d l h1 h2 e1 e2 f1 f2 m xs : 0 < d -> 0 < length xs < l -> mixer_fits m d l h1 h2 e1 e2 f1 f2 -> List.Forall (is_vec d) xs ->
  mixer_forward wide m xs = None.
Proof.
  intros Hd Hl (Fc & F1 & ((Fw & _) & _) & _) Hv. assert (Hne : xs <> []) by (destruct xs; [cbn in Hl; lia|discriminate]).
  unfold mixer_forward, token_mix. rewrite Fc. destruct (Nat.ltb_spec l (length xs)) as [?|_]; [lia|]. rewrite (norms_value d e1) by auto. cbn [bind].
  set (ns := map (normed d e1 (mx_tnorm m)) xs).
  assert (Hns : List.Forall (is_vec d) ns) by (apply Forall_vec_map; intros; apply vec_fits).
  assert (Hnn : ns <> []) by (unfold ns; destruct xs; [congruence|discriminate]).
  pose proof (columns_value d ns Hnn Hns) as Ec. destruct (fwd stack_fn ns) as [s|]; [|discriminate]. cbn [bind] in *. rewrite Ec. cbn [bind].
  unfold ff_forward, module_list_forward. cbn [fold_opt]. unfold linear_forward at 1. rewrite (each_none _ _ (across ns 0)); [reflexivity|apply in_map, in_seq; lia|].
  apply linear_mismatch. destruct Fw as (_ & _ & ->). unfold across, vec, column. cbn [rows]. rewrite map_length, seq_length. unfold ns. rewrite map_length. lia.
Qed.
Lemma norm_mismatch n t e m x : is_vec n (ln_w m) -> ln_eps m = scalar e -> is_vec t x -> n <> t -> layer_norm (ln_w m) (ln_b m) (ln_eps m) x = None.
Proof.
  intros (W1 & R1 & C1) -> (W & R' & C) H. unfold layer_norm. rewrite (deviations_value x W). cbn [bind]. rewrite (mean_square_dev x W). cbn [bind]. rewrite s_add. cbn [bind].
  rewrite s_sqrt. cbn [bind]. rewrite v_divs. cbn [bind]. unfold prod_fn. cbn [fwd bin]. unfold m_prod, mat_prod.
  unfold same_dims. cbn [rows cols flat]. rewrite R', R1. rewrite (proj2 (Nat.eqb_neq t n)) by auto. reflexivity.
Qed.
Lemma sgu_odd h e m xs : norm_fits (sgu_norm m) h e -> List.Forall (is_vec (2 * h + 1)) xs -> sgu_forward wide m xs = None.
Proof.
  intros (Fw & _ & He) Hx. unfold sgu_forward. destruct xs as [|x0 xt]; [reflexivity|]. pose proof (Forall_inv Hx) as F0. destruct F0 as (W0 & R0 & C0) eqn:E0.
  rewrite R0, C0. replace ((2 * h + 1) * 1 / 2) with h by (replace ((2 * h + 1) * 1) with (1 + h * 2) by lia; rewrite Nat.div_add by lia; reflexivity).
  replace ((2 * h + 1) * 1) with (h + (h + 1)) by lia. cbv zeta.
  destruct (each _ (x0 :: xt)) as [res|]; [cbn [bind]|reflexivity].
  destruct (each (fun x => fwd (slice_fn (Z.of_nat h) 0 (Z.of_nat (h + (h + 1))) 1) [x]) (x0 :: xt)) as [gate|] eqn:Eg; [cbn [bind]|reflexivity].
  cbn [each] in Eg. rewrite (slice_value (h + 1) h (2 * h + 1)) in Eg by (auto; try lia; now repeat split). cbn [bind] in Eg. destruct (each _ xt) as [gt|]; [|discriminate].
  cbn [bind] in Eg. injection Eg as <-. unfold lnorm_forward. rewrite (each_none _ _ (part (h + 1) h x0)); [reflexivity|now left|].
  apply (norm_mismatch h (h + 1) e); auto; [apply vec_fits|lia].
Qed.
Lemma block_odd d h e1 e2 m xs : norm_fits (gb_norm m) d e1 -> linear_fits (gb_in m) (2 * h + 1) d -> norm_fits (sgu_norm (gb_sgu m)) h e2 -> List.Forall (is_vec d) xs ->
  residual_forward wide m xs = None.
Proof.
  intros F1 F2 F3 Hx. unfold residual_forward, prenorm_forward. rewrite (norms_value d e1) by auto. cbn [bind].
  unfold block_forward, module_list_forward. cbn [fold_opt]. rewrite (layers_value wide (2 * h + 1) d) by (auto; apply Forall_vec_map; intros; apply vec_fits). cbn [bind].
  rewrite map_map. rewrite (plain_value (2 * h + 1) GELU gelu_of).
  2:{ exists (nth 9 entrywise (mkAct 0 Coq.Strings.String.EmptyString 0 (fun _ v => v))). split; [apply nth_In; cbn; lia|]. repeat split. }
  2:{ apply Forall_vec_map; intros; apply vec_fits. }
  cbn [bind]. rewrite (sgu_odd h e2); [reflexivity|auto|]. rewrite map_map. apply Forall_vec_map; intros; apply vec_fits.
Qed.
Lemma gmlp_odd m b bs h e1 e2 xs : gm_layers m = b :: bs -> norm_fits (gb_norm b) (gm_dim m) e1 -> linear_fits (gb_in b) (2 * h + 1) (gm_dim m) ->
  norm_fits (sgu_norm (gb_sgu b)) h e2 -> xs <> [] -> List.Forall (is_vec (gm_dim m)) xs -> gmlp_forward wide m xs = None.
Proof.
  intros Hl F1 F2 F3 Hne Hx. unfold gmlp_forward. destruct (Nat.ltb_spec (gm_seq m) (length xs)) as [?|H]; [reflexivity|]. destruct xs as [|x0 xt] eqn:E; [congruence|]. rewrite <- E in *.
  rewrite pad_filled by auto. cbn [bind]. rewrite Hl. unfold module_list_forward. cbn [map fold_opt]. rewrite (block_odd (gm_dim m) h e1 e2); auto.
  apply Forall_app. split; auto. apply Forall_forall. intros x Hi. apply repeat_spec in Hi. subst x. apply vec_fits.
Qed.
End Layers.
