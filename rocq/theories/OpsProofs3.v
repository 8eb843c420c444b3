(** * The normalization layers *)
From Coq Require Import Reals List Arith Bool ZArith Lia Lra.
From Coquelicot Require Import Coquelicot.
From Verif Require Import DenseModel DenseSpec DenseLemmas ArithModel ArithSpec GradModel GradSpec GradLemmas GradProofs GradProofs4 GradProofs5 GradProofs6 GradProofs9 GradProofs10 OpsModel OpsSpec OpsLemmas OpsProofs OpsProofs2.
Import ListNotations.
Open Scope R_scope.

Lemma Rsum_minus n f g : Rsum n (fun k => f k - g k) = Rsum n f - Rsum n g.
Proof.
  rewrite (Rsum_ext n _ (fun k => f k + -1 * g k)) by (intros; ring). rewrite Rsum_plus, Rsum_mult_l. ring.
Qed.

Lemma deviations_flat r c f : deviations (flat r c f) = Some (flat r c (fun k => f k - Rsum (r * c) f / INR (r * c))).
Proof. unfold deviations. steps. reflexivity. Qed.
Lemma over_norm_flat r c f : over_norm (flat r c f) = Some (flat r c (fun k => f k / (sqrt (Rsum (r * c) (fun k => f k * f k)) + 1e-10))).
Proof. unfold over_norm. steps. reflexivity. Qed.
Lemma mean_square_flat r c f : mean_square (flat r c f) = Some (scalar (Rsum (r * c) (fun k => f k * f k) / INR (r * c))).
Proof. unfold mean_square. steps. reflexivity. Qed.
Lemma rms_norm_flat r c f w b : rms_norm (flat r c w) (flat r c b) (flat r c f) =
  Some (flat r c (fun k => f k / (sqrt (Rsum (r * c) (fun k => f k * f k) / INR (r * c)) + 1e-10) * w k + b k)).
Proof. unfold rms_norm. rewrite mean_square_flat. cbn [bind]. steps. reflexivity. Qed.

Section Layer.
Variable x : mat.
Hypotheses (W : wf x) (Hn : (0 < size x)%nat).
Let n := INR (size x).
Let Hn0 : 0 < n. Proof. apply lt_0_INR. exact Hn. Qed.

Lemma mean_flat : Rsum (rows x * cols x) (entry x) / INR (rows x * cols x) = mean x.
Proof. unfold mean, total. now rewrite (size_wf x W). Qed.
Lemma deviations_value : deviations x = Some (flat (rows x) (cols x) (fun k => entry x k - mean x)).
Proof. rewrite (flat_of x W) at 1. rewrite deviations_flat, mean_flat. reflexivity. Qed.
Lemma mean_square_dev : mean_square (flat (rows x) (cols x) (fun k => entry x k - mean x)) = Some (scalar (variance x)).
Proof.
  rewrite mean_square_flat. do 2 f_equal. unfold variance, total. rewrite (size_wf x W). apply (f_equal (fun s => s / INR (rows x * cols x))). apply Rsum_ext. intros; ring.
Qed.
Lemma variance_nonneg : 0 <= variance x.
Proof. unfold variance. apply Rle_mult_inv_pos; auto. apply Rsum_nonneg. intros. apply pow2_ge_0. Qed.
Lemma dev_sum : Rsum (size x) (fun k => entry x k - mean x) = 0.
Proof. rewrite Rsum_minus, Rsum_const. fold n. change (Rsum (size x) (entry x)) with (total (fun v => v) x). unfold mean. fold n. field. lra. Qed.
Lemma dev_scaled s : Rsum (size x) (fun k => (entry x k - mean x) / s) = 0.
Proof. unfold Rdiv. rewrite Rsum_mult_r, dev_sum. ring. Qed.
Lemma dev_square s : s <> 0 -> Rsum (size x) (fun k => ((entry x k - mean x) / s) ^ 2) / n = variance x / (s * s).
Proof.
  intros Hs. rewrite (Rsum_ext _ _ (fun k => (entry x k - mean x) ^ 2 * (/ (s * s)))) by (intros; field; auto). rewrite Rsum_mult_r.
  unfold variance, total. fold n. field. split; auto. lra.
Qed.

Lemma layer_norm_value w b eps : wf w -> same_shape w x -> wf b -> same_shape b x -> fits eps 1 1 ->
  exists y, layer_norm w b eps x = Some y /\ entries y x (fun k => (entry x k - mean x) / sqrt (variance x + rget eps 0 0) * entry w k + entry b k).
Proof.
  intros Ww Sw Wb Sb He. eexists. split; [|now apply flat_entries]. unfold layer_norm. rewrite deviations_value. cbn [bind]. rewrite mean_square_dev. cbn [bind]. steps. rewrite (fits_scalar eps He) at 1. steps.
  rewrite (flat_of' w x Ww Sw) at 1. steps. rewrite (flat_of' b x Wb Sb) at 1. steps. reflexivity.
Qed.
Lemma layer_norm_facts e : 0 < e ->
  let z k := (entry x k - mean x) / sqrt (variance x + e) in
  Rsum (size x) z = 0 /\ Rsum (size x) (fun k => z k ^ 2) / n = variance x / (variance x + e) /\ variance x / (variance x + e) < 1.
Proof.
  intros He z. pose proof variance_nonneg. assert (Hs : 0 < sqrt (variance x + e)) by (apply sqrt_lt_R0; lra). unfold z. repeat split.
  - apply dev_scaled.
  - rewrite dev_square by lra. rewrite sqrt_sqrt by lra. reflexivity.
  - apply (Rlt_div_l (variance x) 1 (variance x + e)); lra.
Qed.
Lemma layer_norm_simple_value :
  exists y, layer_norm_simple x = Some y /\ entries y x (fun k => (entry x k - mean x) / (sqrt (variance x) + 1e-10)).
Proof.
  eexists. split; [|now apply flat_entries]. unfold layer_norm_simple. rewrite deviations_value. cbn [bind]. rewrite mean_square_dev. cbn [bind]. steps. reflexivity.
Qed.
Lemma layer_norm_simple_facts : let z k := (entry x k - mean x) / (sqrt (variance x) + 1e-10) in
  Rsum (size x) z = 0 /\ Rsum (size x) (fun k => z k ^ 2) / n < 1.
Proof.
  intros z. pose proof variance_nonneg. pose proof (sqrt_pos (variance x)). unfold z. split; [apply dev_scaled|]. rewrite dev_square by lra.
  apply (Rlt_div_l (variance x) 1 ((sqrt (variance x) + 1e-10) * (sqrt (variance x) + 1e-10))); [nra|]. rewrite <- (sqrt_sqrt (variance x)) at 1 by auto. nra.
Qed.
Lemma ada_norm_value scale : fits scale 1 1 ->
  exists y, ada_norm scale x = Some y /\ entries y x (fun k => let z := (entry x k - mean x) / (sqrt (variance x) + 1e-10) in z * ((1 - z * 0.1) * rget scale 0 0)).
Proof.
  intros Hs. eexists. split; [|now apply (flat_entries x)]. unfold ada_norm. rewrite deviations_value. cbn [bind]. rewrite mean_square_dev. cbn [bind]. steps. rewrite (fits_scalar scale Hs) at 1. steps.
  reflexivity.
Qed.

Local Notation norm2 := (OpsSpec.norm2 x).
Lemma square_sum : Rsum (rows x * cols x) (fun k => entry x k * entry x k) = total (fun v => v ^ 2) x.
Proof. unfold total. rewrite (size_wf x W). apply Rsum_ext. intros; ring. Qed.
Lemma over_norm_value : over_norm x = Some (flat (rows x) (cols x) (fun k => entry x k / (norm2 + 1e-10))).
Proof. rewrite (flat_of x W) at 1. rewrite over_norm_flat, square_sum. reflexivity. Qed.
Lemma fix_norm_value : exists y, fix_norm x = Some y /\ entries y x (fun k => entry x k / (norm2 + 1e-10)).
Proof. unfold fix_norm. rewrite over_norm_value. eexists. split; [reflexivity|]. now apply flat_entries. Qed.
Lemma fix_norm_facts : sqrt (Rsum (size x) (fun k => (entry x k / (norm2 + 1e-10)) ^ 2)) = norm2 / (norm2 + 1e-10) /\ norm2 / (norm2 + 1e-10) < 1.
Proof.
  assert (H0 : 0 <= norm2) by apply sqrt_pos. split; [|apply (Rlt_div_l norm2 1 (norm2 + 1e-10)); lra].
  assert (Ht : 0 <= total (fun v => v ^ 2) x) by (apply Rsum_nonneg; intros; apply pow2_ge_0).
  rewrite (Rsum_ext _ _ (fun k => entry x k ^ 2 * (/ ((norm2 + 1e-10) * (norm2 + 1e-10))))) by (intros; field; lra). rewrite Rsum_mult_r.
  change (Rsum (size x) (fun k => entry x k ^ 2)) with (total (fun v => v ^ 2) x).
  assert (0 < / ((norm2 + 1e-10) * (norm2 + 1e-10))) by (apply Rinv_0_lt_compat; nra).
  assert (Hq : norm2 * norm2 = total (fun v => v ^ 2) x) by (apply sqrt_sqrt; auto).
  apply sqrt_lem_1; [apply Rmult_le_pos; lra|apply Rle_mult_inv_pos; lra|]. rewrite <- Hq. field. lra.
Qed.
Lemma scale_norm_value gain : wf gain -> same_shape gain x ->
  exists y, scale_norm gain x = Some y /\ entries y x (fun k => entry x k / (norm2 + 1e-10) * entry gain k).
Proof.
  intros Wg Sg. eexists. split; [|now apply flat_entries]. unfold scale_norm. rewrite over_norm_value. cbn [bind]. rewrite (flat_of' gain x Wg Sg) at 1. steps. reflexivity.
Qed.
Local Notation rms := (OpsSpec.rms x).
Lemma rms_norm_value w b : wf w -> same_shape w x -> wf b -> same_shape b x ->
  exists y, rms_norm w b x = Some y /\ entries y x (fun k => entry x k / (rms + 1e-10) * entry w k + entry b k).
Proof.
  intros Ww Sw Wb Sb. eexists. split; [|now apply flat_entries]. rewrite (flat_of' w x Ww Sw) at 1. rewrite (flat_of' b x Wb Sb) at 1. rewrite (flat_of x W) at 5. rewrite rms_norm_flat.
  rewrite square_sum, <- (size_wf x W). reflexivity.
Qed.
Lemma rms_norm_facts : Rsum (size x) (fun k => (entry x k / (rms + 1e-10)) ^ 2) / n < 1.
Proof.
  assert (H0 : 0 <= rms) by apply sqrt_pos.
  assert (Ht : 0 <= total (fun v => v ^ 2) x) by (apply Rsum_nonneg; intros; apply pow2_ge_0).
  assert (Hq : rms * rms = total (fun v => v ^ 2) x / n) by (apply sqrt_sqrt, Rle_mult_inv_pos; auto).
  rewrite (Rsum_ext _ _ (fun k => entry x k ^ 2 * (/ ((rms + 1e-10) * (rms + 1e-10))))) by (intros; field; lra). rewrite Rsum_mult_r.
  change (Rsum (size x) (fun k => entry x k ^ 2)) with (total (fun v => v ^ 2) x).
  replace (total (fun v => v ^ 2) x * / ((rms + 1e-10) * (rms + 1e-10)) / n) with ((rms * rms) / ((rms + 1e-10) * (rms + 1e-10))) by (rewrite Hq; field; lra).
  apply (Rlt_div_l (rms * rms) 1 ((rms + 1e-10) * (rms + 1e-10))); nra.
Qed.
End Layer.

(** Adding a constant to every entry changes neither the deviations nor the variance. *)
Lemma shift_mean x x' s : (0 < size x)%nat -> size x' = size x -> (forall k, (k < size x)%nat -> entry x' k = entry x k + s) -> mean x' = mean x + s.
Proof.
  intros Hn HS H. pose proof (lt_0_INR _ Hn). unfold mean, total. rewrite HS. rewrite (Rsum_ext _ _ (fun k => entry x k + s)) by auto. rewrite Rsum_plus, Rsum_const. change (fun k => entry x k) with (entry x). field. lra.
Qed.
Lemma shift_variance x x' s : (0 < size x)%nat -> size x' = size x -> (forall k, (k < size x)%nat -> entry x' k = entry x k + s) -> variance x' = variance x.
Proof.
  intros Hn HS H. unfold variance, total. rewrite (shift_mean x x' s) by auto. rewrite HS. f_equal. apply Rsum_ext. intros k Hk. rewrite H by auto. ring.
Qed.
Lemma layer_norm_shift x x' s w b eps : wf x -> wf x' -> same_shape x' x -> (0 < size x)%nat ->
  wf w -> same_shape w x -> wf b -> same_shape b x -> fits eps 1 1 ->
  (forall k, (k < size x)%nat -> entry x' k = entry x k + s) -> layer_norm w b eps x' = layer_norm w b eps x.
Proof.
  intros W W' HS Hn Ww Sw Wb Sb He H. assert (Hz : size x' = size x) by (rewrite !size_wf by auto; destruct HS as (-> & ->); auto).
  destruct (layer_norm_value x W w b eps Ww Sw Wb Sb He) as (y & -> & Ey).
  assert (Sw' : same_shape w x') by (unfold same_shape in *; destruct HS as (-> & ->); auto). assert (Sb' : same_shape b x') by (unfold same_shape in *; destruct HS as (-> & ->); auto).
  destruct (layer_norm_value x' W' w b eps Ww Sw' Wb Sb' He) as (y' & -> & Ey'). f_equal.
  destruct Ey as (A1 & A2 & A3), Ey' as (B1 & B2 & B3).
  assert (B2' : same_shape y' x) by (unfold same_shape in *; destruct B2 as (-> & ->); auto).
  rewrite (flat_of' y x A1 A2), (flat_of' y' x B1 B2'). apply flat_ext. intros k Hk. rewrite <- size_wf in Hk by auto. rewrite A3, B3 by (rewrite ?Hz; auto).
  rewrite (shift_mean x x' s), (shift_variance x x' s), H by auto. do 3 f_equal. ring.
Qed.

(** ** Batch normalization *)
Section Batch.
Variables (r c : nat).
Definition shaped (x : mat) : Prop := fits x r c.
Lemma shaped_flat x : shaped x -> x = flat r c (entry x).
Proof. apply flat_self. Qed.

Lemma fold_add xs : List.Forall shaped xs -> forall f, fold_opt (fun s x => fwd add_fn [s; x]) xs (flat r c f) = Some (flat r c (fun k => f k + batch_sum xs k)).
Proof.
  induction 1 as [|x xs Hx H IH]; intros f; cbn [fold_opt].
  - f_equal. apply flat_ext. intros. unfold batch_sum. cbn. ring.
  - rewrite (shaped_flat x Hx) at 1. steps. rewrite IH. f_equal. apply flat_ext. intros k Hk. unfold batch_sum. cbn [fold_right]. ring.
Qed.
Lemma fold_nodes_add xs : xs <> [] -> List.Forall shaped xs -> fold_nodes add_fn xs = Some (flat r c (batch_sum xs)).
Proof.
  intros Hne H. destruct H as [|x xs Hx H]; [congruence|]. cbn [fold_nodes]. rewrite (shaped_flat x Hx) at 1. rewrite fold_add by auto. f_equal.
Qed.
Lemma bn_batch_mean_value xs : xs <> [] -> List.Forall shaped xs -> bn_batch_mean xs = Some (flat r c (batch_mean xs)).
Proof. intros Hne H. unfold bn_batch_mean. rewrite fold_nodes_add by auto. cbn [bind]. steps. reflexivity. Qed.
Lemma zeros_flat f : m_zeros_like (flat r c f) = flat r c (fun _ => 0).
Proof. apply (elems_flat _ _ _ _ _ (zeros_elems _ r c (flat_fits r c f))). auto. Qed.
Lemma fold_dev m xs : List.Forall shaped xs -> forall f,
  fold_opt (fun s x => do d <- fwd sub_fn [flat r c m; x]; do q <- ag_square d; fwd add_fn [s; q]) xs (flat r c f) =
  Some (flat r c (fun k => f k + fold_right (fun x s => (m k - entry x k) ^ 2 + s) 0 xs)).
Proof.
  induction 1 as [|x xs Hx H IH]; intros f; cbn [fold_opt].
  - f_equal. apply flat_ext. intros. cbn. ring.
  - rewrite (shaped_flat x Hx) at 1. steps. rewrite IH. f_equal. apply flat_ext. intros k Hk. cbn [fold_right]. ring.
Qed.
Lemma bn_batch_dev_value xs : List.Forall shaped xs -> bn_batch_dev (flat r c (batch_mean xs)) xs = Some (flat r c (batch_dev xs)).
Proof.
  intros H. unfold bn_batch_dev. rewrite zeros_flat, fold_dev by auto. cbn [bind]. steps. f_equal. apply flat_ext. intros k Hk. unfold batch_dev. do 2 f_equal. ring.
Qed.
Lemma add_in_flat f g : m_add_in (flat r c f) (flat r c g) = Some (flat r c (fun k => f k + g k)).
Proof.
  destruct (m_add_in_elems (flat r c f) (flat r c g) r c) as (m & -> & He); [apply flat_fits|apply flat_fits|]. f_equal.
  apply (elems_flat _ _ _ _ _ He). intros. cbv beta. rewrite !flat_rget' by auto. auto.
Qed.
Lemma prods_in_flat f s : m_prods_in (flat r c f) s = flat r c (fun k => f k * s).
Proof. apply (elems_flat _ _ _ _ _ (m_prods_in_elems _ s r c (flat_fits r c f))). intros. now rewrite flat_rget'. Qed.
Lemma prods_flat f s : m_prods (flat r c f) s = flat r c (fun k => f k * s).
Proof. apply (elems_flat _ _ _ _ _ (m_prods_elems _ s r c (flat_fits r c f))). intros. now rewrite flat_rget'. Qed.

Definition bn_shaped (m : batch_norm) : Prop := shaped (bn_w m) /\ shaped (bn_b m) /\ shaped (bn_mean m) /\ shaped (bn_dev m).
Lemma bn_update_value m f g : bn_shaped m ->
  bn_update m (flat r c f) (flat r c g) = Some (mkBN (bn_w m) (bn_b m)
    (flat r c (fun k => bn_momentum m * entry (bn_mean m) k + (1 - bn_momentum m) * f k))
    (flat r c (fun k => bn_momentum m * entry (bn_dev m) k + (1 - bn_momentum m) * g k)) (bn_momentum m)).
Proof.
  intros (H1 & H2 & H3 & H4). unfold bn_update. rewrite (shaped_flat (bn_mean m) H3) at 1. rewrite !prods_in_flat, !prods_flat, !add_in_flat. cbn [bind]. rewrite (shaped_flat (bn_dev m) H4) at 1.
  rewrite ?prods_in_flat, ?prods_flat, ?add_in_flat. cbn [bind]. do 2 f_equal; apply flat_ext; intros; ring.
Qed.
Lemma each_some {A B} (f : A -> option B) (g : A -> B) l : List.Forall (fun x => f x = Some (g x)) l -> each f l = Some (map g l).
Proof. induction 1 as [|x l Hx H IH]; [reflexivity|]. cbn. rewrite Hx, IH. reflexivity. Qed.
Lemma bn_process_value m f g xs : bn_shaped m -> List.Forall shaped xs ->
  bn_process m (flat r c g) (flat r c f) xs =
  Some (map (fun x => flat r c (fun k => (entry x k - f k) * (entry (bn_w m) k / (g k + 1e-5)) + entry (bn_b m) k)) xs).
Proof.
  intros (H1 & H2 & H3 & H4) HX. unfold bn_process. steps. rewrite (shaped_flat (bn_w m) H1) at 1. steps. apply each_some. revert HX. apply Forall_impl. intros x Hx. cbv beta.
  rewrite (shaped_flat x Hx) at 1. steps. rewrite (shaped_flat (bn_b m) H2) at 1. steps. reflexivity.
Qed.
Lemma bn_forward_value m xs : bn_shaped m -> List.Forall shaped xs ->
  bn_forward m xs = Some (map (fun x => flat r c (fun k => (entry x k - entry (bn_mean m) k) * (entry (bn_w m) k / (entry (bn_dev m) k + 1e-5)) + entry (bn_b m) k)) xs).
Proof.
  intros H HX. unfold bn_forward. pose proof H as (H1 & H2 & H3 & H4). rewrite (shaped_flat (bn_mean m) H3) at 1. rewrite (shaped_flat (bn_dev m) H4) at 1.
  now rewrite bn_process_value.
Qed.
Lemma bn_forward_t_value m xs : bn_shaped m -> xs <> [] -> List.Forall shaped xs -> exists m',
  bn_forward_t m xs = Some (m', map (fun x => flat r c (fun k => (entry x k - batch_mean xs k) * (entry (bn_w m) k / (batch_dev xs k + 1e-5)) + entry (bn_b m) k)) xs) /\
  bn_w m' = bn_w m /\ bn_b m' = bn_b m /\ bn_momentum m' = bn_momentum m /\ bn_shaped m' /\
  forall k, (k < r * c)%nat ->
    entry (bn_mean m') k = bn_momentum m * entry (bn_mean m) k + (1 - bn_momentum m) * batch_mean xs k /\
    entry (bn_dev m') k = bn_momentum m * entry (bn_dev m) k + (1 - bn_momentum m) * batch_dev xs k.
Proof.
  intros H Hne HX. unfold bn_forward_t. rewrite bn_batch_mean_value by auto. cbn [bind]. rewrite bn_batch_dev_value by auto. cbn [bind].
  rewrite bn_update_value by auto. cbn [bind]. rewrite bn_process_value by auto. cbn [bind]. eexists. split; [reflexivity|]. cbn.
  pose proof H as (H1 & H2 & H3 & H4). repeat split; try apply H1; try apply H2; try apply flat_fits; apply flat_nth; auto.
Qed.

(** the running statistics after any history of batches *)
Fixpoint decayed (mom a0 : R) (vs : list R) : R :=
  match vs with [] => a0 | v :: vs => decayed mom (mom * a0 + (1 - mom) * v) vs end.
Lemma decayed_closed mom a0 vs : decayed mom a0 vs = exponential_average mom a0 vs.
Proof.
  unfold exponential_average. revert a0. induction vs as [|v vs IH]; intros a0; cbn [decayed length]; [unfold Rsum; cbn; ring|]. rewrite IH, Rsum_S. cbn [nth].
  replace (S (length vs) - 1 - 0)%nat with (length vs) by lia. rewrite <- tech_pow_Rmult.
  rewrite (Rsum_ext (length vs) (fun k => (1 - mom) * mom ^ (S (length vs) - 1 - S k) * nth k vs 0) (fun i => (1 - mom) * mom ^ (length vs - 1 - i) * nth i vs 0))
    by (intros k Hk; do 3 f_equal; lia). ring.
Qed.
Lemma history_value batches : forall m, bn_shaped m -> List.Forall (fun b => b <> [] /\ List.Forall shaped b) batches -> exists m',
  bn_train m batches = Some m' /\ bn_w m' = bn_w m /\ bn_b m' = bn_b m /\ bn_momentum m' = bn_momentum m /\ bn_shaped m' /\
  forall k, (k < r * c)%nat ->
    entry (bn_mean m') k = decayed (bn_momentum m) (entry (bn_mean m) k) (map (fun b => batch_mean b k) batches) /\
    entry (bn_dev m') k = decayed (bn_momentum m) (entry (bn_dev m) k) (map (fun b => batch_dev b k) batches).
Proof.
  induction batches as [|b bs IH]; intros m Hm HB; cbn [bn_train map decayed].
  - exists m. repeat split; auto; apply Hm.
  - inversion HB as [|? ? (B1 & B2) B3]; subst. destruct (bn_forward_t_value m b Hm B1 B2) as (m1 & E & E1 & E2 & E3 & Hm1 & E4). rewrite E. cbn [bind fst].
    destruct (IH m1 Hm1 B3) as (m' & F & F1 & F2 & F3 & Hm' & F4). exists m'. split; [exact F|]. rewrite F1, F2, F3, E1, E2, E3. repeat split; auto; try apply Hm'.
    all: destruct (E4 k H) as (E5 & E6), (F4 k H) as (F5 & F6); rewrite E3 in *; rewrite ?E5, ?E6 in *; auto.
Qed.
Lemma bn_train_value batches m : bn_shaped m -> List.Forall (fun b => b <> [] /\ List.Forall shaped b) batches -> exists m',
  bn_train m batches = Some m' /\ bn_w m' = bn_w m /\ bn_b m' = bn_b m /\ bn_momentum m' = bn_momentum m /\ bn_shaped m' /\
  forall k, (k < r * c)%nat ->
    entry (bn_mean m') k = exponential_average (bn_momentum m) (entry (bn_mean m) k) (map (fun b => batch_mean b k) batches) /\
    entry (bn_dev m') k = exponential_average (bn_momentum m) (entry (bn_dev m) k) (map (fun b => batch_dev b k) batches).
Proof.
  intros H HB. destruct (history_value batches m H HB) as (m' & E & E1 & E2 & E3 & E4 & E5). exists m'. repeat (split; [assumption|]).
  intros k Hk. rewrite <- !decayed_closed. auto.
Qed.
End Batch.
