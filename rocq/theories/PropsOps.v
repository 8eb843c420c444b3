(** * C14, C41, C42, C47: composed operators, losses, normalization *)
From Coq Require Import Reals List Arith Bool ZArith Lia Lra.
From Coquelicot Require Import Coquelicot.
From Verif Require Import DenseModel DenseSpec ArithModel ArithSpec GradModel GradSpec GradLemmas GradProofs4 OpsModel OpsSpec OpsLemmas OpsProofs OpsProofs2 OpsProofs3 OpsProofs4.
Import ListNotations.
Open Scope R_scope.

(** ** C14 *)
Theorem C14_log_sum_exp_vector : forall x, vector x -> log_sum_exp [x] = Some (scalar (ln (Rsum (size x) (fun k => exp (entry x k))))).
Proof. exact log_sum_exp_vector. Qed.
Print Assumptions C14_log_sum_exp_vector.
Theorem C14_log_sum_exp_scalars : forall vs, vs <> [] ->
  log_sum_exp (map scalar vs) = Some (scalar (ln (fold_right Rplus 0 (map exp vs)))).
Proof.
  intros vs H. rewrite log_sum_exp_scalars; [| |].
  - do 3 f_equal. clear H. induction vs as [|v vs IH]; [reflexivity|]. cbn [map fold_right]. now rewrite IH.
  - destruct vs; [congruence|discriminate].
  - apply Forall_forall. intros x Hx. apply in_map_iff in Hx. destruct Hx as (v & <- & _). repeat split.
Qed.
Print Assumptions C14_log_sum_exp_scalars.
Theorem C14_bounds : forall x, vector x -> forall k, (k < size x)%nat -> (forall i, (i < size x)%nat -> entry x i <= entry x k) ->
  exists v, log_sum_exp [x] = Some (scalar v) /\ entry x k <= v <= entry x k + ln (INR (size x)).
Proof. intros x V k Hk M. eexists. split; [apply log_sum_exp_vector, V|]. apply lse_bounds; auto. apply V. Qed.
Print Assumptions C14_bounds.
Theorem C14_log_softmax : forall wide x, vector x ->
  exists s l, fwd (softmax_fn wide) [x] = Some s /\ log_softmax wide x = Some l /\ wf l /\ rows l = size x /\ cols l = 1%nat /\
    forall k, (k < size x)%nat -> entry l k = ln (entry s k) /\ entry l k = entry x k - ln (Rsum (size x) (fun k => exp (entry x k))).
Proof. exact log_softmax_value. Qed.
Print Assumptions C14_log_softmax.
Example C14_case : log_sum_exp (map scalar [-1; -1]) = Some (scalar (-1 + ln 2)) /\ vector (mkDense 1 3 [-7; 0; 1000]).
Proof.
  split; [|split; [reflexivity|split; [cbn; auto|cbn; lia]]]. rewrite C14_log_sum_exp_scalars by discriminate. do 2 f_equal. cbn.
  replace (exp (-1) + (exp (-1) + 0)) with (exp (-1) * 2) by ring. rewrite ln_mult, ln_exp; [reflexivity|apply exp_pos|lra].
Qed.

(** ** C41 *)
Theorem C41_mae : forall x y mean, wf x -> wf y -> same_shape y x -> (0 < size x)%nat -> exists v,
  mae x y mean = Some (scalar v) /\ 0 <= v /\ (v = 0 <-> x = y) /\
  v = (if mean then Rsum (size x) (fun k => Rabs (entry x k - entry y k)) / INR (size x) else Rsum (size x) (fun k => Rabs (entry x k - entry y k))).
Proof.
  intros x y m Wx Wy S N. destruct (mae_zero x y m Wx Wy S N) as (v & E & P & Z). exists v. split; [exact E|]. split; [exact P|]. split; [exact Z|].
  rewrite mae_value in E by auto. injection E as <-. destruct m; reflexivity.
Qed.
Print Assumptions C41_mae.
Theorem C41_mse : forall x y mean, wf x -> wf y -> same_shape y x -> (0 < size x)%nat -> exists v,
  mse x y mean = Some (scalar v) /\ 0 <= v /\ (v = 0 <-> x = y) /\
  v = (if mean then Rsum (size x) (fun k => (entry x k - entry y k) ^ 2 / 2) / INR (size x) else Rsum (size x) (fun k => (entry x k - entry y k) ^ 2 / 2)).
Proof.
  intros x y m Wx Wy S N. destruct (mse_zero x y m Wx Wy S N) as (v & E & P & Z). exists v. split; [exact E|]. split; [exact P|]. split; [exact Z|].
  rewrite mse_value in E by auto. injection E as <-. destruct m; reflexivity.
Qed.
Print Assumptions C41_mse.
Theorem C41_nll_one_hot : forall x y c, wf x -> wf y -> same_shape y x -> (c < size x)%nat ->
  (forall k, (k < size x)%nat -> entry y k = if (k =? c)%nat then 1 else 0) -> nll x y = Some (scalar (- ln (entry x c))).
Proof. exact nll_one_hot. Qed.
Print Assumptions C41_nll_one_hot.
Theorem C41_nll : forall x y, wf x -> wf y -> same_shape y x -> nll x y = Some (scalar (- Rsum (size x) (fun k => entry y k * ln (entry x k)))).
Proof. exact nll_value. Qed.
Print Assumptions C41_nll.
(** [prob x c] is the softmax probability of position c: *)
Theorem C41_prob : forall wide x, vector x -> exists s, fwd (softmax_fn wide) [x] = Some s /\ forall k, (k < size x)%nat -> entry s k = prob x k.
Proof.
  intros wide x V. destruct (log_softmax_value wide x V) as (s & l & E & _ & _ & _ & _ & _). exists s. split; [exact E|].
  intros k Hk. destruct V as (W & V & P). destruct (GradProofs10.softmax_value x W) as (y' & E' & Wy & Hr & Hc & Ey); [unfold is_vector; destruct V as [-> | ->]; cbn; auto using orb_true_r|exact P|].
  cbn [fwd softmax_fn un] in E. rewrite E in E'. injection E' as <-. specialize (Ey k 0%nat Hk Nat.lt_0_1). rewrite rget_nth in Ey by (auto; rewrite ?Hr, ?Hc; auto). rewrite Hc, Nat.mul_1_r, Nat.add_0_r in Ey. exact Ey.
Qed.
Print Assumptions C41_prob.
Theorem C41_cross_entropy : forall x c, vector x -> (c < size x)%nat ->
  cross_entropy x (Z.of_nat c) = Some (scalar (- ln (prob x c))) /\ 0 <= - ln (prob x c) /\ (- ln (prob x c) = 0 <-> size x = 1%nat).
Proof. exact (fun x c V H => conj (cross_entropy_value x c V H) (cross_entropy_sign x c H)). Qed.
Print Assumptions C41_cross_entropy.
Theorem C41_weighted_cross_entropy : forall w x c, vector x -> (c < size x)%nat -> vector w -> (c < size w)%nat ->
  weighted_cross_entropy w x (Z.of_nat c) = Some (scalar (entry w c * - ln (prob x c))).
Proof. intros w x c Vx Hc Vw Hw. rewrite weighted_cross_entropy_value by auto. do 2 f_equal. ring. Qed.
Print Assumptions C41_weighted_cross_entropy.
Theorem C41_perplexity : forall x c, vector x -> (c < size x)%nat -> perplexity x (Z.of_nat c) = Some (scalar (1 / prob x c)) /\ 1 <= 1 / prob x c.
Proof. exact perplexity_value. Qed.
Print Assumptions C41_perplexity.
(** Focal loss is the cross entropy scaled down by (1 - p)^gamma. *)
Theorem C41_focal_loss : forall x c gamma, vector x -> (1 < size x)%nat -> (c < size x)%nat -> 0 <= gamma ->
  let v := Rpower (1 - prob x c) gamma * - ln (prob x c) in
  focal_loss x (Z.of_nat c) gamma = Some (scalar v) /\ 0 <= v <= - ln (prob x c) /\
  forall w, vector w -> (c < size w)%nat -> weighted_focal_loss w x (Z.of_nat c) gamma = Some (scalar (entry w c * v)).
Proof.
  intros x c g V N Hc Hg v. pose proof (prob_lt_1 x c N Hc) as Hp. pose proof (focal_loss_value x c g V Hc) as E. pose proof (focal_loss_bounds x c g Hc Hg) as B.
  assert (F : focus (prob x c) g = Rpower (1 - prob x c) g) by (unfold focus; destruct (Rlt_dec (prob x c) 1); [reflexivity|contradiction]).
  rewrite F in E, B. fold v in E, B. split; [exact E|]. split; [exact B|]. intros w Vw Hw. rewrite weighted_focal_loss_value by auto. now rewrite F.
Qed.
Print Assumptions C41_focal_loss.
Theorem C41_quantization : forall x q, wf x -> 0 < q ->
  (exists v, zero_one_quantization x = Some (scalar v) /\ 0 <= v /\ (v = 0 <-> forall k, (k < size x)%nat -> entry x k = 0 \/ entry x k = 1)) /\
  norm2_quantization x = Some (scalar ((Rsum (size x) (fun k => entry x k ^ 2) - 1) ^ 2)) /\
  (exists v, one_hot_quantization x q = Some (scalar v) /\ 0 <= v /\
     (v = 0 <-> exists c, (c < size x)%nat /\ forall k, (k < size x)%nat -> entry x k = if (k =? c)%nat then 1 else 0)).
Proof.
  intros x q W Q. split; [|split].
  - eexists. split; [apply zero_one_value, W|]. apply zero_one_sign.
  - apply norm2_value, W.
  - eexists. split; [apply one_hot_value, W|]. now apply one_hot_sign.
Qed.
Print Assumptions C41_quantization.
Theorem C41_distance : forall v target, distance (scalar v) target = Some (scalar (Rabs (target - v))).
Proof. intros v t. apply (distance_value (scalar v) t). repeat split. Qed.
Print Assumptions C41_distance.
(** The losses of sequences add up, or average, the losses of their elements. *)
Theorem C41_sequences : forall (P Q : Type) (loss : P -> Q -> option mat) (l : P -> Q -> R) ps ts mean, ps <> [] ->
  Forall2 (fun p t => loss p t = Some (scalar (l p t))) ps ts ->
  let s := fold_right Rplus 0 (map (fun pt => l (fst pt) (snd pt)) (combine ps ts)) in
  loss_seq loss ps ts mean = Some (scalar (if mean then s / INR (length ps) else s)).
Proof.
  intros P Q loss l ps ts m Hn HF s. assert (HL : length ps = length ts) by (clear - HF; induction HF; cbn; auto). rewrite (loss_seq_value loss l ps ts m Hn HL HF).
  assert (E : sum_losses l ps ts = s); [|now rewrite E]. unfold s. clear.
  revert ts. induction ps as [|p ps IH]; intros ts; [reflexivity|]. destruct ts as [|t ts]; [reflexivity|]. cbn. now rewrite <- IH.
Qed.
Print Assumptions C41_sequences.
Theorem C41_spg : forall logs rewards, logs <> [] -> length logs = length rewards ->
  spg (map scalar logs) (map scalar rewards) = Some (scalar (- fold_right Rplus 0 (map (fun lr => fst lr * snd lr) (combine logs rewards)))).
Proof.
  intros ls rs Hn HL. rewrite spg_value.
  - do 3 f_equal. revert rs HL. clear Hn. induction ls as [|l ls IH]; intros [|r rs] HL; try discriminate; [reflexivity|]. cbn in HL. injection HL as HL. cbn. now rewrite <- (IH rs HL).
  - destruct ls; [congruence|discriminate].
  - revert rs HL. clear Hn. induction ls as [|l ls IH]; intros [|r rs] HL; try discriminate; cbn; constructor; [repeat split|apply IH; cbn in HL; lia].
Qed.
Print Assumptions C41_spg.
Example C41_case : exists v, cross_entropy (mkDense 3 1 [0; 0; 0]) 1 = Some (scalar v) /\ v = ln 3.
Proof.
  exists (- ln (prob (mkDense 3 1 [0; 0; 0]) 1)). split; [apply (C41_cross_entropy (mkDense 3 1 [0; 0; 0]) 1); [split; [reflexivity|split; [cbn; auto|cbn; lia]]|cbn; lia]|].
  unfold prob, total, size, entry. cbn. rewrite exp_0. match goal with |- - ln ?t = _ => replace t with (/ 3) by field end. rewrite ln_Rinv by lra. ring.
Qed.

(** ** C42 *)
Theorem C42_layer_norm : forall x w b eps, wf x -> (0 < size x)%nat -> wf w -> same_shape w x -> wf b -> same_shape b x -> 0 < eps ->
  exists y, layer_norm w b (scalar eps) x = Some y /\ exists z : nat -> R,
    entries y x (fun k => z k * entry w k + entry b k) /\
    (forall k, (k < size x)%nat -> z k = (entry x k - mean x) / sqrt (variance x + eps)) /\
    Rsum (size x) z = 0 /\ Rsum (size x) (fun k => z k ^ 2) / INR (size x) = variance x / (variance x + eps) /\ variance x / (variance x + eps) < 1.
Proof.
  intros x w b eps W N Ww Sw Wb Sb He. destruct (layer_norm_value x W w b (scalar eps) Ww Sw Wb Sb) as (y & E & Ey); [repeat split|].
  exists y. split; [exact E|]. exists (fun k => (entry x k - mean x) / sqrt (variance x + eps)). split; [exact Ey|]. split; [reflexivity|].
  exact (layer_norm_facts x N eps He).
Qed.
Print Assumptions C42_layer_norm.
Theorem C42_layer_norm_shift : forall x x' s w b eps, wf x -> wf x' -> same_shape x' x -> (0 < size x)%nat ->
  wf w -> same_shape w x -> wf b -> same_shape b x ->
  (forall k, (k < size x)%nat -> entry x' k = entry x k + s) -> layer_norm w b (scalar eps) x' = layer_norm w b (scalar eps) x.
Proof. intros. apply (layer_norm_shift x x' s); auto. repeat split. Qed.
Print Assumptions C42_layer_norm_shift.
Theorem C42_layer_norm_simple : forall x, wf x -> (0 < size x)%nat -> exists y, layer_norm_simple x = Some y /\
  entries y x (fun k => (entry x k - mean x) / (sqrt (variance x) + 1e-10)) /\
  Rsum (size x) (entry y) = 0 /\ Rsum (size x) (fun k => entry y k ^ 2) / INR (size x) < 1.
Proof.
  intros x W N. destruct (layer_norm_simple_value x W) as (y & E & Ey). exists y. split; [exact E|]. split; [exact Ey|].
  destruct Ey as (_ & _ & Ey). destruct (layer_norm_simple_facts x N) as (A & B). split.
  - rewrite <- A. now apply Rsum_ext.
  - erewrite Rsum_ext; [exact B|]. intros k Hk. cbn beta. now rewrite Ey.
Qed.
Print Assumptions C42_layer_norm_simple.
Theorem C42_ada_norm : forall x s, wf x -> (0 < size x)%nat -> exists y, ada_norm (scalar s) x = Some y /\
  entries y x (fun k => let z := (entry x k - mean x) / (sqrt (variance x) + 1e-10) in z * ((1 - z * 0.1) * s)).
Proof. intros x s W N. apply (ada_norm_value x W (scalar s)). repeat split. Qed.
Print Assumptions C42_ada_norm.
Theorem C42_fix_norm : forall x, wf x -> exists y, fix_norm x = Some y /\ entries y x (fun k => entry x k / (norm2 x + 1e-10)) /\
  sqrt (Rsum (size x) (fun k => entry y k ^ 2)) = norm2 x / (norm2 x + 1e-10) /\ norm2 x / (norm2 x + 1e-10) < 1.
Proof.
  intros x W. destruct (fix_norm_value x W) as (y & E & Ey). exists y. split; [exact E|]. split; [exact Ey|]. destruct Ey as (_ & _ & Ey).
  destruct (fix_norm_facts x) as (A & B). split; [|exact B]. rewrite <- A. f_equal. apply Rsum_ext. intros k Hk. cbn beta. now rewrite Ey.
Qed.
Print Assumptions C42_fix_norm.
Theorem C42_scale_norm : forall x gain, wf x -> wf gain -> same_shape gain x -> exists y, scale_norm gain x = Some y /\
  entries y x (fun k => entry x k / (norm2 x + 1e-10) * entry gain k).
Proof. exact (fun x gain W => scale_norm_value x W gain). Qed.
Print Assumptions C42_scale_norm.
Theorem C42_rms_norm : forall x w b, wf x -> (0 < size x)%nat -> wf w -> same_shape w x -> wf b -> same_shape b x -> exists y, rms_norm w b x = Some y /\
  entries y x (fun k => entry x k / (rms x + 1e-10) * entry w k + entry b k) /\
  Rsum (size x) (fun k => (entry x k / (rms x + 1e-10)) ^ 2) / INR (size x) < 1.
Proof.
  intros x w b W N Ww Sw Wb Sb. destruct (rms_norm_value x W w b Ww Sw Wb Sb) as (y & E & Ey). exists y. split; [exact E|]. split; [exact Ey|]. now apply rms_norm_facts.
Qed.
Print Assumptions C42_rms_norm.
(** Batch normalization: one training step, evaluation, and any history of batches. *)
Theorem C42_batch_norm_training : forall r c m xs, bn_shaped r c m -> xs <> [] -> List.Forall (fun x => fits x r c) xs -> exists m' ys,
  bn_forward_t m xs = Some (m', ys) /\ length ys = length xs /\
  (forall i x y, nth_error xs i = Some x -> nth_error ys i = Some y -> entries y x (fun k =>
     (entry x k - batch_mean xs k) * (entry (bn_w m) k / (batch_dev xs k + 1e-5)) + entry (bn_b m) k)) /\
  bn_w m' = bn_w m /\ bn_b m' = bn_b m /\ forall k, (k < r * c)%nat ->
    entry (bn_mean m') k = bn_momentum m * entry (bn_mean m) k + (1 - bn_momentum m) * batch_mean xs k /\
    entry (bn_dev m') k = bn_momentum m * entry (bn_dev m) k + (1 - bn_momentum m) * batch_dev xs k.
Proof.
  intros r c m xs B Hn HX. destruct (bn_forward_t_value r c m xs B Hn HX) as (m' & E & E1 & E2 & _ & _ & E3). eexists m', _. split; [exact E|].
  split; [apply map_length|]. split; [|auto]. intros i x y Hx Hy. rewrite nth_error_map, Hx in Hy. injection Hy as <-.
  pose proof (proj1 (Forall_forall _ _) HX x (nth_error_In _ _ Hx)) as (Wx & Hr & Hc). rewrite <- Hr, <- Hc. now apply flat_entries.
Qed.
Print Assumptions C42_batch_norm_training.
Theorem C42_batch_norm_evaluation : forall r c m xs, bn_shaped r c m -> List.Forall (fun x => fits x r c) xs -> exists ys,
  bn_forward m xs = Some ys /\ length ys = length xs /\
  (forall i x y, nth_error xs i = Some x -> nth_error ys i = Some y -> entries y x (fun k =>
     (entry x k - entry (bn_mean m) k) * (entry (bn_w m) k / (entry (bn_dev m) k + 1e-5)) + entry (bn_b m) k)).
Proof.
  intros r c m xs B HX. eexists. split; [apply (bn_forward_value r c m xs B HX)|]. split; [apply map_length|]. intros i x y Hx Hy. rewrite nth_error_map, Hx in Hy. injection Hy as <-.
  pose proof (proj1 (Forall_forall _ _) HX x (nth_error_In _ _ Hx)) as (Wx & Hr & Hc). rewrite <- Hr, <- Hc. now apply flat_entries.
Qed.
Print Assumptions C42_batch_norm_evaluation.
Theorem C42_batch_norm_history : forall r c batches m, bn_shaped r c m ->
  List.Forall (fun b => b <> [] /\ List.Forall (fun x => fits x r c) b) batches -> exists m',
  bn_train m batches = Some m' /\ forall k, (k < r * c)%nat ->
    entry (bn_mean m') k = exponential_average (bn_momentum m) (entry (bn_mean m) k) (map (fun b => batch_mean b k) batches) /\
    entry (bn_dev m') k = exponential_average (bn_momentum m) (entry (bn_dev m) k) (map (fun b => batch_dev b k) batches).
Proof. intros r c bs m B H. destruct (bn_train_value r c bs m B H) as (m' & E & _ & _ & _ & _ & E'). now exists m'. Qed.
Print Assumptions C42_batch_norm_history.
Example C42_case : let x := mkDense 2 1 [1; 3] in wf x /\ mean x = 2 /\ variance x = 1 /\ norm2 x = sqrt 10 /\
  exists m, bn_shaped 2 1 m /\ bn_momentum m = 0.9.
Proof.
  cbv zeta. assert (M : mean (mkDense 2 1 [1; 3]) = 2) by (unfold mean, total, size, entry; cbn; field).
  split; [reflexivity|]. split; [exact M|]. split; [unfold variance; rewrite M; unfold total, size, entry; cbn; field|].
  split; [unfold norm2, total, size, entry; cbn; f_equal; ring|].
  exists (mkBN (mkDense 2 1 [1; 1]) (mkDense 2 1 [0; 0]) (mkDense 2 1 [0; 0]) (mkDense 2 1 [0; 0]) 0.9). repeat split.
Qed.

(** ** C47 *)
Theorem C47_split_vec : forall x chunks s, fits x (chunks * s) 1 -> (0 < chunks)%nat -> (0 < s)%nat -> exists ys,
  split_vec x (Z.of_nat chunks) = Some ys /\ length ys = chunks /\ List.Forall (fun y => fits y s 1) ys /\
  concat (map data ys) = data x /\ concat_v ys = Some x.
Proof. exact split_vec_pieces. Qed.
Print Assumptions C47_split_vec.
(** A row vector with at least two elements cannot be split, whatever the number of chunks. *)
Theorem C47_split_vec_refuted : forall x n chunks, fits x 1 n -> (2 <= n)%nat -> split_vec x chunks = None.
Proof. exact split_vec_row. Qed.
Print Assumptions C47_split_vec_refuted.
Theorem C47_separate : forall x, wf x ->
  separate_matrix x = Some (map (fun i => map (fun j => scalar (rget x i j)) (seq 0 (cols x))) (seq 0 (rows x))) /\
  (is_vector x = true -> separate_vec x = Some (map scalar (data x))).
Proof. exact (fun x W => conj (separate_matrix_value x W) (separate_vec_value x W)). Qed.
Print Assumptions C47_separate.
Theorem C47_pad : forall (A : Type) (xs : list A) n padding,
  (ag_pad xs n padding = None <-> (n < 0)%Z) /\
  forall ys, ag_pad xs n padding = Some ys -> Z.of_nat (length ys) = n /\
    forall k, (k < length ys)%nat -> nth_error ys k = if (k <? length xs)%nat then nth_error xs k else Some (padding k).
Proof. exact @pad_value. Qed.
Print Assumptions C47_pad.
Theorem C47_map2 : forall (A B C : Type) (f : A -> B -> C) xs ys,
  (ag_map2 f xs ys = None <-> length xs <> length ys) /\
  forall zs, ag_map2 f xs ys = Some zs -> length zs = length xs /\
    forall k x y, nth_error xs k = Some x -> nth_error ys k = Some y -> nth_error zs k = Some (f x y).
Proof. exact @map2_value. Qed.
Print Assumptions C47_map2.
Theorem C47_folds : forall r c xs, xs <> [] -> List.Forall (fun x => fits x r c) xs ->
  (exists y, ag_sum xs = Some y /\ fits y r c /\ forall k, (k < r * c)%nat -> entry y k = fold_right Rplus 0 (map (fun x => entry x k) xs)) /\
  (exists y, ag_mean xs = Some y /\ fits y r c /\ forall k, (k < r * c)%nat -> entry y k = fold_right Rplus 0 (map (fun x => entry x k) xs) / INR (length xs)) /\
  (exists y, ag_maximum xs = Some y /\ fits y r c /\ forall k, (k < r * c)%nat ->
     (forall x, In x xs -> entry x k <= entry y k) /\ exists x, In x xs /\ entry y k = entry x k) /\
  (exists y, ag_minimum xs = Some y /\ fits y r c /\ forall k, (k < r * c)%nat ->
     (forall x, In x xs -> entry y k <= entry x k) /\ exists x, In x xs /\ entry y k = entry x k).
Proof.
  intros r c xs Hn HX. assert (S : forall k, batch_sum xs k = fold_right Rplus 0 (map (fun x => entry x k) xs)).
  { intros k. clear. induction xs as [|x xs IH]; [reflexivity|]. cbn. unfold batch_sum in IH. now rewrite IH. }
  split; [|split; [|split]].
  - eexists. split; [apply (sum_value r c xs Hn HX)|]. split; [apply flat_fits|]. intros k Hk. unfold entry at 1. rewrite flat_nth by auto. apply S.
  - eexists. split; [apply (mean_value r c xs Hn HX)|]. split; [apply flat_fits|]. intros k Hk. unfold entry at 1. rewrite flat_nth by auto. now rewrite S.
  - apply (maximum_value r c xs Hn HX).
  - apply (minimum_value r c xs Hn HX).
Qed.
Print Assumptions C47_folds.
Theorem C47_views : forall x, wf x ->
  (exists ys, row_views x = Some ys /\ length ys = rows x /\ forall i y, nth_error ys i = Some y -> is_matrix y 1 (cols x) (fun _ j => elem x i j)) /\
  (exists ys, col_views x = Some ys /\ length ys = cols x /\ forall j y, nth_error ys j = Some y -> is_matrix y (rows x) 1 (fun i _ => elem x i j)).
Proof. exact (fun x W => conj (row_views_value x W) (col_views_value x W)). Qed.
Print Assumptions C47_views.
Theorem C47_bilinear : forall wide w u v b x1 x2 n m, fits w n m -> fits u n 1 -> fits v m 1 -> fits b 1 1 -> fits x1 n 1 -> fits x2 m 1 ->
  let q := Rsum n (fun i => Rsum m (fun j => rget x1 i 0 * rget w i j * rget x2 j 0)) in
  bi_linear wide w x1 x2 = Some (scalar q) /\
  bi_affine wide w u v b x1 x2 = Some (scalar (q + Rsum n (fun i => rget u i 0 * rget x1 i 0) + Rsum m (fun j => rget v j 0 * rget x2 j 0) + rget b 0 0)).
Proof. exact (fun wide w u v b x1 x2 n m Hw Hu Hv Hb H1 H2 => conj (bi_linear_value wide w x1 x2 n m Hw H1 H2) (bi_affine_value wide w u v b x1 x2 n m Hw Hu Hv Hb H1 H2)). Qed.
Print Assumptions C47_bilinear.
(** ModuleList.Forward runs its modules one after the other. *)
Theorem C47_module_list : forall xs,
  module_list_forward [] xs = Some xs /\ (forall m, module_list_forward [m] xs = m xs) /\
  forall ms1 ms2, module_list_forward (ms1 ++ ms2) xs = (do ys <- module_list_forward ms1 xs; module_list_forward ms2 ys).
Proof.
  intros xs. split; [reflexivity|]. split; [intros m; cbn; now destruct (m xs)|]. intros ms1 ms2. apply module_list_app.
Qed.
Print Assumptions C47_module_list.
Example C47_case : split_vec (mkDense 4 1 [1; 2; 3; 4]) 2 = Some [mkDense 2 1 [1; 2]; mkDense 2 1 [3; 4]] /\
  ag_pad [1%nat; 2%nat] 4 (fun k => 10 * k)%nat = Some [1; 2; 20; 30]%nat /\ fits (mkDense 1 2 [1; 2]) 1 2.
Proof. repeat split. Qed.
