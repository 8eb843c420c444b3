(** * Instances of the scores; the loss of a conditional random field *)
From Coq Require Import Reals List Arith Bool ZArith Lia Lra.
From Coquelicot Require Import Coquelicot.
From Verif Require Import DenseModel DenseSpec DenseLemmas DenseProofs DenseProofs2 ArithModel ArithSpec ArithProofs GradModel GradSpec GradLemmas GradProofs4 GradProofs9 OpsModel OpsSpec OpsLemmas OpsProofs OpsProofs3 OpsProofs4 DiffProofs CrfModel CrfSpec CrfProofs.
Import ListNotations.
Open Scope R_scope.

Lemma ext_lt_order : strict_order ext_lt.
Proof.
  destruct R_order as (I & Tr & W). split; [|split].
  - intros [a|]; cbn; auto.
  - intros [a|] [b|] [c|]; cbn; auto; try discriminate. apply Tr.
  - intros [a|] [b|] [c|]; cbn; auto; try discriminate.
Qed.
Lemma Rltb_false a b : Rltb a b = false <-> b <= a.
Proof. unfold Rltb. destruct (Rlt_dec a b); split; intros H; try discriminate; try lra; reflexivity. Qed.
Lemma rounded_scoring rnd : (forall a b, a <= b -> rnd a <= rnd b) -> scoring (rounded_add rnd) ext_lt None.
Proof.
  intros M. split; [apply ext_lt_order|]. split; [intros [a|]; reflexivity|].
  intros [a|] [b|] [c|]; cbn; auto; try discriminate. rewrite !Rltb_false. intros H. apply M. lra.
Qed.
Lemma ext_scoring : scoring ext_add ext_lt None.
Proof. exact (rounded_scoring (fun x => x) (fun a b H => H)). Qed.

Lemma ext_add_assoc a b c : ext_add a (ext_add b c) = ext_add (ext_add a b) c.
Proof. destruct a, b, c; cbn; auto. f_equal. ring. Qed.
Lemma ext_fold l : forall a, fold_left ext_add l a = ext_add a (ext_sum l).
Proof.
  induction l as [|x l IH]; intros a; cbn [fold_left ext_sum fold_right].
  - destruct a; cbn; auto. f_equal. ring.
  - rewrite IH. unfold ext_sum. now rewrite ext_add_assoc.
Qed.
Lemma ext_added l : l <> [] -> added ext_add None l = ext_sum l.
Proof. destruct l as [|a l]; [congruence|]. intros _. cbn [added]. now rewrite ext_fold. Qed.
Lemma terms_nonempty {T} (t : nat -> nat -> T) n es ys : es <> [] -> labelling n es ys -> terms t es ys <> [].
Proof. intros H [L _]. destruct es, ys; try congruence; discriminate. Qed.

Lemma viterbi_ext n tr t xs es : (0 < n)%nat -> transitions tr n t -> xs <> [] -> List.Forall2 (emission n) xs es ->
  exists ys, viterbi ext_add ext_lt None tr xs = Some ys /\ labelling n es ys /\
    forall zs, labelling n es zs -> ext_lt (ext_sum (terms t es ys)) (ext_sum (terms t es zs)) = false.
Proof.
  intros Hn Tr Nx F. destruct (viterbi_best ext_add ext_lt None n tr t xs es ext_scoring Hn Tr Nx F) as (ys & E & L & B).
  exists ys. split; [exact E|]. split; [exact L|]. intros zs Lz.
  assert (Ne : es <> []) by (inversion F; subst; congruence).
  rewrite <- !ext_added by (eapply terms_nonempty; eassumption). now apply B.
Qed.

Lemma later_terms_map {A B} (h : A -> B) t es : forall p ys,
  later_terms (fun i j => h (t i j)) p (map (fun e j => h (e j)) es) ys = map h (later_terms t p es ys).
Proof. induction es as [|e es IH]; intros p [|y ys]; cbn [later_terms map]; auto. now rewrite IH. Qed.
Lemma terms_map {A B} (h : A -> B) t es ys : terms (fun i j => h (t i j)) (map (fun e j => h (e j)) es) ys = map h (terms t es ys).
Proof. destruct es as [|e es], ys as [|y ys]; cbn [terms map]; auto. now rewrite later_terms_map. Qed.
Lemma ext_sum_some l : ext_sum (map Some l) = Some (fold_right Rplus 0 l).
Proof. induction l as [|x l IH]; [reflexivity|]. cbn [map ext_sum fold_right]. fold (ext_sum (map Some l)). now rewrite IH. Qed.

Lemma viterbi_real n (tr : dense ext) t xs es : (0 < n)%nat -> transitions tr n (fun i j => Some (t i j)) -> xs <> [] ->
  List.Forall2 (fun x e => emission n x (fun j => Some (e j))) xs es ->
  exists ys, viterbi ext_add ext_lt None tr xs = Some ys /\ labelling n es ys /\
    forall zs, labelling n es zs -> fold_right Rplus 0 (terms t es zs) <= fold_right Rplus 0 (terms t es ys).
Proof.
  intros Hn Tr Nx F.
  destruct (viterbi_ext n tr _ xs (map (fun e j => Some (e j)) es) Hn Tr Nx) as (ys & E & L & B).
  { clear -F. induction F; cbn; constructor; auto. }
  assert (C : forall zs, labelling n (map (fun (e : nat -> R) j => Some (e j)) es) zs <-> labelling n es zs) by (intros zs; unfold labelling; now rewrite map_length).
  exists ys. split; [exact E|]. split; [now apply C|]. intros zs Lz. apply C in Lz. specialize (B zs Lz). rewrite !terms_map, !ext_sum_some in B.
  cbn in B. now apply Rltb_false in B.
Qed.

(** ** The loss *)

Lemma col_at n x e i : score_col n x e -> (i < n)%nat -> at_ x [Z.of_nat i] = Some (e i).
Proof.
  intros (R1 & C1 & W & E) H. unfold at_. rewrite offset_one by exact W. unfold is_vector. rewrite R1, C1, Nat.mul_1_r, orb_true_r.
  destruct (Z.leb_spec 0 (Z.of_nat i)); [|lia]. destruct (Z.ltb_spec (Z.of_nat i) (Z.of_nat n)); [|lia]. cbn [andb].
  rewrite Nat2Z.id. specialize (E i 0%nat H ltac:(lia)). unfold elem in E. rewrite R1, C1 in E. destruct (Nat.ltb_spec i n); [|lia].
  change (0 <? 1)%nat with true in E. cbn [andb] in E. now rewrite Nat.mul_1_r, Nat.add_0_r in E.
Qed.
Lemma col_at2 n x e i : score_col n x e -> (i < n)%nat -> at_ x [Z.of_nat i; 0%Z] = Some (e i).
Proof.
  intros (R1 & C1 & W & E) H. rewrite at_two. destruct (Z.leb_spec 0 (Z.of_nat i)); [|lia]. cbn [andb Z.leb Z.compare Z.to_nat]. rewrite Nat2Z.id. apply E; lia.
Qed.
Lemma col_data n x e : score_col n x e -> data x = map e (seq 0 n).
Proof.
  intros H. assert (L : length (data x) = n) by (destruct H as (R1 & C1 & W & _); rewrite W, R1, C1; lia).
  apply (List.nth_ext _ _ 0 0); [now rewrite map_length, seq_length|]. intros k Hk. rewrite L in Hk.
  assert (E : nth_error (data x) k = Some (e k)).
  { destruct H as (R1 & C1 & W & E). specialize (E k 0%nat Hk ltac:(lia)). unfold elem in E. rewrite R1, C1 in E. destruct (Nat.ltb_spec k n); [|lia].
    change (0 <? 1)%nat with true in E. cbn [andb] in E. now rewrite Nat.mul_1_r, Nat.add_0_r in E. }
  rewrite (nth_error_nth _ _ _ E). rewrite (nth_indep _ _ (e 0%nat)) by now rewrite map_length, seq_length. rewrite map_nth. now rewrite seq_nth.
Qed.

Lemma rsum_nonneg m h : (forall k, (k < m)%nat -> 0 <= h k) -> 0 <= Rsum m h.
Proof. induction m as [|m IH]; intros H; [unfold Rsum; cbn; lra|]. rewrite Rsum_r. apply Rplus_le_le_0_compat; [apply IH|apply H]; auto. Qed.

Section L.
Variable n : nat.
Variable tr : mat.
Variable t : nat -> nat -> R.
Hypothesis Tr : transitions tr n t.

Lemma f_at x idx v : at_ x idx = Some v -> fwd (at_fn idx) [x] = Some (scalar v).
Proof. intros E. cbn. now rewrite E. Qed.
Lemma add_s a b : ag_add (Some (scalar a)) (scalar b) = Some (scalar (a + b)).
Proof. apply s_add. Qed.

Lemma gold_loop_value xs es : List.Forall2 (score_col n) xs es -> forall ys p g, labelling n es ys -> (p < n)%nat ->
  exists g' q, gold_loop tr xs (map Z.of_nat ys) (Z.of_nat p + 1) (scalar g) = Some (scalar g', (Z.of_nat q + 1)%Z) /\ (q < n)%nat /\
    g' + t (S q) 0%nat = g + fold_right Rplus 0 (later_terms t p es ys).
Proof.
  induction 1 as [|x e xs es Hx _ IH]; intros [|y ys] p g [L F] Hp; try discriminate.
  - exists g, p. cbn. repeat split; auto. lra.
  - cbn [map gold_loop]. inversion F as [|? ? Hy F']; subst.
    rewrite (f_at x _ (e y)) by (eapply col_at; eauto). cbn [bind]. rewrite add_s. cbn [bind].
    replace (Z.of_nat p + 1)%Z with (Z.of_nat (S p)) by lia. replace (Z.of_nat y + 1)%Z with (Z.of_nat (S y)) by lia.
    rewrite (f_at tr _ (t (S p) (S y))) by (apply (tr_at n tr t Tr); lia). cbn [bind]. rewrite add_s. cbn [bind].
    replace (Z.of_nat (S y)) with (Z.of_nat y + 1)%Z by lia.
    destruct (IH ys y (g + e y + t (S p) (S y))) as (g' & q & E & Hq & V); [split; [now injection L|exact F']|exact Hy|].
    exists g', q. rewrite E. repeat split; auto. rewrite V. cbn [later_terms fold_right]. lra.
Qed.
Lemma gold_value xs es ys : xs <> [] -> List.Forall2 (score_col n) xs es -> labelling n es ys ->
  gold_score tr xs (map Z.of_nat ys) = Some (scalar (score t es ys)).
Proof.
  intros Nx F [L Fy]. destruct F as [|x e xs es Hx F]; [congruence|]. destruct ys as [|y ys]; [discriminate|]. inversion Fy as [|? ? Hy F']; subst.
  cbn [map gold_score]. rewrite (f_at x _ (e y)) by (eapply col_at2; eauto). cbn [bind].
  replace (Z.of_nat y + 1)%Z with (Z.of_nat (S y)) by lia. change 0%Z with (Z.of_nat 0).
  rewrite (f_at tr _ (t 0 (S y))) by (apply (tr_at n tr t Tr); lia). cbn [bind]. rewrite add_s. cbn [bind].
  replace (Z.of_nat (S y)) with (Z.of_nat y + 1)%Z by lia.
  destruct (gold_loop_value xs es F ys y (e y + t 0%nat (S y))) as (g' & q & E & Hq & V); [split; [now injection L|exact F']|exact Hy|].
  rewrite E. cbn [bind fst snd]. replace (Z.of_nat q + 1)%Z with (Z.of_nat (S q)) by lia.
  rewrite (f_at tr _ (t (S q) 0)) by (apply (tr_at n tr t Tr); lia). cbn [bind]. rewrite add_s. do 2 f_equal.
  unfold score. cbn [terms fold_right]. lra.
Qed.

(** partially accumulated sums *)
Definition part (c : nat -> nat -> R) (k j : nat) : option mat :=
  match k with O => None | _ => Some (scalar (Rsum k (fun i => exp (c i j)))) end.
Lemma part_step c k j : ag_add (part c k j) (scalar (exp (c k j))) = Some (scalar (Rsum (S k) (fun i => exp (c i j)))).
Proof.
  destruct k as [|k]; cbn [part].
  - rewrite Rsum_S. unfold Rsum. cbn. now rewrite Rplus_0_r.
  - rewrite add_s. do 2 f_equal. rewrite (Rsum_r (S k)). ring.
Qed.
Lemma acc_exp_step c g k j : (j < n)%nat -> g j = part c k j ->
  acc_exp (map g (seq 0 n)) j (scalar (c k j)) = Some (map (upd g j (part c (S k) j)) (seq 0 n)).
Proof.
  intros H E. unfold acc_exp. rewrite s_exp. cbn [bind]. rewrite (nth_error_nth _ _ _ (nth_error_map_seq g n j H)). rewrite E, part_step. cbn [bind].
  rewrite put_map_seq by auto. reflexivity.
Qed.

Lemma total_start_value x e : score_col n x e -> total_start n tr x = Some (map (fun i => scalar (e i + t 0%nat (S i))) (seq 0 n)).
Proof.
  intros H. unfold total_start. apply each_map. intros i Hi. apply in_seq in Hi.
  rewrite (f_at x _ (e i)) by (eapply col_at; eauto; lia). cbn [bind]. change 0%Z with (Z.of_nat 0). rewrite Nat.add_1_r.
  rewrite (f_at tr _ (t 0 (S i))) by (apply (tr_at n tr t Tr); lia). cbn [bind]. apply add_s.
Qed.

Lemma total_end_value f : total_end n tr (map (fun i => scalar (f i)) (seq 0 n)) = Some (map (fun i => scalar (exp (f i + t (S i) 0%nat))) (seq 0 n)).
Proof.
  unfold total_end. rewrite (repeat_map_seq None n 0).
  set (c := fun (_ j : nat) => f j + t (S j) 0%nat).
  match goal with |- context [loop_opt ?b _ _ _] =>
    destruct (loop_opt_inv (fun k sc => sc = map (fun j => if (j <? k)%nat then Some (scalar (exp (c 0%nat j))) else None) (seq 0 n)) b n 0 (map (fun _ => None) (seq 0 n))) as (sc & -> & E) end.
  - intros k s Hk ->. rewrite nth_error_map_seq by lia. cbn [bind]. rewrite Nat.add_1_r. change 0%Z with (Z.of_nat 0).
    rewrite (f_at tr _ (t (S k) 0)) by (apply (tr_at n tr t Tr); lia). cbn [bind]. rewrite add_s. cbn [bind].
    eexists. split.
    + apply (acc_exp_step (fun _ j => c 0%nat j) _ 0); [lia|]. destruct (Nat.ltb_spec k k); [lia|reflexivity].
    + apply map_ext_in. intros j Hj. apply in_seq in Hj. unfold upd. destruct (Nat.eqb_spec j k) as [->|N].
      * destruct (Nat.ltb_spec k (S k)); [|lia]. cbn [part]. do 2 f_equal. rewrite Rsum_S. unfold Rsum. cbn. ring.
      * destruct (Nat.ltb_spec j k), (Nat.ltb_spec j (S k)); try lia; reflexivity.
  - apply map_ext. reflexivity.
  - cbn [bind]. subst sc. replace (map (fun j => if (j <? 0 + n)%nat then Some (scalar (exp (c 0%nat j))) else None) (seq 0 n)) with (map (fun j => Some (scalar (exp (c 0%nat j)))) (seq 0 n)).
    + generalize (seq 0 n). intros l. induction l as [|a l IH]; cbn [map each]; [reflexivity|]. rewrite IH. reflexivity.
    + apply map_ext_in. intros j Hj. apply in_seq in Hj. destruct (Nat.ltb_spec j (0 + n)); [reflexivity|lia].
Qed.

Lemma total_step_value f e : (0 < n)%nat -> total_step n tr (map (fun i => scalar (f i)) (seq 0 n)) (map (fun i => scalar (e i)) (seq 0 n)) =
  Some (map (fun j => scalar (ln (Rsum n (fun i => exp (f i + e j + t (S i) (S j)))))) (seq 0 n)).
Proof.
  intros Np. unfold total_step. rewrite (repeat_map_seq None n 0).
  set (c := fun (i j : nat) => f i + e j + t (S i) (S j)).
  match goal with |- context [loop_opt ?b _ _ _] =>
    destruct (loop_opt_inv (fun k sc => sc = map (part c k) (seq 0 n)) b n 0 (map (fun _ => None) (seq 0 n))) as (sc & -> & E) end.
  - intros k s Hk ->. rewrite nth_error_map_seq by lia. cbn [bind].
    match goal with |- context [loop_opt ?b _ _ _] =>
      destruct (loop_opt_inv (fun m sc => sc = map (fun j => if (j <? m)%nat then part c (S k) j else part c k j) (seq 0 n)) b n 0 (map (part c k) (seq 0 n))) as (sc & -> & E) end.
    + intros j s Hj ->. rewrite nth_error_map_seq by lia. cbn [bind]. rewrite add_s. cbn [bind]. rewrite !Nat.add_1_r.
      rewrite (f_at tr _ (t (S k) (S j))) by (apply (tr_at n tr t Tr); lia). cbn [bind]. rewrite add_s. cbn [bind].
      eexists. split.
      * apply (acc_exp_step c _ k j); [lia|]. destruct (Nat.ltb_spec j j); [lia|reflexivity].
      * apply map_ext_in. intros i Hi. unfold upd. destruct (Nat.eqb_spec i j) as [->|N].
        -- destruct (Nat.ltb_spec j (S j)); [reflexivity|lia].
        -- destruct (Nat.ltb_spec i j), (Nat.ltb_spec i (S j)); try lia; reflexivity.
    + apply map_ext. reflexivity.
    + exists sc. split; [reflexivity|]. rewrite E. apply map_ext_in. intros j Hj. apply in_seq in Hj. destruct (Nat.ltb_spec j (0 + n)); [reflexivity|lia].
  - apply map_ext. reflexivity.
  - cbn [bind]. subst sc. cbn [Nat.add]. generalize (seq 0 n). intros l. induction l as [|a l IH]; [reflexivity|]. cbn [map each].
    destruct n as [|n']; [lia|]. cbn [part bind] in *. rewrite s_log. cbn [bind]. rewrite IH. reflexivity.
Qed.

(** the weight of everything after a label *)
Fixpoint after (p : nat) (es : list (nat -> R)) : R :=
  match es with [] => exp (t (S p) 0%nat) | e :: es => Rsum n (fun j => exp (e j + t (S p) (S j)) * after j es) end.
Lemma sum_over_app {A} (f : A -> R) l l' : sum_over f (l ++ l') = sum_over f l + sum_over f l'.
Proof. unfold sum_over. induction l as [|a l IH]; cbn; [ring|]. rewrite IH. ring. Qed.
Lemma sum_over_flat {A} (f : A -> R) (g : nat -> list A) m : forall a, sum_over f (flat_map g (seq a m)) = Rsum m (fun j => sum_over f (g (a + j)%nat)).
Proof.
  induction m as [|m IH]; intros a; [reflexivity|]. cbn [seq flat_map]. rewrite sum_over_app, IH, Rsum_S, Nat.add_0_r. f_equal.
  apply Rsum_ext. intros k _. now rewrite Nat.add_succ_r.
Qed.
Lemma sum_over_map {A B} (f : B -> R) (g : A -> B) l : sum_over f (map g l) = sum_over (fun x => f (g x)) l.
Proof. unfold sum_over. now rewrite map_map. Qed.
Lemma sum_over_scale {A} (f : A -> R) c l : sum_over (fun x => c * f x) l = c * sum_over f l.
Proof. unfold sum_over. induction l as [|a l IH]; cbn; [ring|]. rewrite IH. ring. Qed.
Lemma sum_over_ext {A} (f g : A -> R) l : (forall x, In x l -> f x = g x) -> sum_over f l = sum_over g l.
Proof. intros H. unfold sum_over. f_equal. now apply map_ext_in. Qed.

Lemma after_sum es : forall p, after p es = sum_over (fun ys => exp (fold_right Rplus 0 (later_terms t p es ys))) (labellings n (length es)).
Proof.
  induction es as [|e es IH]; intros p; cbn [after length labellings].
  - unfold sum_over. cbn. now rewrite !Rplus_0_r.
  - rewrite sum_over_flat. apply Rsum_ext. intros j _. cbn [Nat.add]. rewrite IH, sum_over_map, <- sum_over_scale. apply sum_over_ext. intros ys _.
    cbn [later_terms fold_right]. rewrite <- exp_plus. f_equal. ring.
Qed.
Lemma after_pos : (0 < n)%nat -> forall es p, 0 < after p es.
Proof.
  intros Np. induction es as [|e es IH]; intros p; cbn [after]; [apply exp_pos|].
  destruct n as [|m]; [lia|]. rewrite Rsum_S. apply Rplus_lt_le_0_compat; [apply Rmult_lt_0_compat; [apply exp_pos|apply IH]|].
  apply rsum_nonneg. intros k _. apply Rlt_le, Rmult_lt_0_compat; [apply exp_pos|apply IH].
Qed.

Lemma separate_col x e : score_col n x e -> separate_vec x = Some (map (fun i => scalar (e i)) (seq 0 n)).
Proof.
  intros H. rewrite separate_vec_value.
  - rewrite (col_data n x e H), map_map. reflexivity.
  - apply H.
  - unfold is_vector. destruct H as (_ & -> & _). apply orb_true_r.
Qed.

Lemma concat_scalars l : l <> [] -> fwd concat_fn (map scalar l) = Some (mkDense (length l) 1 l).
Proof.
  intros N. assert (E : fwd concat_fn (map scalar l) = concat_v (map scalar l)) by (destruct l; [congruence|reflexivity]).
  rewrite E. destruct (concat_spec (map (@scalar R) l)) as [S1 S2].
  assert (D : concat (map data (map (@scalar R) l)) = l) by (clear; induction l as [|a l IH]; [reflexivity|]; cbn; now rewrite IH).
  destruct (concat_v (map scalar l)) as [m|] eqn:Em.
  - destruct (S1 m eq_refl) as (Hd & Hr & Hc & _). destruct m as [r c d]. cbn in *. congruence.
  - exfalso. destruct (proj1 S2 eq_refl) as (v & Hv & X). apply in_map_iff in Hv. destruct Hv as (a & <- & _). discriminate.
Qed.

Lemma total_from xs es : (0 < n)%nat -> List.Forall2 (score_col n) xs es -> forall f,
  (do tot <- fold_opt (fun tot x => do s <- separate_vec x; total_step n tr tot s) xs (map (fun i => scalar (f i)) (seq 0 n));
   do tot <- total_end n tr tot; do c <- fwd concat_fn tot; do s <- fwd reduce_sum_fn [c]; fwd log_fn [s]) =
  Some (scalar (ln (Rsum n (fun i => exp (f i) * after i es)))).
Proof.
  intros Np. induction 1 as [|x e xs es Hx _ IH]; intros f; cbn [fold_opt bind].
  - rewrite total_end_value. cbn [bind]. rewrite <- (map_map (fun i => exp (f i + t (S i) 0%nat)) scalar).
    rewrite concat_scalars by (destruct n; [lia|discriminate]). cbn [bind]. rewrite map_length, seq_length.
    change (mkDense n 1 (map (fun i => exp (f i + t (S i) 0%nat)) (seq 0 n))) with (mkDense n 1 (map (fun i => exp (f i + t (S i) 0%nat)) (seq 0 n))).
    replace (mkDense n 1 (map (fun i => exp (f i + t (S i) 0%nat)) (seq 0 n))) with (flat n 1 (fun i => exp (f i + t (S i) 0%nat))) by (unfold flat; now rewrite Nat.mul_1_r).
    rewrite v_sum. cbn [bind]. rewrite s_log, Nat.mul_1_r. do 3 f_equal. apply Rsum_ext. intros i _. cbn [after]. now rewrite exp_plus.
  - rewrite (separate_col x e Hx). cbn [bind]. rewrite total_step_value by exact Np. cbn [bind]. rewrite IH. do 3 f_equal.
    transitivity (Rsum n (fun j => Rsum n (fun i => exp (f i) * (exp (e j + t (S i) (S j)) * after j es)))).
    + apply Rsum_ext. intros j _. rewrite exp_ln.
      * rewrite <- Rsum_mult_r. apply Rsum_ext. intros i _. rewrite <- Rmult_assoc, <- exp_plus. do 2 f_equal. ring.
      * clear -Np. destruct n as [|m]; [lia|]. rewrite Rsum_S. apply Rplus_lt_le_0_compat; [apply exp_pos|].
        apply rsum_nonneg. intros k _. apply Rlt_le, exp_pos.
    + rewrite Rsum_swap. apply Rsum_ext. intros i _. cbn [after]. now rewrite Rsum_mult_l.
Qed.
Lemma total_value xs es : (0 < n)%nat -> xs <> [] -> List.Forall2 (score_col n) xs es ->
  total_score n tr xs = Some (scalar (ln (sum_over (fun ys => exp (score t es ys)) (labellings n (length es))))).
Proof.
  intros Np Nx F. destruct F as [|x e xs es Hx F]; [congruence|]. cbn [total_score]. rewrite (total_start_value x e Hx). cbn [bind].
  rewrite (total_from xs es Np F). do 3 f_equal. cbn [length labellings]. rewrite sum_over_flat. apply Rsum_ext. intros j _. cbn [Nat.add].
  rewrite sum_over_map, after_sum, <- sum_over_scale. apply sum_over_ext. intros ys _. unfold score. cbn [terms fold_right]. rewrite <- exp_plus. f_equal. ring.
Qed.
End L.

Lemma labellings_spec n k : forall ys, In ys (labellings n k) <-> length ys = k /\ List.Forall (fun y => (y < n)%nat) ys.
Proof.
  induction k as [|k IH]; intros ys; cbn [labellings].
  - split; [intros [<-|[]]; auto|]. intros [H _]. destruct ys; [now left|discriminate].
  - rewrite in_flat_map. split.
    + intros (y & Hy & H). apply in_map_iff in H. destruct H as (zs & <- & H). apply IH in H. apply in_seq in Hy. destruct H as [<- F]. split; [reflexivity|]. constructor; [lia|exact F].
    + intros [L F]. destruct ys as [|y ys]; [discriminate|]. inversion F; subst. exists y. split; [apply in_seq; lia|]. apply in_map. apply IH. split; [now injection L|assumption].
Qed.
Lemma labellings_nodup n k : NoDup (labellings n k).
Proof.
  induction k as [|k IH]; cbn [labellings]; [repeat constructor; auto|].
  pose proof (seq_NoDup n 0) as D. induction D as [|y l Hy _ IHl]; cbn [flat_map]; [constructor|].
  apply NoDup_app'; [|exact IHl|].
  - clear -IH. induction IH as [|z l Hz _ IH]; cbn [map]; constructor; auto. intros H. apply in_map_iff in H. destruct H as (w & E & H). injection E as ->. contradiction.
  - intros ys H1 H2. apply in_map_iff in H1. destruct H1 as (zs & <- & _). apply in_flat_map in H2. destruct H2 as (y' & Hy' & H2).
    apply in_map_iff in H2. destruct H2 as (? & E & _). injection E as -> _. contradiction.
Qed.

Lemma in_sum_over {A} (f : A -> R) l x : (forall y, 0 <= f y) -> In x l -> f x <= sum_over f l.
Proof.
  intros P. unfold sum_over. induction l as [|a l IH]; intros H; [destruct H|]. cbn [map fold_right]. destruct H as [<-|H].
  - assert (0 <= fold_right Rplus 0 (map f l)) by (clear -P; induction l as [|b l IH]; cbn; [lra|]; specialize (P b); lra). lra.
  - specialize (IH H). specialize (P a). lra.
Qed.
Lemma loss_value n tr t xs es ys : (0 < n)%nat -> transitions tr n t -> xs <> [] -> List.Forall2 (score_col n) xs es -> labelling n es ys ->
  negative_log_loss n tr xs (map Z.of_nat ys) =
  Some (scalar (ln (sum_over (fun zs => exp (score t es zs)) (labellings n (length es))) - score t es ys)).
Proof.
  intros Np Tr Nx F L. unfold negative_log_loss. rewrite (gold_value n tr t Tr xs es ys Nx F L). cbn [bind].
  rewrite (total_value n tr t Tr xs es Np Nx F). cbn [bind]. apply s_sub.
Qed.
Lemma loss_nonneg n t es ys : labelling n es ys ->
  0 <= ln (sum_over (fun zs => exp (score t es zs)) (labellings n (length es))) - score t es ys.
Proof.
  intros [L F]. assert (H : exp (score t es ys) <= sum_over (fun zs => exp (score t es zs)) (labellings n (length es))).
  { apply (in_sum_over (fun zs => exp (score t es zs))); [intros; apply Rlt_le, exp_pos|]. apply labellings_spec. auto. }
  apply Rle_trans with (r2 := ln (exp (score t es ys)) - score t es ys); [rewrite ln_exp; lra|].
  apply Rplus_le_compat_r. destruct (Rle_lt_or_eq_dec _ _ H) as [G|G]; [apply Rlt_le, ln_increasing; [apply exp_pos|exact G]|rewrite G; apply Rle_refl].
Qed.
Lemma loss_distribution n t es : (0 < n)%nat -> 
  sum_over (fun ys => exp (- (ln (sum_over (fun zs => exp (score t es zs)) (labellings n (length es))) - score t es ys))) (labellings n (length es)) = 1.
Proof.
  intros Np. set (Z := sum_over (fun zs => exp (score t es zs)) (labellings n (length es))).
  assert (P : 0 < Z).
  { apply Rlt_le_trans with (exp (score t es (repeat 0%nat (length es)))); [apply exp_pos|].
    apply (in_sum_over (fun zs => exp (score t es zs))); [intros; apply Rlt_le, exp_pos|]. apply labellings_spec. rewrite repeat_length. split; [reflexivity|].
    apply List.Forall_forall. intros y Hy. apply repeat_spec in Hy. lia. }
  rewrite (sum_over_ext _ (fun ys => / Z * exp (score t es ys))).
  - rewrite sum_over_scale. fold Z. field. lra.
  - intros ys _. replace (- (ln Z - score t es ys)) with (- ln Z + score t es ys) by ring. rewrite exp_plus, exp_Ropp, exp_ln by exact P. reflexivity.
Qed.
