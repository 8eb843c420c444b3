(** * Proofs about the sentence-state LSTM *)
From Coq Require Import Reals List Arith Bool ZArith Lia Lra.
From Verif Require Import DenseModel DenseSpec DenseLemmas ArithModel GradModel GradSpec GradLemmas GradProofs2 GradProofs4 GradProofs6 GradProofs8 OpsModel OpsSpec OpsLemmas OpsProofs4 AttSpec AttProofs RnnModel RnnSpec RnnProofs SlstmModel SlstmSpec.
Import ListNotations.
Open Scope nat_scope.

Section P.
Variable wide : bool.
Lemma row_sum w x n p k : fits w n p -> is_vec p x -> Rsum (cols w) (fun j => rget w k j * rget x j 0)%R = row_times w x k.
Proof. intros (_ & _ & Cw) Fx. pose proof Fx as (_ & Rx & _). unfold row_times. rewrite Cw, Rx. apply Rsum_ext. intros j Hj. f_equal. now apply (rget_vec p). Qed.
Lemma mul_value w x n p : fits w n p -> is_vec p x -> mul wide w x = Some (vec n (row_times w x)).
Proof.
  intros Fw Fx. unfold mul, mul_fn, fwd, bin. destruct (m_mul_elems wide w x n p 1 Fw Fx) as (m & -> & Em). f_equal. rewrite (elems_vec _ _ _ Em). apply vec_ext. intros k Hk.
  rewrite <- (row_sum w x n p k Fw Fx). destruct Fw as (_ & _ & ->). reflexivity.
Qed.
Lemma mul_fails w x n p q : fits w n p -> is_vec q x -> p <> q -> mul wide w x = None.
Proof. intros (_ & _ & Cw) (_ & Rx & _) H. unfold mul, mul_fn, fwd, bin, m_mul, mat_mul. rewrite Cw, Rx. destruct (Nat.eqb_spec p q); [congruence|reflexivity]. Qed.
Lemma affine2_value b w x u y n p q : is_vec n b -> fits w n p -> is_vec p x -> fits u n q -> is_vec q y ->
  affine2 wide b w x u y = Some (vec n (fun k => entry b k + row_times w x k + row_times u y k)%R).
Proof.
  intros Fb Fw Fx Fu Fy. unfold affine2. assert (M : matched n 1 [w; x; u; y]) by (destruct Fw as (? & ? & ?), Fx as (? & ? & ?), Fu as (? & ? & ?), Fy as (? & ? & ?); cbn; repeat split; auto; congruence).
  destruct (affine_forward wide b [w; x; u; y] n 1 ltac:(discriminate) Fb M) as (z & -> & Ez). f_equal. rewrite (elems_vec _ _ _ Ez). apply vec_ext. intros k Hk. cbn [psum].
  rewrite (rget_vec n), (row_sum w x n p), (row_sum u y n q) by auto. ring.
Qed.
Lemma affine1_value b w x n p : is_vec n b -> fits w n p -> is_vec p x -> fwd (affine_fn wide) [b; w; x] = Some (vec n (fun k => entry b k + row_times w x k)%R).
Proof.
  intros Fb Fw Fx. assert (M : matched n 1 [w; x]) by (destruct Fw as (? & ? & ?), Fx as (? & ? & ?); cbn; repeat split; auto; congruence).
  destruct (affine_forward wide b [w; x] n 1 ltac:(discriminate) Fb M) as (z & -> & Ez). f_equal. rewrite (elems_vec _ _ _ Ez). apply vec_ext. intros k Hk. cbn [psum].
  rewrite (rget_vec n), (row_sum w x n p) by auto. ring.
Qed.
Lemma gate_sum_value h d n v ctx g x : h4_fits h d n -> is_vec (n * 3) ctx ->
  gate_sum wide h ctx (vec n (row_times v g)) (vec n (row_times (h4_u h) x)) = Some (vec n (gate4 h v ctx g x)).
Proof.
  intros (Fw & Fu & Fv & Fb) Fc. unfold gate_sum. rewrite (mul_value _ _ n (n * 3)) by auto. cbn [bind ag_sum fold_nodes fold_opt].
  rewrite (is_vec_self n _ Fb) at 1. csteps. reflexivity.
Qed.
Lemma concat3 a b c n : is_vec n a -> is_vec n b -> is_vec n c -> fwd concat_fn [a; b; c] = Some (column (data a ++ data b ++ data c)).
Proof.
  intros Fa Fb Fc. destruct (concat_fwd [a; b; c]) as (m & E & (W & Rm & C) & D); [cbn [forallb]; now rewrite (fits_vec n a Fa), (fits_vec n b Fb), (fits_vec n c Fc)|].
  unfold concat_fn, fwd. rewrite E. f_equal. cbn [map concat] in *. rewrite app_nil_r in *. destruct m as [r cc l]. cbn in *. subst. reflexivity.
Qed.
Lemma column_vec l n : length l = n -> is_vec n (column l).
Proof. intros <-. repeat split. unfold wf, column. cbn. lia. Qed.

Section M.
Variables (m : slstm) (n : nat).
Hypothesis Fm : slstm_fits m n n.
Notation vu := (h4_u (sl_act m)).
Lemma ux_value x : is_vec n x -> compute_ux1 wide m x = Some (mkSeven (vec n (row_times (h4_u (sl_input m)) x)) (vec n (row_times (h4_u (sl_left m)) x)) (vec n (row_times (h4_u (sl_right m)) x))
  (vec n (row_times (h4_u (sl_cell m)) x)) (vec n (row_times (h4_u (sl_sent m)) x)) (vec n (row_times (h4_u (sl_output m)) x)) (vec n (row_times (h4_u (sl_act m)) x))).
Proof.
  intros Fx. destruct Fm as ((?&?&?&?)&(?&?&?&?)&(?&?&?&?)&(?&?&?&?)&(?&?&?&?)&(?&?&?&?)&(?&?&?&?)&_). unfold compute_ux1.
  repeat (rewrite (mul_value _ x n n) by auto; cbn [bind]). reflexivity.
Qed.
Lemma vg_value g : is_vec n g -> compute_vg wide m g = Some (mkSeven (vec n (row_times (h4_v (sl_input m)) g)) (vec n (row_times (h4_v (sl_left m)) g)) (vec n (row_times (h4_v (sl_right m)) g))
  (vec n (row_times (h4_v (sl_cell m)) g)) (vec n (row_times (h4_v (sl_sent m)) g)) (vec n (row_times (h4_v (sl_output m)) g)) (vec n (row_times (h4_u (sl_act m)) g))).
Proof.
  intros Fx. destruct Fm as ((?&?&?&?)&(?&?&?&?)&(?&?&?&?)&(?&?&?&?)&(?&?&?&?)&(?&?&?&?)&(?&?&?&?)&_). unfold compute_vg.
  repeat (rewrite (mul_value _ g n n) by auto; cbn [bind]). reflexivity.
Qed.
Lemma kth_vec l i : List.Forall (is_vec n) l -> i < length l -> is_vec n (kth l i).
Proof. intros F H. rewrite Forall_forall in F. apply F. now apply nth_In. Qed.
Lemma nth_kth l i : i < length l -> nth_error l i = Some (kth l i).
Proof. intros H. now apply nth_error_nth'. Qed.
Lemma node_value xs h c g i ux vg : List.Forall (is_vec n) xs -> List.Forall (is_vec n) h -> List.Forall (is_vec n) c -> is_vec n g -> length h = length xs -> length c = length xs -> i < length xs ->
  compute_ux1 wide m (kth xs i) = Some ux -> compute_vg wide m g = Some vg ->
  process_node wide m ux vg i h c g = Some (new_hidden vu m n xs h c g i, new_cell vu m n xs h c g i).
Proof.
  intros Fx Fh Fc Fg Lh Lc Hi Eux Evg. rewrite ux_value in Eux by (apply kth_vec; auto; lia). rewrite vg_value in Evg by auto. injection Eux as <-. injection Evg as <-.
  assert (FF := Fm). destruct FF as (F1&F2&F3&F4&F5&F6&F7&_&_&_&Fs&Fe&_). unfold process_node.
  assert (El : (if i =? 0 then Some (sl_start m, sl_start m) else do h0 <- nth_error h (i - 1); do c0 <- nth_error c (i - 1); Some (h0, c0)) = Some (left_of (sl_start m) h i, left_of (sl_start m) c i)).
  { unfold left_of. destruct (Nat.eqb_spec i 0); [reflexivity|]. rewrite !nth_kth by lia. reflexivity. }
  assert (Er : (if length h - 1 <? i + 1 then Some (sl_end m, sl_end m) else do h0 <- nth_error h (i + 1); do c0 <- nth_error c (i + 1); Some (h0, c0)) = Some (right_of (sl_end m) h i, right_of (sl_end m) c i)).
  { unfold right_of. rewrite Lc, <- Lh. destruct (Nat.ltb_spec (length h - 1) (i + 1)), (Nat.leb_spec (length h) (i + 1)); try lia; [reflexivity|]. rewrite !nth_kth by lia. reflexivity. }
  rewrite El. cbn [bind]. rewrite Er. cbn [bind fst snd]. rewrite !nth_kth by lia. cbn [bind].
  assert (FL : forall s l, is_vec n s -> List.Forall (is_vec n) l -> length l = length xs -> is_vec n (left_of s l i)) by (intros s l ? ? ?; unfold left_of; destruct (Nat.eqb_spec i 0); auto; apply kth_vec; auto; lia).
  assert (FR : forall s l, is_vec n s -> List.Forall (is_vec n) l -> length l = length xs -> is_vec n (right_of s l i)) by (intros s l ? ? ?; unfold right_of; destruct (Nat.leb_spec (length l) (i + 1)); auto; apply kth_vec; auto; lia).
  rewrite (concat3 _ _ _ n) by (auto; apply kth_vec; auto; lia). cbn [bind]. fold (window m h i).
  assert (Fw : is_vec (n * 3) (window m h i)). { apply column_vec. rewrite !app_length. rewrite (fits_len _ _ _ (FL _ _ Fs Fh Lh)), (fits_len _ _ _ (FR _ _ Fe Fh Lh)), (fits_len _ _ _ (kth_vec h i Fh ltac:(lia))). lia. }
  cbn [v_i v_l v_r v_f v_s v_o v_u]. set (X := kth xs i) in *.
  assert (Z : forall (v : mat), is_vec n v -> forall f, fwd prod_fn [vec n f; v] = Some (vec n (fun k => f k * entry v k)%R)) by (intros v Fv f; rewrite (is_vec_self n v Fv) at 1; apply c_prod).
  rewrite (gate_sum_value (sl_input m) n n) by auto; cbn [bind]; rewrite c_sigmoid; cbn [bind].
  rewrite (gate_sum_value (sl_left m) n n) by auto; cbn [bind]; rewrite c_sigmoid; cbn [bind].
  rewrite (gate_sum_value (sl_right m) n n) by auto; cbn [bind]; rewrite c_sigmoid; cbn [bind].
  rewrite (gate_sum_value (sl_cell m) n n) by auto; cbn [bind]; rewrite c_sigmoid; cbn [bind].
  rewrite (gate_sum_value (sl_sent m) n n) by auto; cbn [bind]; rewrite c_sigmoid; cbn [bind].
  rewrite (gate_sum_value (sl_output m) n n) by auto; cbn [bind]; rewrite c_sigmoid; cbn [bind].
  rewrite (gate_sum_value (sl_act m) n n) by auto; cbn [bind]; rewrite c_tanh; cbn [bind].
  rewrite (Z (left_of (sl_start m) c i)) by auto. cbn [bind]. rewrite (Z (kth c i)) by (apply kth_vec; auto; lia). cbn [bind]. rewrite (Z (right_of (sl_end m) c i)) by auto. cbn [bind]. rewrite (Z g) by auto. cbn [bind].
  rewrite c_prod. cbn [bind ag_sum fold_nodes fold_opt]. csteps. f_equal. f_equal.
  unfold new_hidden. apply vec_ext. intros k Hk. f_equal. f_equal. unfold new_cell. rewrite entry_vec by auto. reflexivity.
Qed.
Lemma hidden_value (xs h c : list mat) g uxs vg : List.Forall (is_vec n) xs -> List.Forall (is_vec n) h -> List.Forall (is_vec n) c -> is_vec n g -> length h = length xs -> length c = length xs ->
  each (compute_ux1 wide m) xs = Some uxs -> compute_vg wide m g = Some vg ->
  update_hidden wide m uxs vg h c g = Some (map (fun i => (new_hidden vu m n xs h c g i, new_cell vu m n xs h c g i)) (seq 0 (length xs))).
Proof.
  intros Fx Fh Fc Fg Lh Lc Eux Evg. unfold update_hidden. rewrite Lh. apply each_map. intros i Hi. apply in_seq in Hi.
  destruct (each_nth (compute_ux1 wide m) xs) as (us & E & L & P). { intros j a Ha. rewrite ux_value; [discriminate|]. rewrite Forall_forall in Fx. apply Fx. eapply nth_error_In, Ha. }
  rewrite E in Eux. injection Eux as <-. pose proof (P i (kth xs i) (nth_kth xs i ltac:(lia))) as Q.
  destruct (nth_error us i) as [ux|] eqn:Eu; [|apply nth_error_None in Eu; lia]. cbn [bind]. apply node_value; auto. lia.
Qed.
Lemma batch_sum_kth h k : batch_sum h k = Rsum (length h) (fun i => entry (kth h i) k).
Proof. induction h as [|x h IH]; [reflexivity|]. cbn [batch_sum fold_right length]. fold (batch_sum h k). rewrite IH. now rewrite Rsum_S. Qed.
Lemma sum_loop (f : nat -> mat) (c : list mat) : List.Forall (is_vec n) c -> forall (hg : list (nat -> R)) s0,
  length hg = length c ->
  fold_opt (fun s '(h, c) => do p <- fwd prod_fn [h; c]; do s <- ag_add s p; Some (Some s)) (combine (map (vec n) hg) c) (Some (vec n s0)) =
  Some (Some (vec n (fun k => s0 k + Rsum (length c) (fun i => nth i hg (fun _ => 0%R) k * entry (kth c i) k))%R)).
Proof.
  intros F. induction F as [|x c Fx F IH]; intros [|g hg] s0 L; try discriminate; cbn [map combine fold_opt].
  - do 2 f_equal. apply vec_ext. intros k Hk. unfold Rsum. cbn. ring.
  - rewrite (is_vec_self n x Fx) at 1. rewrite c_prod. cbn [bind ag_add]. rewrite c_add. cbn [bind]. rewrite IH by (cbn in L; lia). do 2 f_equal. apply vec_ext. intros k Hk. cbn [length]. rewrite Rsum_S. cbn [nth kth]. now rewrite Rplus_assoc.
Qed.
Lemma sentence_value (xs h c : list mat) g : List.Forall (is_vec n) h -> List.Forall (is_vec n) c -> is_vec n g -> length h = length xs -> length c = length xs -> xs <> [] ->
  update_sentence wide m h c g = Some (new_sentence m n h c g).
Proof.
  intros Fh Fc Fg Lh Lc Hne. destruct Fm as (_&_&_&_&_&_&_&(Sw&Su&Sb)&(Iw&Iu&Ib)&(Ow&Ou&Ob)&_). unfold update_sentence.
  assert (Hh : h <> []) by (destruct h, xs; cbn in *; congruence).
  rewrite (mean_value n 1 h) by auto. cbn [bind]. rewrite <- (vec_flat n).
  assert (Ea : vec n (fun k => batch_sum h k / INR (length h))%R = average h n) by (apply vec_ext; intros k Hk; now rewrite batch_sum_kth). rewrite Ea. clear Ea.
  rewrite (affine2_value _ _ _ _ _ n n n) by (auto; apply vec_fits). cbn [bind]. rewrite c_sigmoid. cbn [bind]. rewrite (affine2_value _ _ _ _ _ n n n) by (auto; apply vec_fits). cbn [bind]. rewrite c_sigmoid. cbn [bind].
  rewrite (affine1_value _ _ _ n n) by auto. cbn [bind].
  pose (fr := fun (y : mat) (k : nat) => logistic (gate3 (sl_nl_input m) g y k)). set (hg := map fr h).
  assert (E : each (fun y => do uh <- mul wide (h3_u (sl_nl_input m)) y; do a <- fwd add_fn [vec n (fun k => entry (h3_b (sl_nl_input m)) k + row_times (h3_w (sl_nl_input m)) g k)%R; uh]; fwd sigmoid_fn [a]) h = Some (map (vec n) hg)).
  { unfold hg. rewrite map_map. apply each_map. intros y Hy. rewrite Forall_forall in Fh. rewrite (mul_value _ y n n) by auto. cbn [bind]. rewrite c_add. cbn [bind]. rewrite c_sigmoid. reflexivity. }
  rewrite E. cbn [bind]. assert (Lg : length hg = length c) by (unfold hg; rewrite map_length; lia).
  assert (Sum : fold_opt (fun s '(h, c) => do p <- fwd prod_fn [h; c]; do s <- ag_add s p; Some (Some s)) (combine (map (vec n) hg) c) None =
    Some (Some (vec n (fun k => Rsum (length h) (fun i => logistic (gate3 (sl_nl_input m) g (kth h i) k) * entry (kth c i) k))%R))).
  { assert (R : forall k, Rsum (length c) (fun i => nth i hg (fun _ => 0%R) k * entry (kth c i) k)%R = Rsum (length h) (fun i => logistic (gate3 (sl_nl_input m) g (kth h i) k) * entry (kth c i) k)%R).
    { intros k. replace (length h) with (length c) by lia. apply Rsum_ext. intros i Hi. f_equal. rewrite (nth_indep hg _ (fr (mkDense 0 0 []))) by lia. unfold hg. now rewrite map_nth. }
    destruct Fc as [|x c Fx Fc]; [destruct xs; cbn in *; congruence|]. destruct hg as [|g0 hg']; [discriminate|]. cbn [map combine fold_opt]. rewrite (is_vec_self n x Fx) at 1. rewrite c_prod. cbn [bind ag_add].
    rewrite vec_flat, v_copy, <- (vec_flat n). cbn [bind]. rewrite (sum_loop (fun _ => x)) by (auto; cbn in Lg; lia). do 2 f_equal. apply vec_ext. intros k Hk. rewrite <- R. cbn [length]. now rewrite Rsum_S. }
  rewrite Sum. cbn [bind].
  assert (Z : forall f, fwd prod_fn [vec n f; g] = Some (vec n (fun k => f k * entry g k)%R)) by (intros f; rewrite (is_vec_self n g Fg) at 1; apply c_prod). rewrite Z. cbn [bind]. csteps. reflexivity.
Qed.
Lemma map_vecs (f : nat -> mat) l : (forall i, is_vec n (f i)) -> List.Forall (is_vec n) (map f l).
Proof. intros H. apply Forall_forall. intros y Hy. apply in_map_iff in Hy. destruct Hy as (i & <- & _). apply H. Qed.
Lemma state_fits xs t : let '(h, c, g) := sentence vu m n xs t in List.Forall (is_vec n) h /\ List.Forall (is_vec n) c /\ is_vec n g /\ length h = length xs /\ length c = length xs.
Proof.
  destruct t; cbn [sentence].
  - destruct Fm as (_&_&_&_&_&_&_&_&_&_&_&_&Fi). rewrite repeat_length. repeat split; auto; try (apply Forall_forall; intros y Hy; apply repeat_spec in Hy; subst; auto); apply Fi.
  - destruct (sentence vu m n xs t) as [[h c] g]. rewrite !map_length, seq_length. split; [apply map_vecs; intros; apply vec_fits|]. split; [apply map_vecs; intros; apply vec_fits|]. split; [apply vec_fits|auto].
Qed.
Lemma rounds_value xs uxs : List.Forall (is_vec n) xs -> xs <> [] -> each (compute_ux1 wide m) xs = Some uxs -> forall k t,
  (let '(h, c, g) := sentence vu m n xs t in rounds wide m uxs k h c g) = Some (fst (fst (sentence vu m n xs (t + k)))).
Proof.
  intros Fx Hne Eux. induction k as [|k IH]; intros t.
  - rewrite Nat.add_0_r. destruct (sentence vu m n xs t) as [[h c] g]. reflexivity.
  - pose proof (state_fits xs t) as FS. specialize (IH (S t)). cbn [sentence] in IH. rewrite Nat.add_succ_r. replace (S (t + k)) with (S t + k) by lia.
    destruct (sentence vu m n xs t) as [[h c] g] eqn:Es. destruct FS as (Fh & Fc & Fg & Lh & Lc). cbn [rounds]. pose proof (vg_value g Fg) as Ev. rewrite Ev. cbn [bind].
    rewrite (hidden_value xs h c g uxs _ Fx Fh Fc Fg Lh Lc Eux Ev). cbn [bind]. rewrite (sentence_value xs) by auto. cbn [bind]. rewrite !map_map. cbn [fst snd]. exact IH.
Qed.
Lemma slstm_value xs steps : sl_steps m = S steps -> List.Forall (is_vec n) xs -> xs <> [] -> slstm_forward wide m xs = Some (fst (fst (sentence vu m n xs steps))).
Proof.
  intros Hs Fx Hne. unfold slstm_forward. rewrite Hs. assert (E : exists uxs, each (compute_ux1 wide m) xs = Some uxs).
  { destruct (each_nth (compute_ux1 wide m) xs) as (us & E & _); [|eauto]. intros j a Ha. rewrite ux_value; [discriminate|]. rewrite Forall_forall in Fx. apply Fx. eapply nth_error_In, Ha. }
  destruct E as (uxs & E). rewrite E. cbn [bind]. exact (rounds_value xs uxs Fx Hne E steps 0).
Qed.
End M.

(** With other sizes the second round cannot start. *)
Lemma slstm_fails m d n xs steps : slstm_fits m d n -> d <> n -> sl_steps m = S (S steps) -> slstm_forward wide m xs = None.
Proof.
  intros (F1&F2&F3&F4&F5&F6&F7&_&_&_&_&_&Fi) Hd Hs. unfold slstm_forward. rewrite Hs. destruct (each (compute_ux1 wide m) xs) as [uxs|]; [|reflexivity]. cbn [bind rounds].
  assert (E : compute_vg wide m (sl_init m) = None); [|now rewrite E]. unfold compute_vg.
  destruct F1 as (_&_&?&_), F2 as (_&_&?&_), F3 as (_&_&?&_), F4 as (_&_&?&_), F5 as (_&_&?&_), F6 as (_&_&?&_), F7 as (_&?&_&_).
  rewrite !(mul_value _ (sl_init m) n n) by auto. cbn [bind]. now rewrite (mul_fails _ (sl_init m) n d n).
Qed.
End P.
