(** * Proofs about attention *)
From Coq Require Import Reals List Arith Bool ZArith Lia Lra.
From Verif Require Import DenseModel DenseSpec DenseLemmas DenseProofs DenseProofs2 ArithModel ArithSpec ArithProofs GradModel GradSpec GradLemmas GradProofs GradProofs2 GradProofs6 GradProofs8 GradProofs9 GradProofs10 GradProofs13 OpsModel OpsSpec OpsLemmas OpsProofs OpsProofs4 CrfSpec CrfProofs2 AttModel AttSpec.
Import ListNotations.
Open Scope nat_scope.

(** ** Columns *)
Lemma nth_mapseq {T} (z : T) f n k : k < n -> nth k (map f (seq 0 n)) z = f k.
Proof. intros H. rewrite (nth_indep _ z (f 0)) by (rewrite map_length, seq_length; auto). rewrite map_nth, seq_nth by auto. reflexivity. Qed.
Lemma vec_flat n f : vec n f = flat n 1 f.
Proof. unfold vec, column, flat. now rewrite map_length, seq_length, Nat.mul_1_r. Qed.
Lemma vec_fits n f : is_vec n (vec n f).
Proof. rewrite vec_flat. apply flat_fits. Qed.
Lemma entry_vec n f k : k < n -> entry (vec n f) k = f k.
Proof. intros H. rewrite vec_flat. apply flat_nth. lia. Qed.
Lemma size_vec n f : size (vec n f) = n.
Proof. unfold size, vec. cbn. now rewrite map_length, seq_length. Qed.
Lemma vec_ext n f g : (forall k, k < n -> f k = g k) -> vec n f = vec n g.
Proof. intros H. rewrite !vec_flat. apply flat_ext. intros. apply H. lia. Qed.
Lemma is_vec_self n x : is_vec n x -> x = vec n (entry x).
Proof. intros H. rewrite vec_flat. now apply flat_self. Qed.
Lemma elems_vec m n h : elems m n 1 h -> m = vec n (fun i => h i 0).
Proof. intros H. rewrite vec_flat. apply (elems_flat _ _ _ _ _ H). intros i j Hi Hj. f_equal; lia. Qed.
Lemma rget_vec n x i : is_vec n x -> i < n -> rget x i 0 = entry x i.
Proof. intros H Hi. rewrite (rget_flat x n 1) by (auto; lia). unfold entry. f_equal. lia. Qed.
Lemma is_vec_size n x : is_vec n x -> size x = n.
Proof. intros H. unfold size. rewrite (fits_len _ _ _ H). lia. Qed.

Section P.
Variable wide : bool.

Lemma layer_value n d m x : linear_fits m n d -> is_vec d x -> fwd (affine_fn wide) [lin_b m; lin_w m; x] = Some (layer n m x).
Proof.
  intros [Fw Fb] Fx. destruct (affine_forward wide (lin_b m) [lin_w m; x] n 1) as (y & E & Ey); [discriminate|exact Fb| |].
  - destruct Fw as (? & ? & ?), Fx as (? & ? & ?). cbn. repeat split; auto. congruence.
  - rewrite E. f_equal. rewrite (elems_vec _ _ _ Ey). apply vec_ext. intros k Hk. cbn [psum]. rewrite (rget_vec n) by auto.
    destruct Fw as (_ & _ & Cw), Fx as (Wx & Rx & Cx). rewrite Cw, Rx. rewrite Rplus_0_r. f_equal. apply Rsum_ext. intros j Hj. f_equal. apply (rget_vec d); [repeat split; auto|auto].
Qed.
Lemma layers_value n d m xs : linear_fits m n d -> List.Forall (is_vec d) xs -> linear_forward wide m xs = Some (map (layer n m) xs).
Proof. intros H F. apply each_map. intros x Hx. rewrite Forall_forall in F. apply (layer_value n d); auto. Qed.

(** ** Rows *)
Definition rows_of (c : nat) (xs : list mat) : mat := mkDense (length xs) c (concat (map data xs)).
Lemma vecs_of c xs : List.Forall (is_vec c) xs -> vectors_of c xs.
Proof.
  intros H. eapply Forall_impl; [|exact H]. intros x Hx. pose proof (fits_len _ _ _ Hx). destruct Hx as (A & B & C). repeat split; auto; [|lia].
  unfold is_vector. rewrite C. apply orb_true_r.
Qed.
Lemma concat_len c xs : List.Forall (is_vec c) xs -> length (concat (map data xs)) = length xs * c.
Proof. intros H. apply uniform_len. eapply Forall_impl; [|exact (vecs_of c xs H)]. intros a (_ & _ & L). exact L. Qed.
Lemma rows_fits c xs : List.Forall (is_vec c) xs -> fits (rows_of c xs) (length xs) c.
Proof. intros H. apply fits_mk. now apply concat_len. Qed.
Lemma concat_nth c (xs : list mat) : List.Forall (is_vec c) xs -> forall i j, i < length xs -> j < c -> nth (i * c + j) (concat (map data xs)) 0%R = entry (kth xs i) j.
Proof.
  induction 1 as [|x xs Hx H IH]; intros i j Hi Hj; [cbn in Hi; lia|]. cbn [map concat]. pose proof (fits_len _ _ _ Hx) as L.
  destruct i as [|i]; cbn [length] in *.
  - rewrite app_nth1 by lia. reflexivity.
  - rewrite app_nth2 by nia. rewrite L. replace (S i * c + j - c * 1) with (i * c + j) by nia. rewrite IH by lia. reflexivity.
Qed.
Lemma rows_rget c xs i j : List.Forall (is_vec c) xs -> i < length xs -> j < c -> rget (rows_of c xs) i j = entry (kth xs i) j.
Proof. intros F Hi Hj. rewrite (rget_flat _ (length xs) c) by (auto using rows_fits). now apply concat_nth. Qed.
Lemma stack_value c xs : xs <> [] -> List.Forall (is_vec c) xs -> fwd stack_fn xs = Some (rows_of c xs).
Proof.
  intros Hne F. destruct (stack_gives xs c Hne (vecs_of c xs F)) as (y & E & Ey). rewrite E. f_equal.
  apply (mat_ext _ _ _ _ _ _ Ey (fits_elems _ _ _ (rows_fits c xs F))). intros i j Hi Hj. now rewrite rows_rget.
Qed.
Lemma append_value c xs ys : List.Forall (is_vec c) xs -> List.Forall (is_vec c) ys -> fwd append_rows_fn (rows_of c xs :: ys) = Some (rows_of c (xs ++ ys)).
Proof.
  intros F G. destruct (append_rows_gives (rows_of c xs) ys) as (y & E & Ey); [apply (rows_fits c xs F)|exact (vecs_of c ys G)|]. rewrite E. f_equal.
  assert (FG : List.Forall (is_vec c) (xs ++ ys)) by (apply Forall_app; auto).
  pose proof (fits_elems _ _ _ (rows_fits c (xs ++ ys) FG)) as R. rewrite app_length in R.
  apply (mat_ext _ _ _ _ _ _ Ey R). intros i j Hi Hj. cbn [rows cols rows_of] in Hi, Hj |- *. rewrite (rows_rget c (xs ++ ys)); [|auto|rewrite app_length; lia|auto]. unfold kth.
  destruct (Nat.ltb_spec i (length xs)).
  - rewrite rows_rget by auto. now rewrite app_nth1 by auto.
  - now rewrite app_nth2 by auto.
Qed.

(** ** Softmax with -infinity *)
Lemma column_const {T} (z : T) op l n : mat_const z op (column l) n = column (map (fun v => op v n) l).
Proof.
  unfold mat_const, const_kernel, column. cbn [rows cols data]. rewrite (loop_all z (fun i _ => op (nth i l z) n)); [|reflexivity|now rewrite repeat_length].
  rewrite map_length. f_equal. apply (List.nth_ext _ _ (op z n) (op z n)); [now rewrite !map_length, seq_length|]. rewrite map_length, seq_length. intros k Hk. rewrite (map_nth (fun v => op v n)).
  rewrite (nth_indep _ _ z) by (rewrite map_length, seq_length; auto). rewrite (nth_indep (map _ _) z ((fun p => op (nth p l z) n) 0)) by (rewrite map_length, seq_length; auto).
  rewrite (map_nth (fun p => op (nth p l z) n)). now rewrite seq_nth by auto.
Qed.
Lemma column_const_in {T} (z : T) op l n : mat_const_in_place z op (column l) n = column (map (fun v => op v n) l).
Proof.
  unfold mat_const_in_place, const_kernel_in_place, column. cbn [rows cols data]. rewrite (loop_all z (fun i v => op v n)); [|reflexivity|reflexivity].
  rewrite map_length. f_equal. apply (List.nth_ext _ _ (op z n) (op z n)); [now rewrite !map_length, seq_length|]. rewrite map_length, seq_length. intros k Hk. rewrite (map_nth (fun v => op v n)).
  rewrite (nth_indep (map _ _) _ ((fun p => op (nth p l z) n) 0)) by (rewrite map_length, seq_length; auto).
  rewrite (map_nth (fun p => op (nth p l z) n)). now rewrite seq_nth by auto.
Qed.
Lemma column_unary {T} (z : T) f l : mat_unary z f (column l) = column (map f l).
Proof.
  unfold mat_unary, column. cbn [rows cols data]. rewrite (loop_all z (fun i _ => f (nth i l z))); [|reflexivity|now rewrite repeat_length].
  rewrite map_length. f_equal. apply (List.nth_ext _ _ (f z) (f z)); [now rewrite !map_length, seq_length|]. rewrite map_length, seq_length. intros k Hk. rewrite (map_nth f).
  rewrite (nth_indep (map _ _) _ ((fun p => f (nth p l z)) 0)) by (rewrite map_length, seq_length; auto).
  rewrite (map_nth (fun p => f (nth p l z))). now rewrite seq_nth by auto.
Qed.
Lemma column_binary {T} (z : T) op (f g : nat -> T) n : mat_binary z op (column (map f (seq 0 n))) (column (map g (seq 0 n))) = Some (column (map (fun k => op (f k) (g k)) (seq 0 n))).
Proof.
  unfold mat_binary, binary_kernel, column, same_dims. cbn [rows cols data]. rewrite !map_length, seq_length, !Nat.eqb_refl. cbn [andb].
  rewrite (loop_all z (fun i _ => op (nth i (map f (seq 0 n)) z) (nth i (map g (seq 0 n)) z))); [|reflexivity|rewrite repeat_length; lia].
  do 2 f_equal. apply map_ext_in. intros k Hk. apply in_seq in Hk. rewrite (nth_mapseq z f), (nth_mapseq z g) by lia. reflexivity.
Qed.
Lemma num_sum n f : mat_sum (Some 0%R) num_add (column (map (fun k => Some (f k)) (seq 0 n))) = Some (Rsum n f).
Proof.
  unfold mat_sum, sum_kernel, column. cbn [data]. induction n as [|n IH]; [reflexivity|].
  rewrite seq_S, map_app, fold_left_app, IH, Rsum_r. reflexivity.
Qed.
Lemma num_softmax_value n i (s : nat -> R) : i < n ->
  num_softmax (column (T := num) (map (fun k => if k <=? i then Some (s k) else None) (seq 0 n))) =
  Some (column (T := num) (map (fun k => Some (if k <=? i then exp (s k) / Rsum (S i) (fun l => exp (s l)) else 0)%R) (seq 0 n))).
Proof.
  intros Hi. set (x := column (T := num) (map (fun k => if k <=? i then Some (s k) else None) (seq 0 n))). unfold num_softmax. assert (is_vector x = true) as -> by (unfold is_vector; cbn; apply orb_true_r). cbn [negb].
  destruct (max_min_spec num_lt ext_lt_order x) as (M & _ & N & _).
  assert (I0 : In (Some (s 0)) (data x)) by (apply in_map_iff; exists 0; split; [reflexivity|apply in_seq; lia]).
  destruct (mat_max num_lt x) as [[mx|]|]; [|destruct (M None eq_refl) as [_ C]; specialize (C _ I0); discriminate|rewrite (proj1 N eq_refl) in I0; destruct I0].
  unfold sub_scalar. unfold x. rewrite column_const. cbn [num_opp option_map]. cbv zeta. match goal with |- context [cols (column ?l) =? 1] => change (cols (column l) =? 1) with true end. cbn iota. cbn [bind]. cbv beta.
  rewrite column_unary, !map_map.
  match goal with |- context [column (map ?f (seq 0 n))] => assert (E : map f (seq 0 n) = map (fun k => Some (if k <=? i then exp (s k) * exp (- mx) else 0)%R) (seq 0 n)) end.
  { apply map_ext. intros k. destruct (k <=? i); cbn; [now rewrite exp_plus|reflexivity]. }
  rewrite E. rewrite num_sum. cbn [bind]. f_equal. rewrite column_const_in, map_map. f_equal. apply map_ext. intros k. unfold num_mul, num_lift2. f_equal.
  assert (Sum : Rsum n (fun k => if k <=? i then exp (s k) * exp (- mx) else 0)%R = (Rsum (S i) (fun l => exp (s l)) * exp (- mx))%R).
  { replace n with (S i + (n - S i)) by lia. rewrite Rsum_split. rewrite (Rsum_0 (n - S i)), Rplus_0_r; [|intros l Hl; destruct (Nat.leb_spec (S i + l) i); [lia|reflexivity]].
    rewrite <- Rsum_mult_r. apply Rsum_ext. intros l Hl. destruct (Nat.leb_spec l i); [reflexivity|lia]. }
  rewrite Sum. destruct (k <=? i); [|ring]. pose proof (exp_pos (- mx)).
  assert (0 < Rsum (S i) (fun l => exp (s l)))%R by (apply Rlt_le_trans with (exp (s 0)); [apply exp_pos|apply (Rsum_one (S i) (fun l => exp (s l)) 0); [lia|intros; left; apply exp_pos]]).
  field. split; apply Rgt_not_eq; assumption.
Qed.
Lemma mask_value cur len : causal_mask cur len = map (fun k => if k <=? cur then Some 0%R else None) (seq 0 len).
Proof.
  unfold causal_mask.
  assert (X : forall m, m <= len - (cur + 1) -> fold_left (fun l k => put l k None) (seq (cur + 1) m) (repeat (Some 0%R) len) = map (fun k => if (k <=? cur) || (cur + m <? k) then Some 0%R else None) (seq 0 len)).
  { induction m as [|m IH]; intros Hm.
    - cbn [seq fold_left]. apply (List.nth_ext _ _ (Some 0%R) (Some 0%R)); [now rewrite repeat_length, map_length, seq_length|]. rewrite repeat_length. intros k Hk.
      rewrite (nth_indep (map _ _) _ ((fun k => if (k <=? cur) || (cur + 0 <? k) then Some 0%R else None) 0)) by (rewrite map_length, seq_length; auto).
      rewrite (map_nth (fun k => if (k <=? cur) || (cur + 0 <? k) then Some 0%R else None)), seq_nth by auto. rewrite List.nth_repeat. rewrite Nat.add_0_l.
      destruct (Nat.leb_spec k cur), (Nat.ltb_spec (cur + 0) k); try lia; reflexivity.
    - rewrite seq_S, fold_left_app, IH by lia. cbn [fold_left].
      apply (List.nth_ext _ _ (Some 0%R) (Some 0%R)); [now rewrite put_length, !map_length, seq_length|]. rewrite put_length, map_length, seq_length. intros k Hk.
      rewrite (put_nth (Some 0%R)) by (rewrite map_length, seq_length; lia). rewrite !nth_mapseq by lia. 
      destruct (Nat.eqb_spec (cur + 1 + m) k).
      + subst k. destruct (Nat.leb_spec (cur + 1 + m) cur), (Nat.ltb_spec (cur + S m) (cur + 1 + m)); try lia; reflexivity.
      + destruct (Nat.leb_spec k cur), (Nat.ltb_spec (cur + m) k), (Nat.ltb_spec (cur + S m) k); try lia; reflexivity. }
  rewrite X by lia. apply map_ext_in. intros k Hk. apply in_seq in Hk. destruct (Nat.leb_spec k cur), (Nat.ltb_spec (cur + (len - (cur + 1))) k); try lia; reflexivity.
Qed.

(** ** Attention over given keys and values *)
Definition seen_by (masked : bool) (i : nat) {A} (l : list A) : list A := if masked then firstn (S i) l else l.
Definition weight_vec (s : R) (q : mat) (ks : list mat) (n : nat) : mat := vec n (fun j => if j <? length ks then weight s q ks j else 0%R).

Lemma kth_firstn ks m j : j < m -> kth (firstn m ks) j = kth ks j.
Proof.
  intros H. unfold kth. destruct (Nat.lt_ge_cases j (length ks)) as [L|L].
  - rewrite <- (firstn_skipn m ks) at 2. rewrite app_nth1; [reflexivity|]. rewrite firstn_length. lia.
  - rewrite !nth_overflow; auto. rewrite firstn_length. lia.
Qed.
Lemma kq_value dk ks q : List.Forall (is_vec dk) ks -> is_vec dk q ->
  fwd (mul_fn wide) [rows_of dk ks; q] = Some (vec (length ks) (fun j => Rsum dk (fun c => entry q c * entry (kth ks j) c)%R)).
Proof.
  intros F Fq. destruct (m_mul_elems wide (rows_of dk ks) q _ _ _ (rows_fits dk ks F) Fq) as (y & E & Ey). cbn [fwd mul_fn bin]. rewrite E. f_equal.
  rewrite (elems_vec _ _ _ Ey). apply vec_ext. intros j Hj. apply Rsum_ext. intros c Hc. rewrite rows_rget by auto. rewrite (rget_vec dk) by auto. ring.
Qed.
Lemma each_some_map {A B} (g : A -> B) l : each (fun v => v) (map (fun x => Some (g x)) l) = Some (map g l).
Proof. induction l as [|x l IH]; cbn; [reflexivity|]. now rewrite IH. Qed.
Lemma weights_value dk ks q s masked i : ks <> [] -> List.Forall (is_vec dk) ks -> is_vec dk q -> (masked = true -> i < length ks) ->
  weights_of wide (rows_of dk ks) (scalar s) masked i (vec (length ks) (fun j => Rsum dk (fun c => entry q c * entry (kth ks j) c)%R)) =
  Some (weight_vec s q (seen_by masked i ks) (length ks)).
Proof.
  intros Hne F Fq Hi. unfold weights_of. rewrite vec_flat, v_prods. cbn [bind].
  set (n := length ks) in *. assert (Hn : 0 < n) by (unfold n; destruct ks; [congruence|cbn; lia]).
  assert (Sq : forall j, (Rsum dk (fun c => entry q c * entry (kth ks j) c) * s)%R = score s q (kth ks j)).
  { intros j. unfold score. rewrite (is_vec_size dk) by auto. apply Rmult_comm. }
  rewrite (flat_ext n 1 _ (fun j => score s q (kth ks j))) by (intros; apply Sq). destruct masked.
  - specialize (Hi eq_refl). unfold from_slice. rewrite mask_value. cbn [rows rows_of]. fold n. cbn [bind]. fold (column (map (fun k => if k <=? i then Some 0%R else None) (seq 0 n))).
    replace (numbers (flat n 1 (fun j => score s q (kth ks j)))) with (column (map (fun j => Some (score s q (kth ks j))) (seq 0 n)))
      by (unfold numbers, flat, column; cbn [rows cols data]; rewrite !map_length, !map_map, seq_length, Nat.mul_1_r; reflexivity).
    rewrite column_binary. cbn [bind].
    rewrite (map_ext (fun k => num_add (Some (score s q (kth ks k))) (if k <=? i then Some 0%R else None)) (fun k => if k <=? i then Some (score s q (kth ks k)) else None))
      by (intros k; destruct (k <=? i); cbn; [now rewrite Rplus_0_r|reflexivity]).
    rewrite num_softmax_value by auto. cbn [bind]. unfold finite. unfold column at 1. cbn [data]. rewrite each_some_map. cbn [bind]. f_equal.
    unfold weight_vec, vec, column. cbn [rows cols]. rewrite !map_length. f_equal. apply map_ext_in. intros k Hk. apply in_seq in Hk. unfold seen_by.
    assert (Ls : length (firstn (S i) ks) = S i) by (rewrite firstn_length; fold n; lia). rewrite Ls.
    destruct (Nat.leb_spec k i), (Nat.ltb_spec k (S i)); try lia; [|reflexivity]. unfold weight. rewrite Ls, kth_firstn by auto. f_equal. apply Rsum_ext. intros l Hl. now rewrite kth_firstn.
  - cbn [fwd softmax_fn un]. destruct (softmax_value (flat n 1 (fun j => score s q (kth ks j)))) as (y & E & Ey).
    + apply flat_fits.
    + unfold is_vector. cbn. apply orb_true_r.
    + cbn. rewrite map_length, seq_length. lia.
    + rewrite E. f_equal. assert (L : length (data (flat n 1 (fun j => score s q (kth ks j)))) = n) by (cbn; rewrite map_length, seq_length; lia).
      rewrite L in Ey. rewrite (elems_vec _ _ _ Ey). apply vec_ext. intros k Hk. unfold seen_by. fold n. destruct (Nat.ltb_spec k n); [|lia].
      unfold weight, exps. fold n. rewrite L. rewrite flat_nth by lia. f_equal. apply Rsum_ext. intros l Hl. rewrite flat_nth by lia. reflexivity.
Qed.
Lemma attended_value dv vs s q (ks : list mat) masked i : List.Forall (is_vec dv) vs -> length vs = length ks ->
  fwd (mul_t_fn wide) [rows_of dv vs; weight_vec s q (seen_by masked i ks) (length ks)] = Some (attended dv s q (seen_by masked i ks) (seen_by masked i vs)).
Proof.
  intros F L. destruct (m_mul_t_elems (rows_of dv vs) (weight_vec s q (seen_by masked i ks) (length ks)) (length vs) dv) as (y & E & Ey); [now apply rows_fits|rewrite L; apply vec_fits|].
  cbn [fwd mul_t_fn bin]. rewrite E. f_equal. rewrite (elems_vec _ _ _ Ey). apply vec_ext. intros d Hd.
  assert (X : length (seen_by masked i ks) <= length ks) by (unfold seen_by; destruct masked; [rewrite firstn_length; lia|lia]).
  set (m := length (seen_by masked i ks)) in *. rewrite L. replace (length ks) with (m + (length ks - m)) by lia. rewrite Rsum_split.
  replace (m + (length ks - m)) with (length ks) by lia.
  rewrite (Rsum_0 (length ks - m)), Rplus_0_r.
  - apply Rsum_ext. intros k Hk. rewrite (rget_vec (length ks)) by (apply vec_fits || lia). unfold weight_vec. rewrite entry_vec by lia. fold m.
    destruct (Nat.ltb_spec k m); [|lia]. rewrite rows_rget by (auto; lia). rewrite Rmult_comm. f_equal. unfold seen_by in *. destruct masked; [|reflexivity]. rewrite kth_firstn; [reflexivity|]. unfold m in Hk. rewrite firstn_length in Hk. lia.
  - intros k Hk. rewrite (rget_vec (length ks)) by (apply vec_fits || lia). unfold weight_vec. rewrite entry_vec by lia. fold m. destruct (Nat.ltb_spec (m + k) m); [lia|]. ring.
Qed.
Lemma combine_map {A B} (f : A -> B) l : forall n, combine (seq n (length (map f l))) (map f l) = map (fun '(i, a) => (i, f a)) (combine (seq n (length l)) l).
Proof. induction l as [|a l IH]; intros n; cbn; [reflexivity|]. now rewrite IH. Qed.
Definition indexed {A} (l : list A) := combine (seq 0 (length l)) l.
Lemma indexed_in {A} (l : list A) i a : In (i, a) (indexed l) -> i < length l /\ In a l.
Proof. intros H. split; [apply in_combine_l in H; apply in_seq in H; lia|now apply in_combine_r in H]. Qed.
Lemma attention_value dk dv qs ks vs s causal : ks <> [] -> List.Forall (is_vec dk) qs -> List.Forall (is_vec dk) ks -> List.Forall (is_vec dv) vs -> length vs = length ks ->
  (causal && (1 <? length qs) = true -> length qs <= length ks) ->
  let masked := causal && (1 <? length qs) in
  attention wide qs (rows_of dk ks) (rows_of dv vs) (scalar s) causal =
  Some (map (fun '(i, q) => attended dv s q (seen_by masked i ks) (seen_by masked i vs)) (indexed qs),
        map (fun '(i, q) => weight_vec s q (seen_by masked i ks) (length ks)) (indexed qs)).
Proof.
  intros Hne Fq Fk Fv L Hm masked. unfold attention. fold masked. rewrite Forall_forall in Fq.
  rewrite (each_map _ (fun q => vec (length ks) (fun j => Rsum dk (fun c => entry q c * entry (kth ks j) c)%R))) by (intros q Hq; apply kq_value; auto). cbn [bind].
  rewrite combine_map.
  assert (E : each (fun '(i, kqi) => weights_of wide (rows_of dk ks) (scalar s) masked i kqi) (map (fun '(i, q) => (i, vec (length ks) (fun j => Rsum dk (fun c => entry q c * entry (kth ks j) c)%R))) (combine (seq 0 (length qs)) qs)) =
    Some (map (fun '(i, q) => weight_vec s q (seen_by masked i ks) (length ks)) (indexed qs))).
  { assert (X : forall l, (forall i q, In (i, q) l -> i < length qs /\ In q qs) -> each (fun '(i, kqi) => weights_of wide (rows_of dk ks) (scalar s) masked i kqi) (map (fun '(i, q) => (i, vec (length ks) (fun j => Rsum dk (fun c => entry q c * entry (kth ks j) c)%R))) l) = Some (map (fun '(i, q) => weight_vec s q (seen_by masked i ks) (length ks)) l)).
    { induction l as [|(i, q) l IH]; intros H; cbn [map each]; [reflexivity|]. destruct (H i q) as [Hi Hq]; [now left|].
      rewrite weights_value; auto; [|intros M; specialize (Hm M); lia]. cbn [bind]. rewrite IH; [reflexivity|]. intros; apply H; now right. }
    apply X. intros i q. apply indexed_in. }
  rewrite E. cbn [bind].
  assert (E2 : each (fun w => fwd (mul_t_fn wide) [rows_of dv vs; w]) (map (fun '(i, q) => weight_vec s q (seen_by masked i ks) (length ks)) (indexed qs)) = Some (map (fun '(i, q) => attended dv s q (seen_by masked i ks) (seen_by masked i vs)) (indexed qs))).
  { generalize (indexed qs). induction l as [|(i, q) l IH]; cbn [map each]; [reflexivity|]. rewrite attended_value by auto. cbn [bind]. now rewrite IH. }
  rewrite E2. reflexivity.
Qed.

(** ** The layers around it *)
Section M.
Variables (m : self_attention) (d dk dv : nat) (s : R).
Hypothesis Fm : model_fits m d dk dv s.
Notation K := (map (layer dk (sa_key m))).
Notation V := (map (layer dv (sa_value m))).
Notation Q := (layer dk (sa_query m)).
Lemma vec_layers n l xs : List.Forall (is_vec n) (map (layer n l) xs).
Proof. apply Forall_forall. intros x Hx. apply in_map_iff in Hx. destruct Hx as (y & <- & _). apply vec_fits. Qed.
Lemma indexed_map {A B} (f : A -> B) l : indexed (map f l) = map (fun '(i, a) => (i, f a)) (indexed l).
Proof. apply combine_map. Qed.
Lemma forward_first qs xs : xs <> [] -> List.Forall (is_vec d) qs -> List.Forall (is_vec d) xs -> (sa_causal m && (1 <? length qs) = true -> length qs <= length xs) ->
  let masked := sa_causal m && (1 <? length qs) in
  self_forward wide m None qs xs =
  Some (map (fun '(i, q) => attended dv s (Q q) (K (seen_by masked i xs)) (V (seen_by masked i xs))) (indexed qs),
        map (fun '(i, q) => weight_vec s (Q q) (K (seen_by masked i xs)) (length xs)) (indexed qs), (rows_of dk (K xs), rows_of dv (V xs))).
Proof.
  intros Hne Fq Fx Hm masked. destruct Fm as (Mq & Mk & Mv & Es). unfold self_forward. rewrite (layers_value dk d) by auto. cbn [bind].
  rewrite (layers_value dk d (sa_key m)), (layers_value dv d (sa_value m)) by auto. cbn [bind].
  rewrite (stack_value dk), (stack_value dv) by (auto using vec_layers; (destruct xs; [congruence|discriminate])). cbn [bind fst snd]. rewrite Es.
  rewrite (attention_value dk dv) by (auto using vec_layers; try (rewrite !map_length; auto); (destruct xs; [congruence|discriminate])).
  cbn [bind fst snd]. rewrite map_length. fold masked. rewrite indexed_map, !map_map, !map_length.
  do 2 f_equal. f_equal; apply map_ext; intros (i, q); unfold seen_by; destruct masked; rewrite ?firstn_map; reflexivity.
Qed.
Lemma forward_next xs x : xs <> [] -> List.Forall (is_vec d) xs -> is_vec d x -> sa_cross m = false ->
  exists ws, self_forward wide m (Some (rows_of dk (K xs), rows_of dv (V xs))) [x] [x] =
  Some ([attended dv s (Q x) (K (xs ++ [x])) (V (xs ++ [x]))], ws, (rows_of dk (K (xs ++ [x])), rows_of dv (V (xs ++ [x])))).
Proof.
  intros Hne Fx F1 Cr. destruct Fm as (Mq & Mk & Mv & Es). unfold self_forward.
  assert (F : List.Forall (is_vec d) [x]) by (constructor; auto). rewrite (layers_value dk d) by auto. cbn [bind]. rewrite Cr.
  rewrite (layers_value dk d (sa_key m)), (layers_value dv d (sa_value m)) by auto. cbn [bind].
  rewrite (append_value dk), (append_value dv) by apply vec_layers. cbn [bind fst snd]. rewrite Es, <- !map_app.
  rewrite (attention_value dk dv).
  - rewrite map_length. cbn [length]. change (1 <? 1) with false. rewrite andb_false_r. cbn [bind fst snd indexed seq length map combine seen_by]. eexists. reflexivity.
  - destruct xs; discriminate.
  - apply vec_layers.
  - apply vec_layers.
  - apply vec_layers.
  - now rewrite !map_length.
  - rewrite map_length. change (1 <? length [x]) with false. rewrite andb_false_r. discriminate.
Qed.
Lemma forward_chunk xs p : xs <> [] -> List.Forall (is_vec d) xs -> List.Forall (is_vec d) p -> sa_cross m = false ->
  let masked := sa_causal m && (1 <? length p) in
  exists ws, self_forward wide m (Some (rows_of dk (K xs), rows_of dv (V xs))) p p =
  Some (map (fun '(i, q) => attended dv s (Q q) (K (seen_by masked i (xs ++ p))) (V (seen_by masked i (xs ++ p)))) (indexed p), ws, (rows_of dk (K (xs ++ p)), rows_of dv (V (xs ++ p)))).
Proof.
  intros Hne Fx F Cr masked. destruct Fm as (Mq & Mk & Mv & Es). unfold self_forward.
  rewrite (layers_value dk d) by auto. cbn [bind]. rewrite Cr.
  rewrite (layers_value dk d (sa_key m)), (layers_value dv d (sa_value m)) by auto. cbn [bind].
  rewrite (append_value dk), (append_value dv) by apply vec_layers. cbn [bind fst snd]. rewrite Es, <- !map_app.
  rewrite (attention_value dk dv).
  - rewrite map_length. fold masked. cbn [bind fst snd]. eexists. do 2 f_equal. f_equal. rewrite indexed_map, map_map. apply map_ext. intros (i, q). unfold seen_by. destruct masked; rewrite ?firstn_map; reflexivity.
  - destruct xs; [congruence|discriminate].
  - apply vec_layers.
  - apply vec_layers.
  - apply vec_layers.
  - now rewrite !map_length.
  - intros _. rewrite !map_length, app_length. lia.
Qed.
Lemma indexed_outputs {A B} (f : nat -> A -> B) (z : A) l : map (fun '(i, a) => f i a) (indexed l) = map (fun i => f i (nth i l z)) (seq 0 (length l)).
Proof.
  unfold indexed. assert (X : forall l' pre, l = pre ++ l' -> map (fun '(i, a) => f i a) (combine (seq (length pre) (length l')) l') = map (fun i => f i (nth i l z)) (seq (length pre) (length l'))).
  { induction l' as [|a l' IH]; intros pre E; cbn [length seq combine map]; [reflexivity|]. f_equal.
    - subst l. rewrite app_nth2 by lia. now rewrite Nat.sub_diag.
    - specialize (IH (pre ++ [a])). rewrite app_length in IH. cbn [length] in IH. rewrite Nat.add_1_r in IH. apply IH. subst l. now rewrite <- app_assoc. }
  exact (X l [] eq_refl).
Qed.
Lemma causal_value xs : sa_causal m = true -> xs <> [] -> List.Forall (is_vec d) xs ->
  exists ws, self_forward wide m None xs xs = Some (map (causal_output m dk dv s xs) (seq 0 (length xs)), ws, (rows_of dk (K xs), rows_of dv (V xs))).
Proof.
  intros C Hne F. rewrite forward_first by auto. eexists. do 2 f_equal. rewrite (indexed_outputs (fun i q => attended dv s (Q q) (K (seen_by _ i xs)) (V (seen_by _ i xs))) (mkDense 0 0 [])).
  f_equal. apply map_ext_in. intros i Hi. apply in_seq in Hi. unfold causal_output, seen_by. rewrite C. cbn [andb].
  destruct (Nat.ltb_spec 1 (length xs)); [reflexivity|]. rewrite firstn_all2 by lia. reflexivity.
Qed.
Lemma singles_value rest : forall xs, sa_cross m = false -> xs <> [] -> List.Forall (is_vec d) (xs ++ rest) ->
  decode wide m (Some (rows_of dk (K xs), rows_of dv (V xs))) (map (fun x => [x]) rest) =
  Some (map (causal_output m dk dv s (xs ++ rest)) (seq (length xs) (length rest))).
Proof.
  induction rest as [|x rest IH]; intros xs Cr Hne F; cbn [map decode]; [reflexivity|].
  assert (F2 := F). apply Forall_app in F2. destruct F2 as [Fx F2]. inversion F2; subst.
  destruct (forward_next xs x) as (ws & ->); auto. cbn [bind fst snd]. rewrite IH; [|auto|destruct xs; discriminate|rewrite <- app_assoc; exact F]. cbn [bind]. f_equal.
  rewrite <- !app_assoc. cbn [app length]. cbn [seq map]. rewrite app_length. cbn [length]. rewrite Nat.add_1_r. f_equal.
  unfold causal_output, kth. rewrite app_nth2, Nat.sub_diag by lia. cbn [nth].
  replace (S (length xs)) with (length (xs ++ [x]) + 0) by (rewrite app_length; cbn; lia). change (x :: rest) with ([x] ++ rest). rewrite app_assoc, firstn_app_2. cbn [firstn]. now rewrite app_nil_r.
Qed.
Lemma decode_value p rest : sa_causal m = true -> sa_cross m = false -> p <> [] -> List.Forall (is_vec d) (p ++ rest) ->
  decode wide m None (p :: map (fun x => [x]) rest) = Some (map (causal_output m dk dv s (p ++ rest)) (seq 0 (length (p ++ rest)))).
Proof.
  intros C Cr Hne F. assert (F2 := F). apply Forall_app in F2. destruct F2 as [Fp Fr]. cbn [decode].
  destruct (causal_value p C Hne Fp) as (ws & ->). cbn [bind fst snd]. rewrite singles_value by auto. cbn [bind]. f_equal.
  rewrite app_length, seq_app, map_app. f_equal. apply map_ext_in. intros i Hi. apply in_seq in Hi. unfold causal_output, kth. rewrite firstn_app, app_nth1 by lia.
  replace (S i - length p) with 0 by lia. cbn [firstn]. now rewrite app_nil_r.
Qed.
End M.
End P.
