(** * Lists and row-major indices *)
From Coq Require Import List Arith Bool Lia.
From Verif Require Import DenseModel DenseSpec.
Import ListNotations.

Lemma nth_ext {T} (l l' : list T) : (forall k, nth_error l k = nth_error l' k) -> l = l'.
Proof.
  revert l'. induction l as [|x l IH]; intros [|y l'] H; [reflexivity|specialize (H 0); discriminate|specialize (H 0); discriminate|].
  pose proof (H 0) as H0. cbn in H0. injection H0 as ->. f_equal. apply IH. intros k. exact (H (S k)).
Qed.

Lemma put_length {T} (l : list T) i v : length (put l i v) = length l.
Proof. revert i. induction l as [|x l IH]; intros [|i]; cbn; auto. Qed.

Lemma nth_put {T} (l : list T) i v j : nth_error (put l i v) j =
  if i =? j then (if j <? length l then Some v else None) else nth_error l j.
Proof.
  revert i j. induction l as [|x l IH]; intros [|i] [|j]; cbn [put nth_error Nat.eqb length]; try reflexivity.
  - destruct (i =? j); reflexivity.
  - rewrite IH. reflexivity.
Qed.

Lemma nth_skipn {T} (l : list T) a k : nth_error (skipn a l) k = nth_error l (a + k).
Proof. revert l. induction a as [|a IH]; intros [|x l]; cbn; auto. now destruct k. Qed.

Lemma nth_firstn {T} (l : list T) n k : nth_error (firstn n l) k = if k <? n then nth_error l k else None.
Proof.
  revert n k. induction l as [|x l IH]; intros [|n] [|k]; cbn [firstn nth_error]; try reflexivity.
  - now destruct (S k <? S n).
  - rewrite IH. reflexivity.
Qed.

Lemma nth_slice {T} (l : list T) a b k : nth_error (slice l a b) k = if k <? b - a then nth_error l (a + k) else None.
Proof. unfold slice. rewrite nth_firstn, nth_skipn. reflexivity. Qed.

Lemma slice_length {T} (l : list T) a b : a <= b -> b <= length l -> length (slice l a b) = b - a.
Proof. intros. unfold slice. rewrite firstn_length, skipn_length. lia. Qed.

Lemma skipn_skipn {T} (l : list T) a b : skipn a (skipn b l) = skipn (a + b) l.
Proof. apply nth_ext. intros k. rewrite !nth_skipn. f_equal. lia. Qed.

Lemma slice_app {T} (l : list T) a b c : a <= b -> b <= c -> slice l a b ++ slice l b c = slice l a c.
Proof.
  intros H1 H2. unfold slice. replace (c - a) with ((b - a) + (c - b)) by lia.
  rewrite <- (firstn_skipn (b - a) (skipn a l)) at 2.
  rewrite skipn_skipn. replace (b - a + a) with b by lia.
  remember (skipn a l) as la. 
  destruct (le_lt_dec (b - a) (length la)) as [H|H].
  - rewrite firstn_app, !firstn_length. rewrite firstn_firstn.
    replace (Nat.min (b - a + (c - b)) (b - a)) with (b - a) by lia.
    replace (b - a + (c - b) - Nat.min (b - a) (length la)) with (c - b) by lia. reflexivity.
  - assert (E : skipn b l = []).
    { apply skipn_all2. subst la. rewrite skipn_length in H. lia. }
    rewrite E, !firstn_nil. cbn. rewrite !app_nil_r, firstn_firstn. f_equal. lia.
Qed.

Lemma slice_all {T} (l : list T) n : n = length l -> slice l 0 n = l.
Proof. intros ->. unfold slice. cbn. rewrite Nat.sub_0_r. apply firstn_all. Qed.

Lemma blit_length {T} (l : list T) a src : a + length src <= length l -> length (blit l a src) = length l.
Proof. intros. unfold blit. rewrite !app_length, firstn_length, skipn_length. lia. Qed.

Lemma nth_app {T} (l l' : list T) k : nth_error (l ++ l') k = if k <? length l then nth_error l k else nth_error l' (k - length l).
Proof. destruct (Nat.ltb_spec k (length l)); [now apply nth_error_app1|now apply nth_error_app2]. Qed.

Lemma nth_blit {T} (l : list T) a src k : a + length src <= length l -> nth_error (blit l a src) k =
  if (a <=? k) && (k <? a + length src) then nth_error src (k - a) else nth_error l k.
Proof.
  intros H. unfold blit. rewrite nth_app, firstn_length. replace (Nat.min a (length l)) with a by lia.
  destruct (Nat.ltb_spec k a) as [H1|H1].
  - destruct (Nat.leb_spec a k); [lia|]. cbn. rewrite nth_firstn. destruct (Nat.ltb_spec k a); [reflexivity|lia].
  - destruct (Nat.leb_spec a k); [|lia]. cbn [andb]. rewrite nth_app.
    destruct (Nat.ltb_spec (k - a) (length src)), (Nat.ltb_spec k (a + length src)); try lia; [reflexivity|].
    rewrite nth_skipn. f_equal. lia.
Qed.

Lemma blit_all {T} (l src : list T) : length src = length l -> blit l 0 src = src.
Proof. intros H. unfold blit. cbn. rewrite H, skipn_all. apply app_nil_r. Qed.

Lemma nth_repeat {T} (x : T) n k : nth_error (repeat x n) k = if k <? n then Some x else None.
Proof.
  destruct (Nat.ltb_spec k n) as [H|H]; [now apply nth_error_repeat|]. apply nth_error_None. now rewrite repeat_length.
Qed.

Lemma nth_some {T} (l : list T) k : k < length l -> exists v, nth_error l k = Some v.
Proof. intros H. destruct (nth_error l k) eqn:E; [eauto|]. apply nth_error_None in E. lia. Qed.

Lemma nth_seq a n k : nth_error (seq a n) k = if k <? n then Some (a + k) else None.
Proof.
  destruct (Nat.ltb_spec k n) as [H|H].
  - rewrite (nth_error_nth' _ 0) by (now rewrite seq_length). now rewrite seq_nth.
  - apply nth_error_None. now rewrite seq_length.
Qed.

Lemma nth_map {A B} (f : A -> B) l k : nth_error (map f l) k = option_map f (nth_error l k).
Proof. apply nth_error_map. Qed.

(** Row-major indices *)
Lemma idx_lt r c i j : i < r -> j < c -> i * c + j < r * c.
Proof. intros. nia. Qed.
Lemma idx_div c i j : j < c -> (i * c + j) / c = i.
Proof. intros H. symmetry. apply (Nat.div_unique _ _ i j); lia. Qed.
Lemma idx_mod c i j : j < c -> (i * c + j) mod c = j.
Proof. intros H. symmetry. apply (Nat.mod_unique _ _ i j); lia. Qed.
Lemma idx_inj c i j i' j' : j < c -> j' < c -> i * c + j = i' * c + j' -> i = i' /\ j = j'.
Proof.
  intros H H' E. pose proof (idx_div c i j H) as D. pose proof (idx_div c i' j' H') as D'.
  pose proof (idx_mod c i j H) as M. pose proof (idx_mod c i' j' H') as M'. rewrite E in D, M. split; congruence.
Qed.
Lemma idx_split c k : 0 < c -> k = (k / c) * c + k mod c /\ k mod c < c.
Proof. intros H. pose proof (Nat.div_mod k c). pose proof (Nat.mod_upper_bound k c). lia. Qed.
Lemma idx_row r c k : k < r * c -> k / c < r /\ k mod c < c.
Proof. intros H. assert (c <> 0) by (intros ->; lia). split; [apply Nat.div_lt_upper_bound; lia|now apply Nat.mod_upper_bound]. Qed.

Lemma elem_in {T} (m : dense T) i j : i < rows m -> j < cols m -> elem m i j = nth_error (data m) (i * cols m + j).
Proof. intros Hi Hj. unfold elem. apply Nat.ltb_lt in Hi, Hj. now rewrite Hi, Hj. Qed.

Lemma elem_out {T} (m : dense T) i j : rows m <= i \/ cols m <= j -> elem m i j = None.
Proof.
  intros H. unfold elem. destruct (Nat.ltb_spec i (rows m)), (Nat.ltb_spec j (cols m)); cbn; auto; lia.
Qed.

Lemma elem_some {T} (m : dense T) i j : wf m -> i < rows m -> j < cols m -> exists v, elem m i j = Some v.
Proof. intros Hw Hi Hj. rewrite elem_in by assumption. apply nth_some. rewrite Hw. now apply idx_lt. Qed.

Lemma data_elem {T} (m : dense T) k : wf m -> nth_error (data m) k = if k <? rows m * cols m then elem m (k / cols m) (k mod cols m) else None.
Proof.
  intros Hw. destruct (Nat.ltb_spec k (rows m * cols m)) as [H|H].
  - destruct (idx_row _ _ _ H) as [H1 H2]. rewrite elem_in by assumption. f_equal.
    apply (idx_split (cols m) k). lia.
  - apply nth_error_None. now rewrite Hw.
Qed.

Lemma dense_ext {T} (a b : dense T) : wf a -> wf b -> rows a = rows b -> cols a = cols b ->
  (forall i j, i < rows a -> j < cols a -> elem a i j = elem b i j) -> a = b.
Proof.
  intros Ha Hb Hr Hc He. destruct a as [r c l], b as [r' c' l']. cbn [rows cols] in *. subst r' c'. f_equal.
  apply nth_ext. intros k. pose proof (data_elem (mkDense r c l) k Ha) as E. pose proof (data_elem (mkDense r c l') k Hb) as E'.
  cbn [data rows cols] in E, E'. rewrite E, E'. destruct (Nat.ltb_spec k (r * c)) as [H|H]; [|reflexivity].
  destruct (idx_row _ _ _ H). now apply He.
Qed.

Lemma is_matrix_unique {T} (a b : dense T) r c f : is_matrix a r c f -> is_matrix b r c f -> a = b.
Proof.
  intros (Ra & Ca & Wa & Ea) (Rb & Cb & Wb & Eb). apply dense_ext; auto; try congruence.
  intros i j Hi Hj. rewrite Ra in Hi. rewrite Ca in Hj. now rewrite Ea, Eb.
Qed.
