(** * C18, C19, C20: the structure of matrices

    The element type is arbitrary, so these hold of float32 and float64 bit for
    bit.  [elem m i j] is the element at row i and column j ([None] outside);
    [is_matrix m r c f] says that m is the well-formed r×c matrix whose element
    (i, j) is [f i j]; [column l] is the column vector of the list l. *)
From Coq Require Import List ZArith Arith Bool Lia Sorted.
From Verif Require Import DenseModel DenseSpec DenseLemmas DenseProofs DenseProofs2.
Import ListNotations.
Local Open Scope nat_scope.

Definition m23 : dense nat := mkDense 2 3 [1; 2; 3; 4; 5; 6].
Definition v3 : dense nat := mkDense 3 1 [7; 8; 9].
Example m23_wf : wf m23. Proof. reflexivity. Qed.
Example v3_wf : wf v3. Proof. reflexivity. Qed.

(** ** C18 *)
Theorem C18_transpose : forall (T : Type) (zero : T) m, wf m ->
  is_matrix (transpose zero m) (cols m) (rows m) (fun j i => elem m i j).
Proof. exact @transpose_spec. Qed.
Print Assumptions C18_transpose.

Theorem C18_in_place_agrees : forall (T : Type) (zero : T) m, wf m ->
  transpose_in_place m = Some (transpose zero m).
Proof. exact @transpose_in_place_spec. Qed.
Print Assumptions C18_in_place_agrees.

Theorem C18_involutive : forall (T : Type) (zero : T) m, wf m -> transpose zero (transpose zero m) = m.
Proof. exact @transpose_involutive. Qed.
Print Assumptions C18_involutive.

Example C18_case : transpose 0 m23 = mkDense 3 2 [1; 4; 2; 5; 3; 6] /\ transpose_in_place m23 = Some (mkDense 3 2 [1; 4; 2; 5; 3; 6]).
Proof. split; reflexivity. Qed.

(** ** C19 *)
Theorem C19_at : forall (T : Type) (m : dense T) r c, wf m ->
  at_ m [r; c] = if ((0 <=? r) && (0 <=? c))%Z then elem m (Z.to_nat r) (Z.to_nat c) else None.
Proof. exact (fun T m r c _ => at_two m r c). Qed.
Print Assumptions C19_at.

(** One index addresses the elements of a vector; anything else panics. *)
Theorem C19_at_vector : forall (T : Type) (m : dense T) i, wf m ->
  at_ m [i] = if is_vector m && ((0 <=? i) && (i <? Z.of_nat (rows m * cols m)))%Z then nth_error (data m) (Z.to_nat i) else None.
Proof. exact @at_one. Qed.
Print Assumptions C19_at_vector.

Theorem C19_set : forall (T : Type) (m : dense T) v r c, wf m ->
  (forall m', set_ m v [r; c] = Some m' -> is_matrix m' (rows m) (cols m)
     (fun i j => if (i =? Z.to_nat r) && (j =? Z.to_nat c) then Some v else elem m i j)) /\
  (set_ m v [r; c] = None <-> ~ (0 <= r < Z.of_nat (rows m) /\ 0 <= c < Z.of_nat (cols m))%Z).
Proof. exact (fun T m v r c Hw => conj (fun m' => set_other m v r c m' Hw) (set_panics m v r c Hw)). Qed.
Print Assumptions C19_set.

(** With one index or two: SetAt succeeds exactly where At does, and At then
    reads what was written. *)
Theorem C19_set_at : forall (T : Type) (m : dense T) v idx, wf m ->
  (at_ m idx = None <-> set_ m v idx = None) /\ forall m', set_ m v idx = Some m' -> at_ m' idx = Some v.
Proof.
  exact (fun T m v idx Hw => conj (conj (fun h => proj2 (proj2 (at_set_defined m idx v Hw)) (proj1 (proj1 (at_set_defined m idx v Hw)) h))
          (fun h => proj2 (proj1 (at_set_defined m idx v Hw)) (proj1 (proj2 (at_set_defined m idx v Hw)) h))) (fun m' => set_at m v idx m' Hw)).
Qed.
Print Assumptions C19_set_at.

Theorem C19_extract : forall (T : Type) (zero : T) (m : dense T) i, wf m ->
  ((0 <= i < Z.of_nat (rows m))%Z -> exists m', extract_row m i = Some m' /\ is_matrix m' 1 (cols m) (fun _ j => elem m (Z.to_nat i) j)) /\
  ((0 <= i < Z.of_nat (cols m))%Z -> exists m', extract_column zero m i = Some m' /\ is_matrix m' (rows m) 1 (fun r _ => elem m r (Z.to_nat i))) /\
  (extract_row m i = None <-> ~ (0 <= i < Z.of_nat (rows m))%Z) /\
  (extract_column zero m i = None <-> ~ (0 <= i < Z.of_nat (cols m))%Z).
Proof. exact (fun T z m i Hw => conj (extract_row_spec m i Hw) (conj (extract_column_spec z m i Hw) (extract_panics z m i))). Qed.
Print Assumptions C19_extract.

Theorem C19_slice : forall (T : Type) (m : dense T) fr fc tr tc, wf m ->
  let ok := (0 <= fr < Z.of_nat (rows m) /\ 0 <= fc < Z.of_nat (cols m) /\ fr <= tr <= Z.of_nat (rows m) /\ fc <= tc <= Z.of_nat (cols m))%Z in
  (ok -> exists m', submatrix m fr fc tr tc = Some m' /\
     is_matrix m' (Z.to_nat (tr - fr)) (Z.to_nat (tc - fc)) (fun i j => elem m (Z.to_nat fr + i) (Z.to_nat fc + j))) /\
  (submatrix m fr fc tr tc = None <-> ~ ok).
Proof. exact (fun T m fr fc tr tc Hw => conj (submatrix_spec m fr fc tr tc Hw) (submatrix_panics m fr fc tr tc)). Qed.
Print Assumptions C19_slice.

(** Range of a vector whose slice has no spare capacity. *)
Theorem C19_range : forall (T : Type) (m : dense T) a b, wf m ->
  (forall m', range m [] a b = Some m' -> is_matrix m' (Z.to_nat (b - a)) 1 (fun i _ => nth_error (data m) (Z.to_nat a + i))) /\
  (range m [] a b = None <-> ~ (is_vector m = true /\ (0 <= a <= b)%Z /\ (b <= Z.of_nat (rows m * cols m))%Z)).
Proof. exact @range_spec. Qed.
Print Assumptions C19_range.

(** With spare capacity (a matrix made over a sub-slice by WithBacking, or the
    result of ResizeVector) Range does not panic past the end: it returns
    elements that are not in the matrix. *)
Theorem C19_range_refuted : exists (m : dense nat) spare m',
  wf m /\ rows m * cols m = 2 /\ range m spare 1 4 = Some m' /\ data m' = [2; 100; 101].
Proof. exists (mkDense 2 1 [1; 2]), [100; 101], (mkDense 3 1 [2; 100; 101]). repeat split. Qed.
Print Assumptions C19_range_refuted.

Example C19_cases :
  at_ m23 [1; 2]%Z = Some 6 /\ at_ m23 [2; 0]%Z = None /\ at_ v3 [2]%Z = Some 9 /\ at_ m23 [2]%Z = None /\
  set_ m23 0 [1; 0]%Z = Some (mkDense 2 3 [1; 2; 3; 0; 5; 6]) /\
  submatrix m23 0 1 2 3 = Some (mkDense 2 2 [2; 3; 5; 6]) /\ submatrix m23 1 0 2 3 = Some (mkDense 1 3 [4; 5; 6]) /\
  extract_column 0 m23 1 = Some (mkDense 2 1 [2; 5]) /\ range v3 [] 1 3 = Some (mkDense 2 1 [8; 9]).
Proof. repeat split. Qed.

(** ** C20 *)
Theorem C20_reshape : forall (T : Type) (m : dense T) r c, wf m ->
  (forall m', reshape m [r; c] = Some m' ->
     (0 <= r /\ 0 <= c)%Z /\ rows m' = Z.to_nat r /\ cols m' = Z.to_nat c /\ wf m' /\ data m' = data m) /\
  (reshape m [r; c] = None <-> ~ (0 <= r /\ 0 <= c /\ r * c = Z.of_nat (rows m * cols m))%Z).
Proof. exact @reshape_spec. Qed.
Print Assumptions C20_reshape.

Theorem C20_reshape_back : forall (T : Type) (m : dense T) r c m', wf m -> reshape m [r; c] = Some m' ->
  reshape m' [Z.of_nat (rows m); Z.of_nat (cols m)] = Some m.
Proof. exact @reshape_back. Qed.
Print Assumptions C20_reshape_back.

Theorem C20_resize : forall (T : Type) (zero : T) (m : dense T) n m', wf m -> resize_vector zero m n = Some m' ->
  is_vector m = true /\ (0 <= n)%Z /\
  is_matrix m' (Z.to_nat n) 1 (fun i _ => if i <? length (data m) then nth_error (data m) i else Some zero).
Proof. exact @resize_spec. Qed.
Print Assumptions C20_resize.

Theorem C20_concat : forall (T : Type) (vs : list (dense T)),
  (forall m', concat_v vs = Some m' -> data m' = concat (map data vs) /\ rows m' = length (data m') /\ cols m' = 1 /\ wf m') /\
  (concat_v vs = None <-> exists v, In v vs /\ is_vector v = false).
Proof. exact @concat_spec. Qed.
Print Assumptions C20_concat.

(** SplitV gives consecutive column vectors of the requested sizes, and exists
    exactly when the sizes fit. *)
Theorem C20_split : forall (T : Type) (m : dense T) sizes, wf m ->
  (forall ms, split_v m [] sizes = Some ms ->
     ms = map column (map data ms) /\ map (fun x => Z.of_nat (length (data x))) ms = sizes /\
     concat (map data ms) = firstn (length (concat (map data ms))) (data m)) /\
  ((exists ms, split_v m [] sizes = Some ms) <->
     is_vector m = true /\ Forall (fun s => (0 <= s)%Z) sizes /\ (fold_right Z.add 0 sizes <= Z.of_nat (rows m * cols m))%Z).
Proof. exact @split_statement. Qed.
Print Assumptions C20_split.

Theorem C20_split_undoes_concat : forall (T : Type) (vs : list (dense T)) m, concat_v vs = Some m ->
  split_v m [] (map (fun v => Z.of_nat (length (data v))) vs) = Some (map (fun v => column (data v)) vs).
Proof. exact @concat_split. Qed.
Print Assumptions C20_split_undoes_concat.

Theorem C20_concat_undoes_split : forall (T : Type) (m : dense T) sizes ms, wf m -> split_v m [] sizes = Some ms ->
  list_sum (map Z.to_nat sizes) = rows m * cols m -> concat_v ms = Some (column (data m)).
Proof. exact @split_concat. Qed.
Print Assumptions C20_concat_undoes_split.

(** With spare capacity SplitV hands out elements that are not in the vector. *)
Theorem C20_split_refuted : exists (m : dense nat) spare ms,
  wf m /\ rows m * cols m = 2 /\ split_v m spare [3]%Z = Some ms /\ map data ms = [[1; 2; 100]].
Proof. exists (mkDense 2 1 [1; 2]), [100], [mkDense 3 1 [1; 2; 100]]. repeat split. Qed.
Print Assumptions C20_split_refuted.

Theorem C20_stack : forall (T : Type) (zero : T) (vs : list (dense T)), vs <> [] ->
  let n := match vs with [] => 0 | w :: _ => length (data w) end in
  let ok := Forall (fun v => is_vector v = true /\ length (data v) = n) vs in
  (ok -> exists m, stack zero vs = Some m /\
     is_matrix m (length vs) n (fun i j => match nth_error vs i with Some v => nth_error (data v) j | None => None end)) /\
  (~ ok -> stack zero vs = None).
Proof. exact @stack_spec. Qed.
Print Assumptions C20_stack.

Theorem C20_append_rows : forall (T : Type) (zero : T) (m : dense T) vs, wf m ->
  (forall m', append_rows zero m vs = Some m' ->
     is_matrix m' (rows m + length vs) (cols m)
       (fun i j => if i <? rows m then elem m i j else match nth_error vs (i - rows m) with Some v => nth_error (data v) j | None => None end)) /\
  (append_rows zero m vs = None <-> ~ Forall (fun v => is_vector v = true /\ length (data v) = cols m) vs).
Proof. exact @append_rows_spec. Qed.
Print Assumptions C20_append_rows.

Theorem C20_pad : forall (T : Type) (zero : T) (m : dense T) n, wf m ->
  ((0 <= n)%Z ->
    (exists m', pad_rows zero m n = Some m' /\
       is_matrix m' (rows m + Z.to_nat n) (cols m) (fun i j => if i <? rows m then elem m i j else Some zero)) /\
    (exists m', pad_columns zero m n = Some m' /\
       is_matrix m' (rows m) (cols m + Z.to_nat n) (fun i j => if j <? cols m then elem m i j else Some zero))) /\
  (pad_rows zero m n = None <-> (n < 0)%Z) /\ (pad_columns zero m n = None <-> (n < 0)%Z).
Proof. exact (fun T z m n Hw => conj (fun Hn => conj (pad_rows_spec z m n Hw Hn) (pad_columns_spec z m n Hw Hn)) (pads_panic z m n)). Qed.
Print Assumptions C20_pad.

Theorem C20_augment : forall (T : Type) (zero one : T) (m : dense T), wf m -> rows m = cols m ->
  exists m', augment zero one m = Some m' /\
  is_matrix m' (rows m) (2 * cols m) (fun i j => if j <? cols m then elem m i j else Some (if j - cols m =? i then one else zero)).
Proof. exact @augment_spec. Qed.
Print Assumptions C20_augment.

Theorem C20_swap : forall (T : Type) (m : dense T) r1 r2, wf m ->
  (0 <= r1 < Z.of_nat (rows m))%Z -> (0 <= r2 < Z.of_nat (rows m))%Z ->
  exists m', swap_rows m r1 r2 = Some m' /\ is_matrix m' (rows m) (cols m)
    (fun i j => elem m (if i =? Z.to_nat r1 then Z.to_nat r2 else if i =? Z.to_nat r2 then Z.to_nat r1 else i) j).
Proof. exact @swap_rows_spec. Qed.
Print Assumptions C20_swap.

(** Matrices built from scratch. *)
Theorem C20_construct : forall (T : Type) (zero one : T),
  (forall d shape (m : dense T), from_slice d shape = Some m -> wf m /\ data m = d) /\
  (forall n, is_matrix (mkDense n n (identity_data zero one n)) n n (fun i j => Some (if i =? j then one else zero))) /\
  (forall size index l, one_hot zero one size index = Some l <->
     (0 <= index < size)%Z /\ length l = Z.to_nat size /\ forall k, k < Z.to_nat size -> nth_error l k = Some (if k =? Z.to_nat index then one else zero)) /\
  (forall r c fn, is_matrix (mkDense r c (initialize zero r c fn)) r c (fun i j => Some (fn i j))).
Proof. exact (fun T z o => conj (@from_slice_wf T) (conj (identity_spec z o) (conj (one_hot_spec z o) (initialize_spec z)))). Qed.
Print Assumptions C20_construct.

Example C20_cases :
  reshape m23 [3; 2]%Z = Some (mkDense 3 2 [1; 2; 3; 4; 5; 6]) /\ reshape m23 [4; 2]%Z = None /\
  resize_vector 0 v3 5 = Some (mkDense 5 1 [7; 8; 9; 0; 0]) /\
  concat_v [v3; mkDense 1 2 [1; 2]] = Some (mkDense 5 1 [7; 8; 9; 1; 2]) /\
  split_v v3 [] [1; 0; 2]%Z = Some [mkDense 1 1 [7]; mkDense 0 1 []; mkDense 2 1 [8; 9]] /\
  stack 0 [v3; v3] = Some (mkDense 2 3 [7; 8; 9; 7; 8; 9]) /\
  append_rows 0 m23 [v3] = Some (mkDense 3 3 [1; 2; 3; 4; 5; 6; 7; 8; 9]) /\
  pad_columns 0 m23 1 = Some (mkDense 2 4 [1; 2; 3; 0; 4; 5; 6; 0]) /\
  augment 0 1 (mkDense 2 2 [5; 6; 7; 8]) = Some (mkDense 2 4 [5; 6; 1; 0; 7; 8; 0; 1]) /\
  swap_rows m23 0 1 = Some (mkDense 2 3 [4; 5; 6; 1; 2; 3]) /\
  one_hot 0 1 3 1 = Some [0; 1; 0].
Proof. repeat split. Qed.

(** DoNonZero calls the function once for every element that is not zero, row after row. *)
Theorem C19_do_non_zero : forall (T : Type) (zero : T) (is_zero : T -> bool) (m : dense T), wf m ->
  let calls := do_non_zero zero is_zero m in
  (forall i j v, In (i, j, v) calls <-> elem m i j = Some v /\ is_zero v = false) /\
  StronglySorted (fun a b => fst (fst a) * cols m + snd (fst a) < fst (fst b) * cols m + snd (fst b)) calls.
Proof.
  intros T zero is_zero m Hw. cbv zeta. rewrite do_non_zero_spec by assumption.
  set (cell := fun i j => match elem m i j with Some v => if is_zero v then [] else [(i, j, v)] | None => [] end).
  assert (Hc : forall i j x, In x (cell i j) -> fst x = (i, j) /\ elem m i j = Some (snd x) /\ is_zero (snd x) = false).
  { intros i j x. unfold cell. destruct (elem m i j) as [v|]; [|intros []]. destruct (is_zero v) eqn:Z; [intros []|]. intros [<-|[]]. auto. }
  split.
  - intros i j v. rewrite in_flat_map. split.
    + intros (i' & _ & H). apply in_flat_map in H. destruct H as (j' & _ & H). apply Hc in H. destruct H as (E & H). injection E as -> ->. exact H.
    + intros (E & Z). assert (B : i < rows m /\ j < cols m).
      { unfold elem in E. destruct (Nat.ltb_spec i (rows m)), (Nat.ltb_spec j (cols m)); try discriminate; auto. }
      exists i. split; [apply in_seq; lia|]. apply in_flat_map. exists j. split; [apply in_seq; lia|]. unfold cell. rewrite E, Z. now left.
  - assert (App : forall (l1 l2 : list (nat * nat * T)) R, StronglySorted R l1 -> StronglySorted R l2 -> (forall a b, In a l1 -> In b l2 -> R a b) -> StronglySorted R (l1 ++ l2)).
    { intros l1 l2 R H1 H2 H. induction H1 as [|a l1 H1 IH F]; cbn [app]; [assumption|]. constructor.
      - apply IH. intros x y Hx. apply H. now right.
      - apply Forall_app. split; [assumption|]. apply Forall_forall. intros b Hb. apply H; [now left|assumption]. }
    assert (Row : forall i n s, s + n <= cols m -> StronglySorted (fun a b : nat * nat * T => fst (fst a) * cols m + snd (fst a) < fst (fst b) * cols m + snd (fst b)) (flat_map (cell i) (seq s n))).
    { intros i n. induction n as [|n IH]; intros s L; cbn [seq flat_map]; [constructor|]. apply App; [|apply IH; lia|].
      - unfold cell. destruct (elem m i s) as [v|]; [|constructor]. destruct (is_zero v); repeat constructor.
      - intros a b Ha Hb. apply Hc in Ha. apply in_flat_map in Hb. destruct Hb as (j & Hj & Hb). apply Hc in Hb. apply in_seq in Hj.
        destruct Ha as (-> & _), Hb as (-> & _). cbn [fst snd]. lia. }
    assert (Rows : forall n s, StronglySorted (fun a b : nat * nat * T => fst (fst a) * cols m + snd (fst a) < fst (fst b) * cols m + snd (fst b)) (flat_map (fun i => flat_map (cell i) (seq 0 (cols m))) (seq s n))).
    { induction n as [|n IH]; intros s; cbn [seq flat_map]; [constructor|]. apply App; [apply Row; lia|apply IH|].
      intros a b Ha Hb. apply in_flat_map in Ha. destruct Ha as (j & Hj & Ha). apply Hc in Ha. apply in_seq in Hj.
      apply in_flat_map in Hb. destruct Hb as (i' & Hi' & Hb). apply in_flat_map in Hb. destruct Hb as (j' & Hj' & Hb). apply Hc in Hb. apply in_seq in Hi', Hj'.
      destruct Ha as (-> & _), Hb as (-> & _). cbn [fst snd]. nia. }
    apply Rows.
Qed.
Print Assumptions C19_do_non_zero.

(** SetData replaces all elements and accepts exactly as many; Copy takes the elements of a matrix of the same shape. *)
Theorem C20_set_data : forall (T : Type) (m : dense T), wf m ->
  (forall l m', set_data m l = Some m' <-> length l = rows m * cols m /\ m' = mkDense (rows m) (cols m) l) /\
  (forall o, wf o -> (forall m', copy_from m o = Some m' <-> rows m = rows o /\ cols m = cols o /\ m' = o)).
Proof.
  intros T m Hw. split.
  - intros l m'. unfold set_data. rewrite Hw. destruct (Nat.eqb_spec (length l) (rows m * cols m)).
    + split; [intros E; injection E as <-; auto|intros (_ & ->); reflexivity].
    + split; [discriminate|intros (E & _); contradiction].
  - intros o Ho m'. unfold copy_from, same_dims. destruct (Nat.eqb_spec (rows m) (rows o)) as [Er|Er]; cbn [andb].
    + destruct (Nat.eqb_spec (cols m) (cols o)) as [Ec|Ec].
      * split; [intros E; injection E as <-; repeat split; auto; rewrite Er, Ec; now destruct o|intros (_ & _ & ->); rewrite Er, Ec; now destruct o].
      * split; [discriminate|intros (_ & E & _); contradiction].
    + split; [discriminate|intros (E & _); contradiction].
Qed.
Print Assumptions C20_set_data.

Example C19_visits : do_non_zero 0 (Nat.eqb 0) (mkDense 2 2 [5; 0; 0; 7]) = [(0, 0, 5); (1, 1, 7)] /\
  set_data m23 [6; 5; 4; 3; 2; 1] = Some (mkDense 2 3 [6; 5; 4; 3; 2; 1]) /\ set_data m23 [1] = None.
Proof. repeat split. Qed.
