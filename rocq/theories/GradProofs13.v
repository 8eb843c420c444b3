(** * Forward values of the products and rearrangements *)
From Coq Require Import Reals List Arith Bool ZArith Lia Lra.
From Coquelicot Require Import Coquelicot.
From Verif Require Import DenseModel DenseSpec DenseLemmas DenseProofs DenseProofs2 ArithModel ArithSpec ArithProofs GradModel GradSpec GradLemmas GradProofs GradProofs2 GradProofs4 GradProofs5 GradProofs6 GradProofs7 GradProofs8 GradProofs9 GradProofs10 GradProofs12.
Import ListNotations.
Open Scope R_scope.

Section Binary.
Variables (x1 x2 : mat) (r c : nat).
Hypotheses (H1 : fits x1 r c) (H2 : fits x2 r c).
Lemma add_gives : gives add_fn [x1; x2] r c (fun i j => rget x1 i j + rget x2 i j).
Proof. now apply m_add_elems. Qed.
Lemma sub_gives : gives sub_fn [x1; x2] r c (fun i j => rget x1 i j - rget x2 i j).
Proof. now apply m_sub_elems. Qed.
Lemma prod_gives : gives prod_fn [x1; x2] r c (fun i j => rget x1 i j * rget x2 i j).
Proof. now apply m_prod_elems. Qed.
Lemma div_gives : gives div_fn [x1; x2] r c (fun i j => rget x1 i j / rget x2 i j).
Proof. now apply m_div_elems. Qed.
Lemma dot_gives : gives dot_fn [x1; x2] 1 1 (fun _ _ => Rsum r (fun i => Rsum c (fun j => rget x1 i j * rget x2 i j))).
Proof. now apply dot_forward. Qed.
End Binary.
Section Scalar.
Variables (x s : mat) (r c : nat).
Hypotheses (Hx : fits x r c) (Hs : fits s 1 1).
Lemma add_scalar_gives : gives add_scalar_fn [x; s] r c (fun i j => rget x i j + rget s 0 0).
Proof. unfold gives. cbn. rewrite item_fits by auto. cbn. eexists. split; [reflexivity|]. now apply m_adds_elems. Qed.
Lemma sub_scalar_gives : gives sub_scalar_fn [x; s] r c (fun i j => rget x i j - rget s 0 0).
Proof. unfold gives. cbn. rewrite item_fits by auto. cbn. eexists. split; [reflexivity|]. now apply m_subs_elems. Qed.
Lemma reverse_sub_gives : gives reverse_sub_fn [x; s] r c (fun i j => rget s 0 0 - rget x i j).
Proof.
  unfold gives. cbn. rewrite item_fits by auto. cbn. eexists. split; [reflexivity|]. pose proof (m_prods_elems x (-1) r c Hx) as E.
  eapply elems_ext; [apply m_adds_in_elems, (elems_fits _ _ _ _ E)|]. intros i j Hi Hj. cbv beta. rewrite (rget_elems _ _ _ _ i j E Hi Hj). ring.
Qed.
Lemma prod_scalar_gives : gives prod_scalar_fn [x; s] r c (fun i j => rget x i j * rget s 0 0).
Proof. unfold gives. cbn. rewrite item_fits by auto. cbn. eexists. split; [reflexivity|]. now apply m_prods_elems. Qed.
Lemma div_scalar_gives : gives div_scalar_fn [x; s] r c (fun i j => rget x i j / rget s 0 0).
Proof.
  unfold gives. cbn. rewrite item_fits by auto. cbn. eexists. split; [reflexivity|].
  eapply elems_ext; [apply (m_prods_elems x (1 / rget s 0 0) r c Hx)|]. intros i j Hi Hj. cbv beta. unfold Rdiv. ring.
Qed.
End Scalar.

Lemma mul_gives wide w x r n c : fits w r n -> fits x n c -> gives (mul_fn wide) [w; x] r c (fun i k => Rsum n (fun j => rget w i j * rget x j k)).
Proof. apply m_mul_elems. Qed.
Lemma mul_t_gives wide x1 x2 r c : fits x1 r c -> fits x2 r 1 -> gives (mul_t_fn wide) [x1; x2] c 1 (fun i _ => Rsum r (fun k => rget x1 k i * rget x2 k 0)).
Proof. apply m_mul_t_elems. Qed.
Lemma affine_gives wide b wx : wf b -> wx <> [] -> matched (rows b) (cols b) wx ->
  gives (affine_fn wide) (b :: wx) (rows b) (cols b) (fun i k => rget b i k + psum wx i k).
Proof. intros. now apply affine_forward. Qed.

(** rearrangements *)
Lemma copy_gives x : fwd copy_fn [x] = Some x.
Proof. destruct x. reflexivity. Qed.
Lemma transpose_gives x r c : fits x r c -> gives transpose_fn [x] c r (fun i j => rget x j i).
Proof. intros H. exists (m_t x). split; [reflexivity|]. now apply m_t_elems. Qed.
Lemma reshape_gives x r c : wf x -> (0 <= r)%Z -> (0 <= c)%Z -> (r * c)%Z = Z.of_nat (rows x * cols x) ->
  fwd (reshape_fn r c) [x] = Some (mkDense (Z.to_nat r) (Z.to_nat c) (data x)).
Proof.
  intros W Hr Hc E. cbn [fwd reshape_fn un]. destruct (reshape_spec x r c W) as [P N]. destruct (reshape x [r; c]) as [m|].
  - destruct (P m eq_refl) as (_ & A & B & _ & D). destruct m. cbn in *. subst. reflexivity.
  - exfalso. apply (proj1 N eq_refl). auto.
Qed.
Lemma flatten_gives x : wf x -> fwd flatten_fn [x] = Some (mkDense 1 (rows x * cols x) (data x)).
Proof. intros W. cbn. unfold flatten. now rewrite W. Qed.
Lemma slice_gives x fr fc tr tc : wf x -> (0 <= fr < Z.of_nat (rows x))%Z -> (0 <= fc < Z.of_nat (cols x))%Z ->
  (fr <= tr <= Z.of_nat (rows x))%Z -> (fc <= tc <= Z.of_nat (cols x))%Z ->
  gives (slice_fn fr fc tr tc) [x] (Z.to_nat (tr - fr)) (Z.to_nat (tc - fc)) (fun i j => rget x (Z.to_nat fr + i) (Z.to_nat fc + j)).
Proof.
  intros W H1 H2 H3 H4. destruct (submatrix_spec x fr fc tr tc W) as (m & E & M); [unfold slice_ok; lia|]. exists m. split; [exact E|].
  apply (matrix_elems _ _ _ _ _ M). intros i j Hi Hj. apply (elem_rget x (rows x) (cols x)); [now apply fits_wf|lia|lia].
Qed.
Lemma row_view_gives x i : wf x -> (0 <= i < Z.of_nat (rows x))%Z -> gives (row_view_fn i) [x] 1 (cols x) (fun _ j => rget x (Z.to_nat i) j).
Proof.
  intros W Hi. destruct (extract_row_spec x i W Hi) as (m & E & M). exists m. split; [exact E|].
  apply (matrix_elems _ _ _ _ _ M). intros a j Ha Hj. apply (elem_rget x (rows x) (cols x)); [now apply fits_wf|lia|lia].
Qed.
Lemma col_view_gives x j : wf x -> (0 <= j < Z.of_nat (cols x))%Z -> gives (col_view_fn j) [x] (rows x) 1 (fun i _ => rget x i (Z.to_nat j)).
Proof.
  intros W Hi. destruct (extract_column_spec 0 x j W Hi) as (m & E & M). exists m. split; [exact E|].
  apply (matrix_elems _ _ _ _ _ M). intros a b Ha Hj. apply (elem_rget x (rows x) (cols x)); [now apply fits_wf|lia|lia].
Qed.
Lemma at2_gives x i j : wf x -> (0 <= i < Z.of_nat (rows x))%Z -> (0 <= j < Z.of_nat (cols x))%Z ->
  fwd (at_fn [i; j]) [x] = Some (scalar (rget x (Z.to_nat i) (Z.to_nat j))).
Proof. intros W Hi Hj. cbn. rewrite (at_rget x (rows x) (cols x)) by (auto using fits_wf). reflexivity. Qed.
Lemma at1_gives x i : wf x -> is_vector x = true -> (0 <= i < Z.of_nat (rows x * cols x))%Z ->
  fwd (at_fn [i]) [x] = Some (scalar (nth (Z.to_nat i) (data x) 0)).
Proof. intros W V Hi. rewrite <- (Z2Nat.id i) at 1 by lia. cbn. rewrite at_vector by (auto; rewrite W; lia). reflexivity. Qed.
Lemma rotate_gives x k : wf x -> cols x = 1%nat -> (0 < k < Z.of_nat (rows x))%Z ->
  exists y, fwd (rotate_fn k) [x] = Some y /\ fits y (rows x) 1 /\ data y = skipn (rows x - Z.to_nat k) (data x) ++ firstn (rows x - Z.to_nat k) (data x).
Proof.
  intros W Hc Hk. cbn [fwd rotate_fn un]. assert (L : length (data x) = rows x) by (unfold wf in W; rewrite Hc in W; lia). rewrite L.
  replace (Z.of_nat (rows x) - k)%Z with (Z.of_nat (rows x - Z.to_nat k)) by lia. apply rotate_data; [repeat split; auto|lia].
Qed.
Lemma concat_gives xs : xs <> [] -> forallb is_vector xs = true ->
  exists y, fwd concat_fn xs = Some y /\ wf y /\ cols y = 1%nat /\ data y = concat (map data xs).
Proof.
  intros Hne HV. destruct (concat_fwd xs HV) as (m & E & (A & B & C) & D). exists m. split; [destruct xs; [congruence|exact E]|]. auto.
Qed.
Lemma nth_error_nth_R (l : list R) k : (k < length l)%nat -> nth_error l k = Some (nth k l 0).
Proof. intros. now apply nth_error_nth'. Qed.
Lemma stack_gives xs c : xs <> [] -> vectors_of c xs ->
  gives stack_fn xs (length xs) c (fun i j => nth j (data (nth i xs (mkDense 0 0 []))) 0).
Proof.
  intros Hne HV. destruct (stack_spec 0 xs Hne) as [P _]. unfold vectors_of in HV. rewrite Forall_forall in HV.
  assert (Hn : match xs with [] => 0 | w :: _ => length (data w) end%nat = c) by (destruct xs as [|w xs]; [congruence|]; apply HV; now left). rewrite Hn in P.
  assert (Hok : List.Forall (fun v : mat => is_vector v = true /\ length (data v) = c) xs) by (apply Forall_forall; intros v Hv; destruct (HV v Hv) as (_ & A & B); auto).
  rewrite <- Hn in Hok; change (stackable xs) in Hok; destruct (P Hok) as (m & E & M).
  exists m. split; [destruct xs; [congruence|exact E]|]. apply (matrix_elems _ _ _ _ _ M). intros i j Hi Hj. cbv beta.
  rewrite (nth_error_nth' xs (mkDense 0 0 []) Hi). apply nth_error_nth'. destruct (HV (nth i xs (mkDense 0 0 []))) as (_ & _ & ->); [now apply nth_In|auto].
Qed.
Lemma append_rows_gives x vs : wf x -> vectors_of (cols x) vs ->
  gives append_rows_fn (x :: vs) (rows x + length vs) (cols x)
    (fun i j => if (i <? rows x)%nat then rget x i j else nth j (data (nth (i - rows x) vs (mkDense 0 0 []))) 0).
Proof.
  intros W HV. destruct (append_rows_spec 0 x vs W) as [P N]. unfold vectors_of in HV. rewrite Forall_forall in HV. unfold gives. cbn [fwd append_rows_fn].
  destruct (append_rows 0 x vs) as [m|].
  - exists m. split; [reflexivity|]. apply (matrix_elems _ _ _ _ _ (P m eq_refl)). intros i j Hi Hj. cbv beta. destruct (Nat.ltb_spec i (rows x)).
    + apply (elem_rget x (rows x) (cols x)); auto. now apply fits_wf.
    + assert (Hk : (i - rows x < length vs)%nat) by lia. rewrite (nth_error_nth' vs (mkDense 0 0 []) Hk). apply nth_error_nth'.
      destruct (HV (nth (i - rows x) vs (mkDense 0 0 []))) as (_ & _ & ->); [now apply nth_In|auto].
  - exfalso. apply (proj1 N eq_refl). apply Forall_forall. intros v Hv. destruct (HV v Hv) as (_ & A & B). auto.
Qed.

(** element-wise functions serve their first operand only *)
Lemma elementwise_serves f phi on req x ps : elementwise f phi on req x ps -> (forall k, (1 <= k <= length ps)%nat -> req k = false) ->
  hands_one_each f req (x :: ps) /\ right_shapes f req (x :: ps).
Proof.
  intros ((y & Hy & W & Sy & _) & HB) HR. split.
  - exists y. split; auto. intros gy Wg Sg. destruct (HB gy Wg) as (g & Hg & _); [unfold same_shape in *; intuition congruence|].
    exists (if req 0%nat then [(0%nat, g)] else []). split; auto. intros k. cbn [length]. destruct k as [|k].
    + cbn [Nat.ltb Nat.leb andb]. destruct (req 0%nat); reflexivity.
    + replace (count_occ Nat.eq_dec (map fst (if req 0%nat then [(0%nat, g)] else [])) (S k)) with 0%nat by (destruct (req 0%nat); reflexivity).
      destruct (Nat.ltb_spec (S k) (S (length ps))); [|reflexivity]. rewrite HR by lia. reflexivity.
  - intros y' Hy' gy Wg Sg calls k g Hc Hin. rewrite Hy in Hy'. injection Hy' as <-. destruct (HB gy Wg) as (g' & Hg & Wg' & Sg' & _); [unfold same_shape in *; intuition congruence|].
    rewrite Hg in Hc. injection Hc as <-. destruct (req 0%nat); [|destruct Hin]. destruct Hin as [[= <- <-]|[]]. split; auto. exists x. auto.
Qed.
Lemma dropout_value p draw x r c : fits x r c -> fits draw r c -> (forall v, In v (data draw) -> v = 0 \/ v = 1) ->
  exists y, fwd (dropout_fn p draw) [x] = Some y /\ elems y r c (fun i j => rget x i j * (if Rlt_dec 0 (1 - p) then rget draw i j / (1 - p) else 0)) /\
    forall i j, (i < r)%nat -> (j < c)%nat -> rget y i j = 0 \/ rget y i j = rget x i j / (1 - p).
Proof.
  intros Hx Hd HB. pose proof (dropout_mask_elems p draw x r c Hd Hx) as Em. destruct (m_prod_elems x (dropout_mask p draw x) r c Hx (elems_fits _ _ _ _ Em)) as (y & Hy & Ey).
  exists y. split; [exact Hy|]. assert (E : elems y r c (fun i j => rget x i j * (if Rlt_dec 0 (1 - p) then rget draw i j / (1 - p) else 0))).
  { eapply elems_ext; [exact Ey|]. intros i j Hi Hj. cbv beta. rewrite (rget_elems _ _ _ _ i j Em Hi Hj). unfold Rltb. destruct (Rlt_dec 0 (1 - p)); [|reflexivity]. unfold Rdiv. ring. }
  split; [exact E|]. intros i j Hi Hj. rewrite (rget_elems _ _ _ _ i j E Hi Hj). destruct (Rlt_dec 0 (1 - p)); [|left; ring].
  assert (HI : In (rget draw i j) (data draw)). { rewrite (rget_flat draw r c) by auto. apply nth_In. rewrite (fits_len _ _ _ Hd). nia. }
  destruct (HB _ HI) as [->| ->]; [left|right]; unfold Rdiv; ring.
Qed.

Lemma rotate_edges req x : wf x -> cols x = 1%nat -> (0 < rows x)%nat -> req 0%nat = true ->
  fwd (rotate_fn 0) [x] = None /\
  (exists y, fwd (rotate_fn (Z.of_nat (rows x))) [x] = Some y) /\
  forall gy, wf gy -> same_shape gy x -> bwd (rotate_fn (Z.of_nat (rows x))) [x] req gy = None.
Proof.
  intros W Hc Hr Hq. assert (L : length (data x) = rows x) by (unfold wf in W; rewrite Hc in W; lia).
  assert (P : forall m, wf m -> rows m = rows x -> cols m = cols x -> rotate_m m (Z.of_nat (rows x)) = None).
  { intros m Wm R C. assert (Lm : length (data m) = rows x) by (unfold wf in Wm; rewrite C, R, Hc in Wm; lia). unfold rotate_m. rewrite Lm.
    rewrite (proj2 (submatrix_panics m (Z.of_nat (rows x)) 0 (Z.of_nat (rows x)) 1)); [|unfold slice_ok; lia]. destruct (submatrix m 0 0 _ 1); reflexivity. }
  split; [|split].
  - cbn [fwd rotate_fn un]. rewrite L, Z.sub_0_r. now apply P.
  - cbn [fwd rotate_fn un]. rewrite L, Z.sub_diag. destruct (rotate_data x (rows x) 0) as (m & E & _); [repeat split; auto|auto|]. exists m. exact E.
  - intros gy Wg (Sr & Sc). cbn [bwd rotate_fn un_b]. rewrite Hq. cbn [when]. now rewrite P.
Qed.
