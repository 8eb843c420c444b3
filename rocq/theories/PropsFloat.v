(** * Properties of the element types: conversions and comparisons *)
From Coq Require Import List ZArith Bool Reals Lia Lra.
From Flocq Require Import Core BinarySingleNaN.
From Verif Require Import DenseModel DenseSpec FloatModel FloatSpec FloatProofs.
Import ListNotations.
Open Scope R_scope.

Lemma slen_eq S s : slen (mkSlice S s) = length (gelems s).
Proof. destruct s; reflexivity. Qed.

(** ** C50 *)
(** A scalar goes to the nearest value of the other type. *)
Theorem C50_scalar : forall D (f : scalar_value), converted (fval f) (value_of D f).
Proof. intros. apply conv_spec. Qed.
Print Assumptions C50_scalar.
(** From float32 to float64 no value changes, and converting back gives the same scalar again. *)
Theorem C50_widen : forall x : val F32, let y := value_of F64 (mkFloat F32 x) in
  is_finite y = is_finite x /\ is_nan y = is_nan x /\ Bsign y = Bsign x /\ B2R y = B2R x /\ value_of F32 (mkFloat F64 y) = x.
Proof.
  intros x y. split; [|split; [|split; [|split]]]; [..|apply (conv_back F32 F64); exact I]; unfold y, value_of; cbn [fdt fval];
  (destruct (is_finite x) eqn:F; [destruct (conv_wide F32 F64 x I F) as (A & B & C)|destruct x; try discriminate; reflexivity]); auto.
  destruct x; try discriminate; try reflexivity. now destruct (conv F32 F64 _).
Qed.
Print Assumptions C50_widen.
(** A slice of any type: every element converted, in order; nil stays nil; the same type changes nothing. *)
Theorem C50_slice : forall D (v : slice_value),
  match sval v with
  | None => slice_value_of D v = None
  | Some l => exists k, slice_value_of D v = Some k /\ length k = length l /\
      forall i x, nth_error l i = Some x -> exists y, nth_error k i = Some y /\ y = value_of D (mkFloat (sdt v) x)
  end.
Proof.
  intros D [S [l|]]; unfold slice_value_of; cbn [sdt sval]; rewrite convert_eq; [|reflexivity]. exists (map (conv S D) l). split; [reflexivity|]. split; [apply map_length|].
  intros i x H. exists (conv S D x). split; [now apply map_nth_error|reflexivity].
Qed.
Print Assumptions C50_slice.
Theorem C50_same : forall d (s : gslice (val d)), slice_value_of d (mkSlice d s) = s.
Proof. intros d s. unfold slice_value_of. cbn. destruct d; reflexivity. Qed.
Print Assumptions C50_same.
Theorem C50_round_trip : forall s : gslice (val F32), slice_value_of F32 (mkSlice F64 (slice_value_of F64 (mkSlice F32 s))) = s.
Proof.
  intros [l|]; unfold slice_value_of; cbn [sdt sval]; rewrite !convert_eq; [|reflexivity]. cbn. f_equal. rewrite map_map. erewrite map_ext; [apply map_id|]. intros x. apply (conv_back F32 F64). exact I.
Qed.
Print Assumptions C50_round_trip.
(** Matrices: SetData and NewDense with a slice of any type. *)
Theorem C50_set_data : forall d (m : dense (val d)) v, wf m ->
  match set_data m v with
  | None => slen v <> length (data m)
  | Some m' => slen v = length (data m) /\ is_matrix m' (rows m) (cols m) (fun i j => match nth_error (gelems (sval v)) (i * cols m + j) with Some x => Some (value_of d (mkFloat (sdt v) x)) | None => None end)
  end.
Proof.
  intros d m [S s] W. unfold set_data, slice_value_of. cbn [sdt sval]. rewrite convert_eq, slen_eq.
  assert (E : gelems (option_map (map (conv S d)) s) = map (conv S d) (gelems s)) by (destruct s; reflexivity). rewrite E, map_length.
  destruct (Nat.eqb_spec (length (gelems s)) (length (data m))) as [H|H]; cbn [negb]; [|exact H]. split; [exact H|]. split; [reflexivity|]. split; [reflexivity|].
  split; [unfold wf; cbn [data rows cols]; rewrite map_length, H; exact W|]. intros i j Hi Hj. unfold elem. cbn [data rows cols]. apply Nat.ltb_lt in Hi, Hj. rewrite Hi, Hj. cbn [andb].
  rewrite nth_error_map. destruct (nth_error (gelems s) _); reflexivity.
Qed.
Print Assumptions C50_set_data.
Theorem C50_new_dense : forall D v r c, new_dense D v (Some [Z.of_nat r; Z.of_nat c]) =
  if (slen v =? r * c)%nat then Some (mkDense r c (map (fun x => value_of D (mkFloat (sdt v) x)) (gelems (sval v)))) else None.
Proof.
  intros D [S s] r c. unfold new_dense, slice_value_of. cbn [sdt sval]. rewrite convert_eq, slen_eq.
  assert (E : gelems (option_map (map (conv S D)) s) = map (conv S D) (gelems s)) by (destruct s; reflexivity). rewrite E. cbn [from_slice]. rewrite map_length.
  destruct (Z.ltb_spec (Z.of_nat r) 0); [lia|]. destruct (Z.ltb_spec (Z.of_nat c) 0); [lia|]. cbn [orb]. rewrite !Nat2Z.id.
  destruct (Z.eqb_spec (Z.of_nat (length (gelems s))) (Z.of_nat r * Z.of_nat c)), (Nat.eqb_spec (length (gelems s)) (r * c)); try reflexivity; lia.
Qed.
Print Assumptions C50_new_dense.
(** A float32 matrix copied into float64 and back is the same matrix. *)
Theorem C50_matrix_round_trip : forall m : dense (val F32), wf m -> forall wide, new_dense F64 (data_slice (mkMatrix F32 m)) (Some [Z.of_nat (rows m); Z.of_nat (cols m)]) = Some wide ->
  set_data m (data_slice (mkMatrix F64 wide)) = Some m.
Proof.
  intros m W wide H. rewrite C50_new_dense in H. unfold slen in H. cbn [data_slice sdt sval mdt mat glen gelems] in H. destruct (Nat.eqb_spec (length (data m)) (rows m * cols m)); [|discriminate]. injection H as <-.
  unfold set_data, data_slice. cbn [mdt mat data]. pose proof (C50_round_trip (Some (data m))) as R.
  assert (E : slice_value_of F64 (mkSlice F32 (Some (data m))) = Some (map (fun x => value_of F64 (mkFloat F32 x)) (data m))) by (unfold slice_value_of; cbn [sdt sval]; now rewrite convert_eq).
  rewrite E in R. rewrite R. cbn [gelems]. rewrite Nat.eqb_refl. cbn [negb]. now destruct m.
Qed.
Print Assumptions C50_matrix_round_trip.

(** ** C54: comparisons *)
(** Equal holds exactly for matrices of one shape whose elements, the other's converted to the receiver's type, are the same numbers. *)
Theorem C54_equal : forall a b, wf (mat a) -> wf (mat b) ->
  mat_equal a b = true <-> rows (mat a) = rows (mat b) /\ cols (mat a) = cols (mat b) /\
    forall i j x y, elem (mat a) i j = Some x -> elem (mat b) i j = Some y -> same_number x (value_of (mdt a) (mkFloat (mdt b) y)).
Proof.
  intros [d a] [e b] Wa Wb. cbn [mat mdt] in *. unfold wf in Wa, Wb. unfold mat_equal, same_shape_b. cbn [mat mdt]. rewrite !andb_true_iff, !Nat.eqb_eq, <- and_assoc.
  split.
  - intros (R & E). split; [exact R|]. destruct R as (R & C). unfold equals, slen, data_slice in E. cbn [sval sdt mdt mat glen gelems] in E.
    assert (L : length (data a) = length (data b)) by (rewrite Wa, Wb; congruence). rewrite L, Nat.eqb_refl in E. cbn [negb] in E.
    intros i j x y X Y. unfold elem in X, Y. rewrite R, C in X. destruct ((i <? rows b)%nat && (j <? cols b)%nat); [|discriminate].
    destruct (Nat.eqb_spec (length (data b)) 0) as [Z|Z]; [apply length_zero_iff_nil in Z; rewrite Z in Y; destruct (i * cols b + j)%nat; discriminate|].
    unfold slice_value_of in E. cbn [sdt sval] in E. rewrite convert_eq in E. cbn [option_map gelems] in E. rewrite all_pairs_spec in E by now rewrite map_length.
    apply eq_val_spec. apply (E (i * cols b + j)%nat); [exact X|]. now apply map_nth_error.
  - intros ((R & C) & E). split; [auto|]. unfold equals, slen, data_slice. cbn [sval sdt mdt mat glen gelems].
    assert (L : length (data a) = length (data b)) by (rewrite Wa, Wb; congruence). rewrite L, Nat.eqb_refl. cbn [negb].
    destruct (Nat.eqb_spec (length (data b)) 0) as [Z|Z]; [reflexivity|]. unfold slice_value_of. cbn [sdt sval]. rewrite convert_eq. cbn [option_map gelems]. rewrite all_pairs_spec by now rewrite map_length.
    intros k x y X Y. rewrite nth_error_map in Y. destruct (nth_error (data b) k) as [y'|] eqn:Y'; [|discriminate]. injection Y as <-. apply eq_val_spec.
    assert (K : (k < rows b * cols b)%nat) by (rewrite <- Wb; apply nth_error_Some; congruence).
    assert (cols b <> 0)%nat by (intros Q; rewrite Q in K; lia). apply (E (k / cols b)%nat (k mod cols b)%nat).
    + unfold elem. rewrite R, C. rewrite (proj2 (Nat.ltb_lt _ _)) by (apply Nat.div_lt_upper_bound; lia). rewrite (proj2 (Nat.ltb_lt (k mod cols b) _)) by now apply Nat.mod_upper_bound. cbn [andb]. rewrite (Nat.mul_comm (k / cols b)), <- Nat.div_mod by auto. exact X.
    + unfold elem. rewrite (proj2 (Nat.ltb_lt _ _)) by (apply Nat.div_lt_upper_bound; lia). rewrite (proj2 (Nat.ltb_lt (k mod cols b) _)) by now apply Nat.mod_upper_bound. cbn [andb]. rewrite (Nat.mul_comm (k / cols b)), <- Nat.div_mod by auto. exact Y'.
Qed.
Print Assumptions C54_equal.
(** It is symmetric when the other matrix's type is not the wider one ... *)
Theorem C54_equal_flip : forall a b, wf (mat a) -> wf (mat b) -> mdt a = mdt b \/ mdt a = F64 -> mat_equal a b = true -> mat_equal b a = true.
Proof.
  intros a b Wa Wb T H. apply C54_equal in H; auto. apply C54_equal; auto. destruct H as (R & C & E). split; [auto|]. split; [auto|]. intros i j y x Y X.
  apply (same_flip (mdt a) (mdt b)); [|now apply (E i j)]. clear -T. generalize dependent (mdt a). intros d. generalize (mdt b). intros e T. destruct d, e; try exact I. destruct T; discriminate.
Qed.
Print Assumptions C54_equal_flip.
(** ... and not in general: a float32 matrix can equal a float64 one that does not equal it. *)
Definition one_32 : val F32 := binary_normalize 24 128 eq_refl eq_refl mode_NE 1 0 false.
Definition above_one : val F64 := binary_normalize 53 1024 eq_refl eq_refl mode_NE (2 ^ 30 + 1) (-30) false.
Theorem C54_refuted : exists a b, wf (mat a) /\ wf (mat b) /\ mat_equal a b = true /\ mat_equal b a = false.
Proof. exists (mkMatrix F32 (mkDense 1 1 [one_32])), (mkMatrix F64 (mkDense 1 1 [above_one])). repeat split; vm_compute; reflexivity. Qed.
Print Assumptions C54_refuted.
(** InDelta on finite elements: the differences, rounded to the receiver's type, do not exceed delta. *)
Theorem C54_in_delta_partial : forall a b delta, wf (mat a) -> wf (mat b) -> is_finite delta = true ->
  (forall i j x, elem (mat a) i j = Some x -> is_finite x = true) ->
  (forall i j y, elem (mat b) i j = Some y -> is_finite (value_of (mdt a) (mkFloat (mdt b) y)) = true) ->
  mat_in_delta a b delta = true <-> rows (mat a) = rows (mat b) /\ cols (mat a) = cols (mat b) /\
    forall i j x y, elem (mat a) i j = Some x -> elem (mat b) i j = Some y ->
      let r := nearest (mdt a) (B2R x - B2R (value_of (mdt a) (mkFloat (mdt b) y))) in Rabs r < limit (mdt a) /\ Rabs r <= B2R delta.
Proof.
  intros [d a] [e b] delta Wa Wb Fd Fa Fb. cbn [mat mdt] in *. unfold wf in Wa, Wb. unfold mat_in_delta, same_shape_b. cbn [mat mdt]. rewrite !andb_true_iff, !Nat.eqb_eq, <- and_assoc.
  assert (At : forall i j, elem b i j = if ((i <? rows b) && (j <? cols b))%nat then nth_error (data b) (i * cols b + j) else None) by reflexivity.
  split.
  - intros (R & E). split; [exact R|]. destruct R as (R & C). unfold in_delta, slen, data_slice in E. cbn [sval sdt mdt mat glen gelems] in E.
    assert (L : length (data a) = length (data b)) by (rewrite Wa, Wb; congruence). rewrite L, Nat.eqb_refl in E. cbn [negb] in E.
    intros i j x y X Y. pose proof (Fa i j x X) as Fx. pose proof (Fb i j y Y) as Fy. unfold elem in X, Y. rewrite R, C in X. destruct ((i <? rows b)%nat && (j <? cols b)%nat); [|discriminate].
    destruct (Nat.eqb_spec (length (data b)) 0) as [Z|Z]; [apply length_zero_iff_nil in Z; rewrite Z in Y; destruct (i * cols b + j)%nat; discriminate|].
    unfold slice_value_of in E. cbn [sdt sval] in E. rewrite convert_eq in E. cbn [option_map gelems] in E. rewrite all_pairs_spec in E by now rewrite map_length.
    apply beyond_spec; auto. apply negb_true_iff. apply (E (i * cols b + j)%nat); [exact X|]. now apply map_nth_error.
  - intros ((R & C) & E). split; [auto|]. unfold in_delta, slen, data_slice. cbn [sval sdt mdt mat glen gelems].
    assert (L : length (data a) = length (data b)) by (rewrite Wa, Wb; congruence). rewrite L, Nat.eqb_refl. cbn [negb].
    destruct (Nat.eqb_spec (length (data b)) 0) as [Z|Z]; [reflexivity|]. unfold slice_value_of. cbn [sdt sval]. rewrite convert_eq. cbn [option_map gelems]. rewrite all_pairs_spec by now rewrite map_length.
    intros k x y X Y. rewrite nth_error_map in Y. destruct (nth_error (data b) k) as [y'|] eqn:Y'; [|discriminate]. injection Y as <-.
    assert (K : (k < rows b * cols b)%nat) by (rewrite <- Wb; apply nth_error_Some; congruence).
    assert (cols b <> 0)%nat by (intros Q; rewrite Q in K; lia).
    assert (X1 : elem a (k / cols b) (k mod cols b) = Some x).
    { unfold elem. rewrite R, C. rewrite (proj2 (Nat.ltb_lt _ _)) by (apply Nat.div_lt_upper_bound; lia). rewrite (proj2 (Nat.ltb_lt (k mod cols b) _)) by now apply Nat.mod_upper_bound. cbn [andb]. rewrite (Nat.mul_comm (k / cols b)), <- Nat.div_mod by auto. exact X. }
    assert (Y1 : elem b (k / cols b) (k mod cols b) = Some y').
    { unfold elem. rewrite (proj2 (Nat.ltb_lt _ _)) by (apply Nat.div_lt_upper_bound; lia). rewrite (proj2 (Nat.ltb_lt (k mod cols b) _)) by now apply Nat.mod_upper_bound. cbn [andb]. rewrite (Nat.mul_comm (k / cols b)), <- Nat.div_mod by auto. exact Y'. }
    apply negb_true_iff, beyond_spec; [exact Fd|eauto|apply (Fb _ _ _ Y1)|]. exact (E _ _ _ _ X1 Y1).
Qed.
Print Assumptions C54_in_delta_partial.
(** A NaN is in delta of everything. *)
Theorem C54_nan_refuted : forall d x delta, mat_in_delta (mkMatrix d (mkDense 1 1 [B754_nan])) (mkMatrix d (mkDense 1 1 [x])) delta = true /\
  mat_equal (mkMatrix d (mkDense 1 1 [B754_nan])) (mkMatrix d (mkDense 1 1 [B754_nan])) = false.
Proof.
  intros d x delta. split; [|destruct d; reflexivity]. unfold mat_in_delta, same_shape_b, in_delta, slice_value_of. cbn [mat mdt data_slice sdt sval slen]. rewrite convert_eq. cbn. unfold beyond, sub_val.
  destruct d; destruct delta as [|[]| |[]]; reflexivity.
Qed.
Print Assumptions C54_nan_refuted.
Example C50_case : conv F64 F32 above_one = one_32 /\ conv F32 F64 one_32 <> above_one /\
  slice_value_of F32 (mkSlice F64 (Some [above_one; B754_nan; B754_zero true])) = Some [one_32; B754_nan; B754_zero true] /\ sval (mkSlice F64 None) = None.
Proof.
  assert (E : conv F64 F32 above_one = one_32) by (apply B2SF_inj; vm_compute; reflexivity).
  split; [exact E|]. split; [intros H; apply (f_equal B2SF) in H; vm_compute in H; discriminate|]. split; [|reflexivity].
  unfold slice_value_of. cbn [sdt sval convert_slice convert_each map]. rewrite E. reflexivity.
Qed.
Example C54_case : mat_in_delta (mkMatrix F32 (mkDense 1 1 [one_32])) (mkMatrix F64 (mkDense 1 1 [above_one])) (B754_zero false) = true /\
  mat_in_delta (mkMatrix F64 (mkDense 1 1 [above_one])) (mkMatrix F32 (mkDense 1 1 [one_32])) (B754_zero false) = false.
Proof. split; vm_compute; reflexivity. Qed.
