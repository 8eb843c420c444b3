(** * Properties of serialization *)
From Coq Require Import List ZArith Bool Lia Arith.
From Verif Require Import DenseModel MarshalModel.
Import ListNotations.
Open Scope Z_scope.

(** ** What a matrix is *)
(** every element is a bit pattern of the element type *)
Definition patterns {G} (d : mdense G) : Prop := forall v, In v (mdata d) -> 0 <= v < match mtype d with Float32 => 2 ^ 32 | Float64 => 2 ^ 64 end.
(** every dimension fits in 32 bits *)
Definition small_shape {G} (d : mdense G) : Prop := forall n, In n (mshape d) -> 0 <= n < 2 ^ 31.

Lemma le_length n : forall v, length (le n v) = n.
Proof. induction n; cbn; intros; [reflexivity|now rewrite IHn]. Qed.
Lemma un_le_le n : forall v, 0 <= v < 256 ^ Z.of_nat n -> un_le (le n v) = v.
Proof.
  induction n as [|n IH]; intros v H; [cbn in *; lia|]. cbn [le un_le]. rewrite Nat2Z.inj_succ, Z.pow_succ_r in H by lia. rewrite IH; [symmetry; rewrite Z.add_comm; apply Z.div_mod; lia|].
  split; [apply Z.div_pos; lia|]. apply Z.div_lt_upper_bound; lia.
Qed.
Lemma int32_id v : - 2 ^ 31 <= v < 2 ^ 31 -> int32 v = v.
Proof. intros H. unfold int32. rewrite Z.mod_small by lia. lia. Qed.
Lemma int32_mod v : int32 (v mod 2 ^ 32) = int32 v.
Proof. unfold int32. now rewrite Zplus_mod_idemp_l. Qed.
Lemma write_eq size l : vbytes (write_vector size l) = flat_map (fun v => le size (v mod 256 ^ Z.of_nat size)) l.
Proof.
  unfold write_vector. cbn [vbytes]. rewrite <- fold_left_rev_right, rev_involutive. induction l as [|x l IH]; [reflexivity|]. cbn. now rewrite IH.
Qed.
Lemma bytes_len size l : length (flat_map (fun v => le size (v mod 256 ^ Z.of_nat size)) l) = (length l * size)%nat.
Proof. induction l as [|x l IH]; [reflexivity|]. cbn. rewrite app_length, le_length, IH. reflexivity. Qed.
Lemma read_at size l i x : nth_error l i = Some x -> un_le (slice (flat_map (fun v => le size (v mod 256 ^ Z.of_nat size)) l) (i * size) (i * size + size)) = x mod 256 ^ Z.of_nat size.
Proof.
  revert i. induction l as [|y l IH]; intros [|i] H; try discriminate; cbn [flat_map].
  - injection H as ->. unfold slice. cbn [Nat.mul Nat.add skipn]. rewrite firstn_app, le_length, Nat.sub_0_r, Nat.sub_diag. cbn [firstn]. rewrite app_nil_r, firstn_all2 by now rewrite le_length. apply un_le_le. apply Z.mod_pos_bound. lia.
  - cbn [nth_error] in H. rewrite <- (IH i H). f_equal. unfold slice. replace (S i * size)%nat with (size + i * size)%nat by lia.
    rewrite skipn_app, le_length. rewrite (skipn_all2 (le size _)) by (rewrite le_length; lia). cbn [app]. f_equal; [lia|]. f_equal. lia.
Qed.
Lemma read_all (f : Z -> Z) (l : list Z) : forall (h : nat -> Z), (forall i x, nth_error l i = Some x -> h i = f x) -> map h (seq 0 (length l)) = map f l.
Proof.
  induction l as [|x l IH]; intros h H; [reflexivity|]. cbn. f_equal; [now apply (H 0%nat)|]. rewrite <- seq_shift, map_map. apply IH. intros i y E. now apply (H (S i)).
Qed.
Lemma int32_idem v : int32 (int32 v) = int32 v.
Proof. apply int32_id. unfold int32. pose proof (Z.mod_pos_bound (v + 2 ^ 31) (2 ^ 32) ltac:(lia)). lia. Qed.
Lemma marshalled {G} (d d0 : mdense G) : patterns d -> mtype d0 = mtype d ->
  unmarshal d0 (marshal d) = Some (mkM (mtype d) (map int32 (mshape d)) (mdata d) (mrequires d) (mgrad d0)).
Proof.
  intros P T. unfold unmarshal.
  assert (E : get_dtype (marshal d) = tag (mtype d)) by (unfold get_dtype, marshal, int_slot; cbn; destruct (mtype d); reflexivity). rewrite E, T, Z.eqb_refl. cbn [negb].
  assert (H1 : map (get_shape (marshal d)) (seq 0 (shape_length (marshal d))) = map int32 (mshape d)).
  { unfold shape_length, marshal at 2. cbn [t_shape]. unfold write_vector. cbn [vlen]. rewrite (read_all int32); [rewrite map_map; apply map_ext, int32_idem|].
    intros i x H. unfold get_shape, marshal. cbn [t_shape]. rewrite write_eq, (read_at 4 _ i x H). apply int32_mod. }
  assert (H2 : bytes_to_slice (size_of (mtype d)) (data_bytes (size_of (mtype d)) (marshal d)) (data_length (marshal d)) = mdata d).
  { unfold data_bytes, data_length, marshal. cbn [t_data]. rewrite write_eq. unfold write_vector. cbn [vlen]. unfold slice. cbn [skipn]. rewrite Nat.sub_0_r, firstn_all2 by now rewrite bytes_len.
    unfold bytes_to_slice. destruct (flat_map _ (mdata d)) as [|b bs] eqn:F.
    - apply (f_equal (@length Z)) in F. rewrite bytes_len in F. cbn in F. destruct (mdata d); [reflexivity|]. destruct (mtype d); cbn in F; lia.
    - rewrite <- F. rewrite (read_all (fun v => v mod 256 ^ Z.of_nat (size_of (mtype d)))); [|intros i x H; now apply read_at].
      clear F. unfold patterns in P. induction (mdata d) as [|x l IH]; [reflexivity|]. cbn [map]. f_equal; [|apply IH; intros; apply P; now right].
      apply Z.mod_small. specialize (P x (or_introl eq_refl)). destruct (mtype d); exact P. }
  rewrite H1, H2. do 2 f_equal. unfold get_requires, marshal, bool_slot. cbn. now destruct (mrequires d).
Qed.

(** ** C23 *)
(** Reading back what was written gives the same type, shape, data and flag; the gradient of the receiver stays. *)
Theorem C23_round_trip_partial : forall G (d d0 : mdense G), patterns d -> small_shape d -> mtype d0 = mtype d ->
  exists d', unmarshal d0 (marshal d) = Some d' /\ mtype d' = mtype d /\ mshape d' = mshape d /\ mdata d' = mdata d /\ mrequires d' = mrequires d /\ mgrad d' = mgrad d0.
Proof.
  intros G d d0 P S T. eexists. split; [now apply marshalled|]. cbn. repeat split. unfold small_shape in S. induction (mshape d) as [|n l IH]; [reflexivity|]. cbn. f_equal; [|apply IH; intros; apply S; now right].
  apply int32_id. specialize (S n (or_introl eq_refl)). lia.
Qed.
Print Assumptions C23_round_trip_partial.
(** A matrix with elements has a small shape unless it has 2^31 elements or more. *)
Theorem C23_round_trip : forall G (d d0 : mdense G) r c, patterns d -> mshape d = [r; c] -> 0 <= r -> 0 <= c -> Z.of_nat (length (mdata d)) = r * c -> mdata d <> [] -> Z.of_nat (length (mdata d)) < 2 ^ 31 -> mtype d0 = mtype d ->
  exists d', unmarshal d0 (marshal d) = Some d' /\ mtype d' = mtype d /\ mshape d' = mshape d /\ mdata d' = mdata d /\ mrequires d' = mrequires d /\ mgrad d' = mgrad d0.
Proof.
  intros G d d0 r c P S R C L N B T. apply C23_round_trip_partial; auto. intros n. rewrite S. assert (r * c <> 0) by (rewrite <- L; destruct (mdata d); [congruence|cbn; lia]). assert (r <> 0 /\ c <> 0) by lia. intros [<- | [<- | []]]; nia.
Qed.
Print Assumptions C23_round_trip.
(** A table written for the other element type is an error. *)
Theorem C23_reject : forall G (d d0 : mdense G), mtype d0 <> mtype d -> unmarshal d0 (marshal d) = None.
Proof. intros G d d0 N. unfold unmarshal, get_dtype, marshal, int_slot. cbn. destruct (mtype d), (mtype d0); try congruence; reflexivity. Qed.
Print Assumptions C23_reject.
(** A dimension beyond 32 bits, which a matrix without elements can have, is lost. *)
Theorem C23_refuted : forall G t n (g : option G), 2 ^ 31 <= n -> let d := mkM t [n; 0] [] false (@None G) in
  exists d', unmarshal (mkM t [] [] false g) (marshal d) = Some d' /\ mshape d' <> mshape d.
Proof.
  intros G t n g H d. eexists. split; [apply marshalled; [intros v []|reflexivity]|]. cbn [mshape d map]. intros E. injection E as E. unfold int32 in E. pose proof (Z.mod_pos_bound (n + 2 ^ 31) (2 ^ 32) ltac:(lia)). lia.
Qed.
Print Assumptions C23_refuted.
Example C23_case : unmarshal (mkM Float32 [9] [] false (Some tt)) (marshal (mkM Float32 [2; 1] [1065353216; 2147483648] true (@None unit))) = Some (mkM Float32 [2; 1] [1065353216; 2147483648] true (Some tt)) /\
  vbytes (write_vector 4 [1065353216; 1]) = [0; 0; 128; 63; 1; 0; 0; 0] /\
  unmarshal (mkM Float64 [9] [] false (Some tt)) (marshal (mkM Float32 [2; 1] [1065353216; 2147483648] true (@None unit))) = None.
Proof. repeat split. Qed.
