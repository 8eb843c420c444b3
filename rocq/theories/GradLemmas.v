From Coq Require Import Reals List Arith Bool ZArith Lia Lra Ring_theory.
From Coquelicot Require Import Coquelicot.
From Verif Require Import DenseModel DenseSpec DenseLemmas DenseProofs DenseProofs2 ArithModel ArithSpec ArithProofs GradModel GradSpec.
Import ListNotations.
Open Scope R_scope.

Local Open Scope R_scope.

Lemma Rsrt : semi_ring_theory 0 1 Rplus Rmult (@eq R).
Proof. constructor; intros; ring. Qed.

(** ** Sums *)
Lemma Rsum_S n f : Rsum (S n) f = f 0%nat + Rsum n (fun k => f (S k)).
Proof. reflexivity. Qed.
Lemma Rsum_ext n f g : (forall k, (k < n)%nat -> f k = g k) -> Rsum n f = Rsum n g.
Proof. apply sum_ext. Qed.
Lemma Rsum_0 n f : (forall k, (k < n)%nat -> f k = 0) -> Rsum n f = 0.
Proof. apply (sum_zero 0 1 Rplus Rmult Rsrt). Qed.
Lemma Rsum_r n f : Rsum (S n) f = Rsum n f + f n.
Proof. apply (sum_S_r 0 1 Rplus Rmult Rsrt). Qed.
Lemma Rsum_plus n f g : Rsum n (fun k => f k + g k) = Rsum n f + Rsum n g.
Proof. induction n; [unfold Rsum; simpl; ring|]. rewrite !Rsum_r, IHn. ring. Qed.
Lemma Rsum_mult_l n c f : Rsum n (fun k => c * f k) = c * Rsum n f.
Proof. induction n; [unfold Rsum; simpl; ring|]. rewrite !Rsum_r, IHn. ring. Qed.
Lemma Rsum_mult_r n c f : Rsum n (fun k => f k * c) = Rsum n f * c.
Proof. induction n; [unfold Rsum; simpl; ring|]. rewrite !Rsum_r, IHn. ring. Qed.
Lemma Rsum_swap n m f : Rsum n (fun i => Rsum m (fun j => f i j)) = Rsum m (fun j => Rsum n (fun i => f i j)).
Proof.
  induction n.
  - unfold Rsum at 1; simpl. symmetry. apply Rsum_0. intros. reflexivity.
  - rewrite Rsum_r, IHn, <- Rsum_plus. apply Rsum_ext. intros k Hk. rewrite Rsum_r. reflexivity.
Qed.
Lemma Rsum_delta n a f : (a < n)%nat -> Rsum n (fun k => if (k =? a)%nat then f k else 0) = f a.
Proof.
  induction n; intros H; [lia|]. rewrite Rsum_r.
  destruct (Nat.eq_dec n a) as [<-|Hne].
  - rewrite Nat.eqb_refl, Rsum_0; [ring|]. intros k Hk. destruct (Nat.eqb_spec k n); [lia|reflexivity].
  - rewrite IHn by lia. destruct (Nat.eqb_spec n a); [lia|ring].
Qed.
Lemma Rsum_split n m f : Rsum (n + m) f = Rsum n f + Rsum m (fun k => f (n + k)%nat).
Proof.
  induction m. { rewrite Nat.add_0_r. unfold Rsum at 3. simpl. ring. }
  rewrite Nat.add_succ_r, !Rsum_r, IHm. ring.
Qed.
Lemma Rsum_flat r c f : Rsum (r * c) f = Rsum r (fun i => Rsum c (fun j => f (i * c + j)%nat)).
Proof.
  induction r; [reflexivity|]. rewrite Rsum_r. replace (S r * c)%nat with (r * c + c)%nat by lia.
  rewrite Rsum_split, IHr. reflexivity.
Qed.
(** a window [a, a+m) of [0, n) *)
Lemma Rsum_window n a m f : (a + m <= n)%nat ->
  Rsum n (fun k => if (a <=? k)%nat && (k <? a + m)%nat then f k else 0) = Rsum m (fun k => f (a + k)%nat).
Proof.
  intros H. replace n with (a + (m + (n - a - m)))%nat by lia. rewrite !Rsum_split.
  rewrite Rsum_0, (Rsum_0 (n - a - m)).
  - rewrite Rplus_0_l, Rplus_0_r. apply Rsum_ext. intros k Hk.
    destruct (Nat.leb_spec a (a + k)); [|lia]. destruct (Nat.ltb_spec (a + k) (a + m)); [reflexivity|lia].
  - intros k Hk. destruct (Nat.ltb_spec (a + (m + k)) (a + m)); [lia|]. rewrite Bool.andb_false_r. reflexivity.
  - intros k Hk. destruct (Nat.leb_spec a k); [lia|reflexivity].
Qed.
Lemma Rsum_const n c : Rsum n (fun _ => c) = INR n * c.
Proof. induction n; [unfold Rsum; simpl; ring|]. rewrite Rsum_r, IHn, S_INR. ring. Qed.

Lemma d_const (c t0 : R) : is_derive (fun _ : R => c) t0 0.
Proof. exact (is_derive_const (K := R_AbsRing) (V := R_NormedModule) c t0). Qed.
Lemma d_plus (f g : R -> R) (t0 a b : R) : is_derive f t0 a -> is_derive g t0 b -> is_derive (fun t => f t + g t) t0 (a + b).
Proof. exact (is_derive_plus (K := R_AbsRing) (V := R_NormedModule) f g t0 a b). Qed.
Lemma d_minus (f g : R -> R) (t0 a b : R) : is_derive f t0 a -> is_derive g t0 b -> is_derive (fun t => f t - g t) t0 (a - b).
Proof. exact (is_derive_minus (K := R_AbsRing) (V := R_NormedModule) f g t0 a b). Qed.
Lemma d_mult (f g : R -> R) (t0 a b : R) : is_derive f t0 a -> is_derive g t0 b -> is_derive (fun t => f t * g t) t0 (a * g t0 + f t0 * b).
Proof. intros Hf Hg. apply (is_derive_mult f g t0 a b Hf Hg). intros; apply Rmult_comm. Qed.
Lemma d_scal (f : R -> R) (t0 a k : R) : is_derive f t0 a -> is_derive (fun t => f t * k) t0 (a * k).
Proof. intros Hf. pose proof (d_mult f (fun _ => k) t0 a 0 Hf (d_const k t0)) as H. cbv beta in H. rewrite Rmult_0_r, Rplus_0_r in H. exact H. Qed.
Lemma d_comp (f g : R -> R) (t0 a b : R) : is_derive f (g t0) a -> is_derive g t0 b -> is_derive (fun t => f (g t)) t0 (a * b).
Proof. intros Hf Hg. rewrite Rmult_comm. exact (is_derive_comp (V := R_NormedModule) f g t0 a b Hf Hg). Qed.
Lemma d_ext (f g : R -> R) (t0 a b : R) : (forall t, f t = g t) -> a = b -> is_derive f t0 a -> is_derive g t0 b.
Proof. intros H <- Hf. eapply is_derive_ext; eauto. Qed.
Lemma d_near (f g : R -> R) (t0 a : R) : locally t0 (fun t => f t = g t) -> is_derive f t0 a -> is_derive g t0 a.
Proof. intros. eapply is_derive_ext_loc; eauto. Qed.
Lemma d_unique (f : R -> R) (t0 a b : R) : is_derive f t0 a -> is_derive f t0 b -> a = b.
Proof. intros Ha Hb. apply is_derive_unique in Ha. apply is_derive_unique in Hb. congruence. Qed.
Lemma d_continuous (f : R -> R) (t0 a : R) : is_derive f t0 a -> continuous f t0.
Proof. intros H. exact (ex_derive_continuous (K := R_AbsRing) (V := R_NormedModule) f t0 (ex_intro _ a H)). Qed.

Lemma Rsum_derive n (F : nat -> R -> R) d t0 : (forall k, (k < n)%nat -> is_derive (F k) t0 (d k)) ->
  is_derive (fun t => Rsum n (fun k => F k t)) t0 (Rsum n d).
Proof.
  induction n; intros H.
  - unfold Rsum; simpl. apply d_const.
  - rewrite Rsum_r. eapply d_ext with (f := fun t => Rsum n (fun k => F k t) + F n t); [intros t; now rewrite Rsum_r|reflexivity|].
    apply d_plus; [apply IHn; intros; apply H; lia|apply H; lia].
Qed.

(** ** Elements *)
Lemma elems_has m r c f : elems m r c f <-> has_elems m r c f.
Proof.
  unfold elems, has_elems, is_matrix, rget, get. split.
  - intros (Hw & Hr & Hc & He). repeat split; auto. intros i j Hi Hj. specialize (He i j Hi Hj).
    destruct (elem_some m i j Hw) as [v Hv]; try lia. rewrite Hv in *. congruence.
  - intros (Hr & Hc & Hw & He). repeat split; auto. intros i j Hi Hj. rewrite He; auto.
Qed.
Lemma rget_nth m i j : wf m -> (i < rows m)%nat -> (j < cols m)%nat -> rget m i j = nth (i * cols m + j) (data m) 0.
Proof. apply (get_data 0). Qed.
Lemma elems_self m : wf m -> elems m (rows m) (cols m) (rget m).
Proof. intros H. repeat split; auto. Qed.
Lemma elems_ext m r c f g : elems m r c f -> (forall i j, (i < r)%nat -> (j < c)%nat -> f i j = g i j) -> elems m r c g.
Proof. intros (Hw & Hr & Hc & He) H. repeat split; auto. intros. rewrite He; auto. Qed.
Lemma mat_ext (a b : mat) r c f g : elems a r c f -> elems b r c g -> (forall i j, (i < r)%nat -> (j < c)%nat -> f i j = g i j) -> a = b.
Proof.
  intros Ha Hb H. apply (has_elems_unique (T := R) a b r c g); apply elems_has; auto. eapply elems_ext; eauto.
Qed.

Lemma fits_elems m r c : fits m r c -> elems m r c (rget m).
Proof. intros (Hw & <- & <-). apply elems_self; auto. Qed.
Lemma elems_fits m r c f : elems m r c f -> fits m r c.
Proof. intros (Hw & Hr & Hc & _). repeat split; auto. Qed.

Lemma same_dims_fits a b r c : fits a r c -> fits b r c -> same_dims a b = true.
Proof. intros (_ & Ha & Hb) (_ & Hc & Hd). apply same_dims_spec. lia. Qed.

Lemma binary_elems op a b r c : fits a r c -> fits b r c ->
  exists m, mat_binary 0 op a b = Some m /\ elems m r c (fun i j => op (rget a i j) (rget b i j)).
Proof.
  intros (Hwa & Hra & Hca) (Hwb & Hrb & Hcb).
  destruct (proj1 (mat_binary_spec 0 op a b Hwa Hwb)) as (m & Hm & He); [lia|].
  exists m. split; auto. rewrite Hra, Hca in He. apply elems_has in He. exact He.
Qed.
Lemma m_add_elems a b r c : fits a r c -> fits b r c -> exists m, m_add a b = Some m /\ elems m r c (fun i j => rget a i j + rget b i j).
Proof. apply binary_elems. Qed.
Lemma m_sub_elems a b r c : fits a r c -> fits b r c -> exists m, m_sub a b = Some m /\ elems m r c (fun i j => rget a i j - rget b i j).
Proof. apply binary_elems. Qed.
Lemma m_div_elems a b r c : fits a r c -> fits b r c -> exists m, m_div a b = Some m /\ elems m r c (fun i j => rget a i j / rget b i j).
Proof. apply binary_elems. Qed.
Lemma m_add_in_elems a b r c : fits a r c -> fits b r c -> exists m, m_add_in a b = Some m /\ elems m r c (fun i j => rget a i j + rget b i j).
Proof. intros Ha Hb. unfold m_add_in. rewrite (mat_binary_in_place_agrees 0 Rplus a b) by (apply Ha || apply Hb). apply binary_elems; auto. Qed.
Lemma m_div_in_elems a b r c : fits a r c -> fits b r c -> exists m, m_div_in a b = Some m /\ elems m r c (fun i j => rget a i j / rget b i j).
Proof. intros Ha Hb. unfold m_div_in. rewrite (mat_binary_in_place_agrees 0 Rdiv a b) by (apply Ha || apply Hb). apply binary_elems; auto. Qed.
Lemma m_prod_elems a b r c : fits a r c -> fits b r c -> exists m, m_prod a b = Some m /\ elems m r c (fun i j => rget a i j * rget b i j).
Proof. intros Ha Hb. unfold m_prod. rewrite (proj1 (mat_prod_agrees 0 Rmult a b (proj1 Ha) (proj1 Hb))). apply binary_elems; auto. Qed.
Lemma m_prod_in_elems a b r c : fits a r c -> fits b r c -> exists m, m_prod_in a b = Some m /\ elems m r c (fun i j => rget a i j * rget b i j).
Proof. intros Ha Hb. unfold m_prod_in. rewrite (proj2 (mat_prod_agrees 0 Rmult a b (proj1 Ha) (proj1 Hb))). apply binary_elems; auto. Qed.

Lemma const_elems op a v r c : fits a r c -> elems (mat_const 0 op a v) r c (fun i j => op (rget a i j) v).
Proof. intros (Hw & <- & <-). apply elems_has. apply (proj1 (mat_const_spec 0 op a v Hw)). Qed.
Lemma const_in_elems op a v r c : fits a r c -> elems (mat_const_in_place 0 op a v) r c (fun i j => op (rget a i j) v).
Proof. intros H. rewrite (proj2 (mat_const_spec 0 op a v (proj1 H))). apply const_elems; auto. Qed.
Lemma m_adds_elems a v r c : fits a r c -> elems (m_adds a v) r c (fun i j => rget a i j + v).
Proof. apply const_elems. Qed.
Lemma m_adds_in_elems a v r c : fits a r c -> elems (m_adds_in a v) r c (fun i j => rget a i j + v).
Proof. apply const_in_elems. Qed.
Lemma m_subs_elems a v r c : fits a r c -> elems (m_subs a v) r c (fun i j => rget a i j - v).
Proof. intros H. unfold m_subs, sub_scalar. eapply elems_ext; [apply const_elems; eauto|]. intros; simpl; ring. Qed.
Lemma m_prods_elems a v r c : fits a r c -> elems (m_prods a v) r c (fun i j => rget a i j * v).
Proof. apply const_elems. Qed.
Lemma m_prods_in_elems a v r c : fits a r c -> elems (m_prods_in a v) r c (fun i j => rget a i j * v).
Proof. apply const_in_elems. Qed.
Lemma m_unary_elems f a r c : fits a r c -> elems (m_unary f a) r c (fun i j => f (rget a i j)).
Proof. intros (Hw & <- & <-). apply elems_has. apply mat_unary_spec; auto. Qed.
Lemma m_apply_elems f a r c : fits a r c -> elems (m_apply f a) r c (fun i j => f (rget a i j)).
Proof.
  intros (Hw & <- & <-). apply elems_has. destruct (apply_spec a (fun _ _ v => f v) Hw) as (H1 & H2 & H3 & H4).
  repeat split; auto. intros i j Hi Hj. unfold m_apply. rewrite H4 by auto. unfold rget.
  rewrite (get_elem 0 a i j) by auto. reflexivity.
Qed.
Lemma m_t_elems a r c : fits a r c -> elems (m_t a) c r (fun i j => rget a j i).
Proof.
  intros (Hw & <- & <-). apply elems_has. destruct (transpose_spec 0 a Hw) as (H1 & H2 & H3 & H4).
  repeat split; auto. intros i j Hi Hj. unfold m_t. rewrite H4 by auto. unfold rget. apply get_elem; auto.
Qed.
Lemma m_mul_elems wide a b r n c : fits a r n -> fits b n c ->
  exists m, m_mul wide a b = Some m /\ elems m r c (fun i k => Rsum n (fun j => rget a i j * rget b j k)).
Proof.
  intros (Hwa & Hra & Hca) (Hwb & Hrb & Hcb).
  destruct (proj1 (mat_mul_spec 0 1 Rplus Rmult Ris0 Rsrt ltac:(intros v; unfold Ris0; destruct (Req_EM_T v 0); congruence) wide a b Hwa Hwb)) as (m & Hm & He); [lia|].
  exists m. split; auto. rewrite Hra, Hca, Hcb in He. apply elems_has. exact He.
Qed.
Lemma m_mul_t_elems a b r c : fits a r c -> fits b r 1 ->
  exists m, m_mul_t a b = Some m /\ elems m c 1 (fun i _ => Rsum r (fun k => rget a k i * rget b k 0)).
Proof.
  intros (Hwa & Hra & Hca) (Hwb & Hrb & Hcb).
  destruct (proj1 (mat_mul_t_spec 0 1 Rplus Rmult Rsrt a b Hwa Hwb)) as (m & Hm & He); [lia|].
  exists m. split; auto. rewrite Hra, Hca in He. apply elems_has. exact He.
Qed.
Lemma zeros_elems a r c : fits a r c -> elems (m_zeros_like a) r c (fun _ _ => 0).
Proof.
  intros (Hw & <- & <-). unfold m_zeros_like, zeros_like, zeros. apply elems_has. apply (has_elems_nth (T := R) 0); simpl; auto.
  - apply repeat_length.
  - intros. apply (repeat_nth 0).
Qed.

(** ** Matrices from index functions *)
Definition build (r c : nat) (f : nat -> nat -> R) : mat := mkDense r c (map (fun p => f (p / c)%nat (p mod c)%nat) (seq 0 (r * c))).
Lemma build_elems r c f : elems (build r c f) r c f.
Proof.
  apply elems_has. apply (has_elems_seq (T := R)). intros i j Hi Hj. cbv beta. rewrite idx_div, idx_mod by auto. reflexivity.
Qed.
Lemma some_build (o : option mat) r c f : (exists m, o = Some m /\ elems m r c f) -> o = Some (build r c f).
Proof. intros (m & -> & H). f_equal. eapply mat_ext; eauto using build_elems. Qed.
Lemma build_ext r c f g : (forall i j, (i < r)%nat -> (j < c)%nat -> f i j = g i j) -> build r c f = build r c g.
Proof. intros H. eapply mat_ext; eauto using build_elems. Qed.
Lemma elems_build m r c f : elems m r c f -> m = build r c f.
Proof. intros H. eapply mat_ext; eauto using build_elems. Qed.
Lemma rget_build r c f i j : (i < r)%nat -> (j < c)%nat -> rget (build r c f) i j = f i j.
Proof. intros. apply (build_elems r c f); auto. Qed.
Lemma fits_build r c f : fits (build r c f) r c.
Proof. eapply elems_fits, build_elems. Qed.
Lemma fits_len m r c : fits m r c -> length (data m) = (r * c)%nat.
Proof. intros (Hw & <- & <-). exact Hw. Qed.
Lemma rget_elems m r c f i j : elems m r c f -> (i < r)%nat -> (j < c)%nat -> rget m i j = f i j.
Proof. intros (_ & _ & _ & H). apply H. Qed.

Definition inner2 (r c : nat) (f g : nat -> nat -> R) : R := Rsum r (fun i => Rsum c (fun j => f i j * g i j)).
Lemma inner_elems a b r c f g : elems a r c f -> elems b r c g -> inner a b = inner2 r c f g.
Proof.
  intros (Hwa & Hra & Hca & Hea) (Hwb & Hrb & Hcb & Heb). unfold inner, inner2. rewrite Hra, Hca.
  apply Rsum_ext. intros i Hi. apply Rsum_ext. intros j Hj. rewrite Hea, Heb by auto. reflexivity.
Qed.
Lemma inner2_ext r c f g f' g' : (forall i j, (i < r)%nat -> (j < c)%nat -> f i j * g i j = f' i j * g' i j) -> inner2 r c f g = inner2 r c f' g'.
Proof. intros H. apply Rsum_ext. intros i Hi. apply Rsum_ext. intros j Hj. auto. Qed.
Lemma inner2_0 r c f g : (forall i j, (i < r)%nat -> (j < c)%nat -> f i j * g i j = 0) -> inner2 r c f g = 0.
Proof. intros H. apply Rsum_0. intros i Hi. apply Rsum_0. intros j Hj. auto. Qed.
Lemma inner2_plus r c f g f' g' : inner2 r c f g + inner2 r c f' g' = Rsum r (fun i => Rsum c (fun j => f i j * g i j + f' i j * g' i j)).
Proof. unfold inner2. rewrite <- Rsum_plus. apply Rsum_ext. intros. rewrite <- Rsum_plus. reflexivity. Qed.

(** ** Moving matrices *)
Lemma moves_shape X V : moves X V -> exists r c, fits V r c /\ (forall t, fits (X t) r c) /\
  forall i j, (i < r)%nat -> (j < c)%nat -> is_derive (fun t => rget (X t) i j) 0 (rget V i j).
Proof.
  intros (Hw & Hs & Hd). exists (rows V), (cols V). split; [repeat split; auto|]. split; [|exact Hd]. intros t. destruct (Hs t) as (a & b & d). exact (conj a (conj b d)).
Qed.
Lemma moves_build r c F D : (forall i j, (i < r)%nat -> (j < c)%nat -> is_derive (fun t => F t i j) 0 (D i j)) ->
  moves (fun t => build r c (F t)) (build r c D).
Proof.
  intros H. split; [apply (fits_build r c)|]. split.
  - intros t. destruct (fits_build r c (F t)) as (a & b & d). destruct (fits_build r c D) as (a' & b' & d'). repeat split; auto; congruence.
  - destruct (fits_build r c D) as (_ & -> & ->). intros i j Hi Hj. rewrite rget_build by auto.
    eapply d_ext; [|reflexivity|apply H; auto]. intros t. cbv beta. now rewrite rget_build.
Qed.
Lemma moves_still X V : moves X V -> (forall t, X t = X 0) -> forall i j, (i < rows V)%nat -> (j < cols V)%nat -> rget V i j = 0.
Proof.
  intros (Hw & Hs & Hd) H i j Hi Hj. eapply d_unique; [apply Hd; auto|].
  eapply d_ext with (f := fun _ => rget (X 0) i j); [intros t; now rewrite (H t)|reflexivity|apply d_const].
Qed.

(** ** Handing out *)
Lemma hand_out_count req gs : forall k n, count_occ Nat.eq_dec (map fst (hand_out k req gs)) n =
  if ((k <=? n)%nat && (n <? k + length gs)%nat) && req n then 1%nat else 0%nat.
Proof.
  induction gs as [|g gs IH]; intros k n; cbn [hand_out map length].
  - destruct (Nat.leb_spec k n), (Nat.ltb_spec n (k + 0)); try lia; reflexivity.
  - rewrite map_app, count_occ_app, IH.
    assert (E : count_occ Nat.eq_dec (map fst (if req k then [(k, g)] else [])) n = if (k =? n)%nat && req n then 1%nat else 0%nat).
    { destruct (Nat.eqb_spec k n) as [<-|]; destruct (req k) eqn:Ek; cbn [map fst andb count_occ]; auto.
      - destruct (Nat.eq_dec k k); congruence.
      - destruct (Nat.eq_dec k n); [congruence|reflexivity]. }
    rewrite E. destruct (req n); rewrite ?Bool.andb_false_r, ?Bool.andb_true_r; [|reflexivity].
    destruct (Nat.eqb_spec k n), (Nat.leb_spec k n), (Nat.leb_spec (S k) n), (Nat.ltb_spec n (k + S (length gs))), (Nat.ltb_spec n (S k + length gs));
      try lia; reflexivity.
Qed.
Lemma hand_out_in req gs : forall k n g, In (n, g) (hand_out k req gs) -> (k <= n)%nat /\ nth_error gs (n - k) = Some g.
Proof.
  induction gs as [|g0 gs IH]; intros k n g; cbn [hand_out]; [intros []|].
  intros H. apply in_app_or in H as [H|H].
  - destruct (req k); [|destruct H]. destruct H as [H|[]]. injection H as -> ->. split; [lia|]. now rewrite Nat.sub_diag.
  - apply IH in H as [Hle H]. split; [lia|]. replace (n - k)%nat with (S (n - S k)) by lia. exact H.
Qed.
Definition total (gs Vs : list mat) : R := fold_right Rplus 0 (map (fun p => inner (fst p) (snd p)) (combine gs Vs)).
Lemma hand_out_work req Vs gs : forall k Ws, Vs = firstn k Vs ++ Ws -> (k <= length Vs)%nat -> length gs = length Ws ->
  (forall i g W, nth_error gs i = Some g -> nth_error Ws i = Some W -> req (k + i)%nat = false -> inner g W = 0) ->
  work (hand_out k req gs) Vs = total gs Ws.
Proof.
  induction gs as [|g gs IH]; intros k Ws HV Hk HL H0; destruct Ws as [|W Ws]; try discriminate; [reflexivity|].
  cbn [hand_out]. unfold work, total. rewrite fold_right_app. cbn [combine map fold_right fst snd].
  fold (total gs Ws). fold (work (hand_out (S k) req gs) Vs). rewrite (IH (S k) Ws).
  - destruct (req k) eqn:Ek; cbn [fold_right fst snd].
    + f_equal. f_equal. rewrite HV, app_nth2; rewrite firstn_length_le by auto; [|lia]. now rewrite Nat.sub_diag.
    + rewrite (H0 0%nat g W) by (auto; now rewrite Nat.add_0_r). ring.
  - rewrite HV at 1. assert (HL2 : length Vs = (k + S (length Ws))%nat) by (rewrite HV at 1; rewrite app_length, firstn_length_le by auto; reflexivity).
    assert (E : firstn (S k) Vs = firstn k Vs ++ [W]).
    { rewrite HV at 1. rewrite firstn_app, firstn_firstn, firstn_length_le by auto. replace (S k - k)%nat with 1%nat by lia.
      replace (Nat.min (S k) k) with k by lia. reflexivity. }
    rewrite E, <- app_assoc. reflexivity.
  - assert (HL2 : length Vs = (k + S (length Ws))%nat) by (rewrite HV at 1; rewrite app_length, firstn_length_le by auto; reflexivity). lia.
  - injection HL; auto.
  - intros i g' W' Hg HW Hr. apply (H0 (S i)); auto. now rewrite Nat.add_succ_r.
Qed.

Lemma Forall2_length {A B} (P : A -> B -> Prop) l l' : Forall2 P l l' -> length l = length l'.
Proof. induction 1; cbn; congruence. Qed.

(** ** How to prove a function correct *)
Definition back_ok (f : gfun) (req : nat -> bool) (xs : list mat) (r c : nat) (G : mat -> list mat) : Prop :=
  forall gy, fits gy r c -> bwd f xs req gy = Some (hand_out 0 req (G gy)) /\ Forall2 (fun g x => fits g (rows x) (cols x)) (G gy) xs.

Lemma shapes_intro f req xs r c G y : fwd f xs = Some y -> fits y r c -> back_ok f req xs r c G ->
  hands_one_each f req xs /\ right_shapes f req xs.
Proof.
  intros Hy (Hyw & Hyr & Hyc) HG. split.
  - exists y. split; auto. intros gy Hw (Hr & Hc). destruct (HG gy) as [HB HF]; [repeat split; auto; congruence|].
    exists (hand_out 0 req (G gy)). split; auto. intros k. rewrite hand_out_count.
    rewrite (Forall2_length _ _ _ HF). cbn [Nat.leb andb Nat.add]. reflexivity.
  - intros y' Hy' gy Hw (Hr & Hc) calls k g HB Hin. assert (y' = y) by congruence. subst y'.
    destruct (HG gy) as [HB' HF]; [repeat split; auto; congruence|].
    assert (calls = hand_out 0 req (G gy)) by congruence. subst calls. apply hand_out_in in Hin as [_ Hn]. rewrite Nat.sub_0_r in Hn.
    clear -Hn HF. revert k Hn. induction HF as [|g' x gs xs (Hw & Hr & Hc) HF IH]; intros [|k] Hn; try discriminate.
    + injection Hn as ->. split; auto. exists x. repeat split; auto.
    + cbn in Hn. destruct (IH k Hn) as (H1 & x' & H2 & H3). split; auto. exists x'. auto.
Qed.

Lemma adjoint_intro f req xs r c G : back_ok f req xs r c G ->
  (forall Xs Vs, Forall2 moves Xs Vs -> at_time Xs 0 = xs ->
     (forall k X, nth_error Xs k = Some X -> req k = false -> forall t, X t = X 0) -> exists F D,
     locally 0 (fun t => exists m, fwd f (at_time Xs t) = Some m /\ elems m r c (F t)) /\
     (forall i j, (i < r)%nat -> (j < c)%nat -> is_derive (fun t => F t i j) 0 (D i j)) /\
     forall gy, fits gy r c -> inner2 r c (rget gy) D = total (G gy) Vs) ->
  adjoint f req xs.
Proof.
  intros HG H Xs Vs HM HX HS. destruct (H Xs Vs HM HX HS) as (F & D & HF & HD & HI).
  exists (fun t => build r c (F t)), (build r c D). split; [|split].
  - apply (filter_imp _ _ (fun t => some_build _ _ _ _) HF).
  - apply moves_build; auto.
  - intros gy Hw (Hr & Hc). destruct (fits_build r c D) as (_ & HDr & HDc).
    assert (Hg : fits gy r c) by (repeat split; auto; congruence).
    destruct (HG gy Hg) as [HB HF2]. exists (hand_out 0 req (G gy)). split; auto.
    rewrite (inner_elems gy (build r c D) r c (rget gy) D) by auto using fits_elems, build_elems.
    rewrite HI by auto.
    assert (HL : length (G gy) = length Vs).
    { rewrite (Forall2_length _ _ _ HF2), <- HX. unfold at_time. rewrite map_length. apply (Forall2_length _ _ _ HM). }
    apply hand_out_work; auto; [lia|].
    intros i g W Hgi HWi Hq. cbn [Nat.add] in Hq.
    assert (HXi : exists X, nth_error Xs i = Some X /\ moves X W).
    { clear -HM HWi. revert i HWi. induction HM; intros [|i] HWi; try discriminate; cbn in *.
      - injection HWi as <-. eauto. - eauto. }
    destruct HXi as (X & HXi & HMi). pose proof (moves_still X W HMi (HS i X HXi Hq)) as H0.
    assert (Hfit : fits g (rows W) (cols W)).
    { assert (Hxi : nth_error xs i = Some (X 0)) by (rewrite <- HX; unfold at_time; rewrite nth_map, HXi; reflexivity).
      clear -Hgi Hxi HF2 HMi. revert i Hgi Hxi. induction HF2; intros [|i] Hgi Hxi; try discriminate; cbn in *; eauto.
      injection Hgi as ->. injection Hxi as ->. destruct HMi as (_ & HS & _). destruct (HS 0) as (_ & <- & <-). auto. }
    rewrite (inner_elems g W _ _ _ _ (fits_elems _ _ _ Hfit) (elems_self W (proj1 HMi))).
    apply inner2_0. intros a b Ha Hb. rewrite H0 by auto. ring.
Qed.

Lemma total1 g V : total [g] [V] = inner g V.
Proof. unfold total; simpl; ring. Qed.
Lemma total2 g h V W : total [g; h] [V; W] = inner g V + inner h W.
Proof. unfold total; simpl; ring. Qed.
