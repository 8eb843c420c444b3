(** * Softmax *)
From Coq Require Import Reals List Arith Bool ZArith Lia Lra.
From Coquelicot Require Import Coquelicot.
From Verif Require Import DenseModel DenseSpec DenseLemmas DenseProofs DenseProofs2 ArithModel ArithSpec ArithProofs GradModel GradSpec GradLemmas GradProofs GradProofs5 GradProofs6 GradProofs7 GradProofs8 GradProofs9.
Import ListNotations.
Open Scope R_scope.

Definition exps (l : list R) : R := Rsum (length l) (fun i => exp (nth i l 0)).

Lemma Rsum_pos n f : (0 < n)%nat -> (forall k, (k < n)%nat -> 0 < f k) -> 0 < Rsum n f.
Proof.
  induction n; intros Hn H; [lia|]. rewrite Rsum_r. destruct n.
  - unfold Rsum. cbn. rewrite Rplus_0_l. apply H. lia.
  - assert (0 < Rsum (S n) f) by (apply IHn; [lia|intros; apply H; lia]). specialize (H (S n) ltac:(lia)). lra.
Qed.
Lemma exps_pos l : (0 < length l)%nat -> 0 < exps l.
Proof. intros H. apply Rsum_pos; auto. intros. apply exp_pos. Qed.

Lemma vector_flat m n (f : nat -> R) : fits m n 1 -> (forall k, (k < n)%nat -> nth k (data m) 0 = f k) -> elems m n 1 (fun i _ => f i).
Proof.
  intros H E. destruct H as (A & B & C). repeat split; auto. intros i j Hi Hj. rewrite (rget_flat m n 1) by (auto; repeat split; auto).
  replace (i * 1 + j)%nat with i by lia. auto.
Qed.
Lemma elems_nth m n f k : elems m n 1 f -> (k < n)%nat -> nth k (data m) 0 = f k 0%nat.
Proof. intros H Hk. rewrite (flat_rget m n 1 k) by (try lia; eapply elems_fits; eauto). rewrite Nat.div_1_r, Nat.mod_1_r. apply (rget_elems m n 1); auto. Qed.
Lemma nth_elems m r c f k : elems m r c f -> (k < r * c)%nat -> nth k (data m) 0 = f (k / c)%nat (k mod c)%nat.
Proof.
  intros H Hk. rewrite (flat_rget m r c k) by (auto; eapply elems_fits; eauto). destruct (idx_row r c k Hk). apply (rget_elems m r c); auto.
Qed.

(** m_softmax of a vector is the column exp x_i / sum exp x_j, whatever was subtracted *)
Lemma softmax_value x : wf x -> is_vector x = true -> (0 < length (data x))%nat ->
  exists y, m_softmax x = Some y /\ elems y (length (data x)) 1 (fun i _ => exp (nth i (data x) 0) / exps (data x)).
Proof.
  intros Hw Hv Hn. unfold m_softmax. rewrite Hv. cbn [negb].
  destruct (max_min_spec Rltb R_order x) as (_ & _ & HN & _).
  destruct (mat_max Rltb x) as [mx|] eqn:E; [|exfalso; rewrite (proj1 HN eq_refl) in Hn; cbn in Hn; lia]. clear HN E.
  set (n := length (data x)) in *. pose proof (fits_wf x Hw) as Hx. pose proof (m_subs_elems x mx _ _ Hx) as Hs.
  assert (Hxn : (rows x * cols x)%nat = n) by (symmetry; exact Hw).
  assert (HO : exists out, (if (cols (m_subs x mx) =? 1)%nat then Some (m_subs x mx) else transpose_in_place (m_subs x mx)) = Some out /\
     elems out n 1 (fun i _ => nth i (data x) 0 - mx)).
  { assert (HD : forall k, (k < n)%nat -> nth k (data (m_subs x mx)) 0 = nth k (data x) 0 - mx).
    { intros k Hk. rewrite (nth_elems _ _ _ _ k Hs) by lia. rewrite (flat_rget x (rows x) (cols x) k Hx) by lia. reflexivity. }
    assert (HL : length (data (m_subs x mx)) = n) by (rewrite (fits_len _ _ _ (elems_fits _ _ _ _ Hs)); auto).
    destruct Hs as (S1 & S2 & S3 & _). rewrite S3. destruct (Nat.eqb_spec (cols x) 1) as [C|C].
    - exists (m_subs x mx). split; [reflexivity|]. apply vector_flat; auto. repeat split; auto; lia.
    - unfold is_vector in Hv. apply orb_true_iff in Hv as [Hv|Hv]; apply Nat.eqb_eq in Hv; [|congruence].
      exists (mkDense (cols (m_subs x mx)) (rows (m_subs x mx)) (data (m_subs x mx))). split.
      + unfold transpose_in_place. rewrite S2, Hv, orb_true_r. reflexivity.
      + rewrite S2, S3, Hv. replace (cols x) with n by lia. apply vector_flat; auto. apply fits_mk. lia. }
  destruct HO as (out & EO & HO). fold (m_subs x mx). rewrite EO. cbn [bind].
  pose proof (m_unary_elems exp out n 1 (elems_fits _ _ _ _ HO)) as HE.
  assert (HE' : elems (m_unary exp out) n 1 (fun i _ => exp (nth i (data x) 0) * exp (- mx))).
  { eapply elems_ext; [exact HE|]. intros i j Hi Hj. cbv beta. rewrite (rget_elems out n 1 _ i j HO) by auto. cbv beta. unfold Rminus. apply exp_plus. }
  eexists. split; [reflexivity|].
  eapply elems_ext; [apply m_prods_in_elems; eapply elems_fits; eauto|]. intros i j Hi Hj. cbv beta.
  rewrite (mat_sum_elems (m_unary exp out) n 1 _ HE'). rewrite (rget_elems _ n 1 _ i j HE') by auto. cbv beta.
  rewrite (Rsum_ext n _ (fun i => exp (nth i (data x) 0) * exp (- mx))) by (intros; unfold Rsum; cbn; ring).
  rewrite Rsum_mult_r. change (Rsum n (fun k => exp (nth k (data x) 0))) with (exps (data x)). pose proof (exps_pos (data x) Hn). pose proof (exp_pos (- mx)). field. split; lra.
Qed.

Lemma softmax_correct wide req x : wf x -> cols x = 1%nat -> (0 < rows x)%nat -> correct (softmax_fn wide) req [x].
Proof.
  intros Hw Hc Hn0. pose proof (fits_wf x Hw) as Hx. rewrite Hc in Hx. set (n := rows x) in *.
  assert (Hlen : forall a, fits a n 1 -> length (data a) = n) by (intros a Ha; rewrite (fits_len a n 1 Ha); lia).
  assert (HF : forall a, fits a n 1 -> exists m, fwd (softmax_fn wide) [a] = Some m /\ elems m n 1 (fun i _ => exp (nth i (data a) 0) / Rsum n (fun k => exp (nth k (data a) 0)))).
  { intros a Ha. destruct (softmax_value a) as (m & E & He); [apply Ha|destruct Ha as (_ & _ & E); unfold is_vector; rewrite E; apply orb_true_r|rewrite Hlen; auto|].
    exists m. split; [exact E|]. unfold exps in He. rewrite (Hlen a Ha) in He. exact He. }
  destruct (HF x Hx) as (y & Hy & Hye). set (S := Rsum n (fun k => exp (nth k (data x) 0))) in *.
  assert (HS : 0 < S) by (apply Rsum_pos; auto; intros; apply exp_pos).
  set (p := fun i => exp (nth i (data x) 0) / S).
  assert (Hyn : length (data y) = n) by (apply Hlen; eapply elems_fits; eauto).
  assert (HJ : elems (softmax_jacobian y) n n (fun i j => (if (i =? j)%nat then p i else 0) - p i * p j)).
  { unfold softmax_jacobian. rewrite Hyn. eapply matrix_elems; [apply initialize_spec|]. intros i j Hi Hj. cbv beta. f_equal.
    rewrite !(elems_nth y n _ _ Hye) by auto. fold (p i) (p j). destruct (Nat.eqb_spec i j) as [<-|]; ring. }
  assert (HM : forall gy, fits gy n 1 -> exists m, m_mul wide (softmax_jacobian y) gy = Some m /\
     elems m n 1 (fun i k => Rsum n (fun j => ((if (i =? j)%nat then p i else 0) - p i * p j) * rget gy j k))).
  { intros gy Hg. destruct (m_mul_elems wide (softmax_jacobian y) gy n n 1 (elems_fits _ _ _ _ HJ) Hg) as (m & E & He). exists m. split; [exact E|].
    eapply elems_ext; [exact He|]. intros i k Hi Hk. cbv beta. apply Rsum_ext. intros j Hj. rewrite (rget_elems _ n n _ i j HJ) by auto. reflexivity. }
  apply (correct_intro (softmax_fn wide) req [x] n 1 (fun gy => [get_some (m_mul wide (softmax_jacobian y) gy)]) y); auto.
  - eapply elems_fits; eauto.
  - intros gy Hg. destruct (get_some_eq _ _ (HM gy Hg)) as (E & He). split.
    + cbn [bwd softmax_fn un_b]. unfold after_softmax. rewrite Hc. cbn [Nat.eqb]. rewrite (same_dims_fits x gy n 1) by auto. cbn [guard]. cbn [fwd softmax_fn un] in Hy. rewrite Hy. cbn [bind]. rewrite E. apply when1.
    + constructor; [|constructor]. rewrite Hc. eapply elems_fits; eauto.
  - intros Xs Vs HMv HX _. destruct (one_mover Xs Vs x n 1 HMv HX Hx) as (X & V & -> & -> & HX0 & HXf & HVf & HD).
    assert (HDk : forall i, (i < n)%nat -> is_derive (fun t => exp (nth i (data (X t)) 0)) 0 (exp (nth i (data x) 0) * rget V i 0)).
    { intros i Hi. rewrite <- HX0. apply (d_comp exp (fun t => nth i (data (X t)) 0)); [apply is_derive_Reals, derivable_pt_lim_exp|].
      pose proof (flat_derive X V n 1 i HXf HVf HD ltac:(lia)) as D. rewrite (flat_rget V n 1 i HVf ltac:(lia)), Nat.div_1_r, Nat.mod_1_r in D. exact D. }
    exists (fun t i _ => exp (nth i (data (X t)) 0) / Rsum n (fun k => exp (nth k (data (X t)) 0))),
      (fun i _ => p i * rget V i 0 - p i * Rsum n (fun k => p k * rget V k 0)). split; [|split].
    + apply filter_forall. intros t. apply HF; auto.
    + intros i j Hi Hj. pose proof (Rsum_derive n (fun k t => exp (nth k (data (X t)) 0)) _ 0 HDk) as DS.
      assert (HS0 : Rsum n (fun k => exp (nth k (data (X 0)) 0)) <> 0) by (rewrite HX0; fold S; lra).
      eapply d_ext; [reflexivity| |apply (is_derive_div (fun t => exp (nth i (data (X t)) 0)) (fun t => Rsum n (fun k => exp (nth k (data (X t)) 0))) 0 _ _ (HDk i Hi) DS HS0)].
      cbv beta. rewrite HX0. fold S. unfold p.
      rewrite (Rsum_ext n (fun k => exp (nth k (data x) 0) / S * rget V k 0) (fun k => / S * (exp (nth k (data x) 0) * rget V k 0))) by (intros; field; lra).
      rewrite Rsum_mult_l. field. lra.
    + intros gy Hg. rewrite total1. destruct (get_some_eq _ _ (HM gy Hg)) as (E & He).
      rewrite (inner_elems _ V n 1 _ _ He (fits_elems _ _ _ HVf)). unfold inner2.
      rewrite (Rsum_ext n _ (fun i => rget gy i 0 * (p i * rget V i 0 - p i * Rsum n (fun k => p k * rget V k 0)))) by (intros; unfold Rsum at 1; cbn [sum_to]; ring).
      rewrite (Rsum_ext n (fun i => Rsum 1 _) (fun i => (p i * rget gy i 0 - p i * Rsum n (fun k => p k * rget gy k 0)) * rget V i 0)).
      * set (A := Rsum n (fun k => p k * rget V k 0)). set (B := Rsum n (fun k => p k * rget gy k 0)).
        rewrite (Rsum_ext n _ (fun i => p i * rget gy i 0 * rget V i 0 + (p i * rget gy i 0) * - A)) by (intros; ring).
        rewrite (Rsum_ext n (fun i => (p i * rget gy i 0 - p i * B) * rget V i 0) (fun i => p i * rget gy i 0 * rget V i 0 + (p i * rget V i 0) * - B)) by (intros; ring).
        rewrite !Rsum_plus, !Rsum_mult_r. fold A B. ring.
      * intros i Hi. unfold Rsum at 1; cbn [sum_to]. rewrite Rplus_0_r. f_equal.
        rewrite (Rsum_ext n _ (fun j => (if (j =? i)%nat then p j * rget gy j 0 else 0) + p i * (- (p j * rget gy j 0)))).
        -- rewrite Rsum_plus, Rsum_mult_l. rewrite (Rsum_delta n i (fun j => p j * rget gy j 0)) by auto.
           rewrite (Rsum_ext n (fun k => - (p k * rget gy k 0)) (fun k => (p k * rget gy k 0) * -1)) by (intros; ring). rewrite Rsum_mult_r. ring.
        -- intros j Hj. rewrite (Nat.eqb_sym j i). destruct (Nat.eqb_spec i j) as [<-|]; ring.
Qed.

(** ** The distribution *)
Lemma softmax_facts x : wf x -> is_vector x = true -> (0 < length (data x))%nat -> exists y, m_softmax x = Some y /\
  rows y = length (data x) /\ cols y = 1%nat /\
  (forall i, (i < length (data x))%nat -> nth i (data y) 0 = exp (nth i (data x) 0) / exps (data x)) /\
  (forall i, (i < length (data x))%nat -> 0 < nth i (data y) 0) /\
  Rsum (length (data x)) (fun i => nth i (data y) 0) = 1 /\
  (forall i j, (i < length (data x))%nat -> (j < length (data x))%nat -> nth i (data y) 0 < nth j (data y) 0 <-> nth i (data x) 0 < nth j (data x) 0).
Proof.
  intros Hw Hv Hn. destruct (softmax_value x Hw Hv Hn) as (y & E & He). exists y. pose proof (exps_pos (data x) Hn) as HP.
  assert (Hval : forall i, (i < length (data x))%nat -> nth i (data y) 0 = exp (nth i (data x) 0) / exps (data x)) by (intros i Hi; apply (elems_nth y _ _ i He); auto).
  split; [exact E|]. destruct He as (_ & H1 & H2 & _). split; [exact H1|]. split; [exact H2|]. split; [exact Hval|]. split; [|split].
  - intros i Hi. rewrite Hval by auto. apply Rdiv_lt_0_compat; auto. apply exp_pos.
  - rewrite (Rsum_ext _ _ (fun i => exp (nth i (data x) 0) * / exps (data x))) by (intros; apply Hval; auto). rewrite Rsum_mult_r. fold (exps (data x)). field. lra.
  - intros i j Hi Hj. rewrite !Hval by auto. assert (HI : 0 < / exps (data x)) by (apply Rinv_0_lt_compat; auto). unfold Rdiv. split; intros H.
    + apply exp_lt_inv. apply (Rmult_lt_reg_r (/ exps (data x))); auto.
    + apply Rmult_lt_compat_r; auto. apply exp_increasing; auto.
Qed.
Lemma softmax_shift x x' c : wf x -> is_vector x = true -> (0 < length (data x))%nat -> wf x' -> same_shape x' x ->
  (forall i, (i < length (data x))%nat -> nth i (data x') 0 = nth i (data x) 0 + c) -> m_softmax x' = m_softmax x.
Proof.
  intros Hw Hv Hn Hw' (HS1 & HS2) H. assert (HL : length (data x') = length (data x)) by (unfold wf in *; rewrite Hw, Hw', HS1, HS2; reflexivity).
  destruct (softmax_value x Hw Hv Hn) as (y & E & He). destruct (softmax_value x' Hw') as (y' & E' & He'); [unfold is_vector in *; now rewrite HS1, HS2|lia|].
  rewrite E, E'. f_equal. rewrite HL in He'. eapply mat_ext; [exact He'|exact He|]. intros i j Hi Hj. cbv beta. unfold exps. rewrite HL, H by auto.
  rewrite (Rsum_ext (length (data x)) (fun i => exp (nth i (data x') 0)) (fun i => exp (nth i (data x) 0) * exp c)) by (intros; rewrite H by auto; apply exp_plus).
  rewrite Rsum_mult_r, exp_plus. fold (exps (data x)). pose proof (exps_pos (data x) Hn). pose proof (exp_pos c). field. split; lra.
Qed.

(** A row has the softmax of the column of its entries, and Backward treats it as that column. *)
Lemma softmax_row wide req x : wf x -> is_vector x = true -> (0 < length (data x))%nat ->
  let xc := mkDense (length (data x)) 1 (data x) in
  fwd (softmax_fn wide) [x] = fwd (softmax_fn wide) [xc] /\ (forall gy, bwd (softmax_fn wide) [x] req gy = bwd (softmax_fn wide) [xc] req gy) /\ correct (softmax_fn wide) req [xc].
Proof.
  intros Hw Hv Hn xc. assert (Wc : wf xc) by (unfold wf, xc; cbn; lia).
  assert (E : m_softmax x = m_softmax xc).
  { destruct (softmax_value x Hw Hv Hn) as (y & E & Ey). destruct (softmax_value xc Wc (orb_true_r _) Hn) as (y' & E' & Ey'). rewrite E, E'. f_equal. eapply mat_ext; [exact Ey|exact Ey'|auto]. }
  assert (A : after_softmax x = after_softmax xc).
  { unfold after_softmax. change (cols xc =? 1)%nat with true. unfold is_vector in Hv. pose proof Hw as Hl. unfold wf in Hl. unfold xc. destruct (Nat.eqb_spec (cols x) 1) as [C|C].
    - rewrite C, Nat.mul_1_r in Hl. rewrite Hl. destruct x as [r0 c0 l]. cbn in *. now subst c0.
    - apply orb_true_iff in Hv as [Hv|Hv]; [|discriminate]. apply Nat.eqb_eq in Hv. rewrite Hv, Nat.mul_1_l in Hl. now rewrite Hv, Hl. }
  split; [exact E|]. split; [|apply softmax_correct; auto].
  intros gy. cbn [bwd softmax_fn un_b]. rewrite A, E. reflexivity.
Qed.
