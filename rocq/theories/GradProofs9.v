(** * Reductions and maxima *)
From Coq Require Import Reals List Arith Bool ZArith Lia Lra.
From Coquelicot Require Import Coquelicot.
From Verif Require Import DenseModel DenseSpec DenseLemmas DenseProofs DenseProofs2 ArithModel ArithSpec ArithProofs GradModel GradSpec GradLemmas GradProofs GradProofs5 GradProofs6 GradProofs7 GradProofs8.
Import ListNotations.
Open Scope R_scope.

Lemma nth_repeat_R (v : R) n k : (k < n)%nat -> nth k (repeat v n) 0 = v.
Proof. revert k. induction n; intros [|k] H; cbn; auto; try lia. apply IHn. lia. Qed.
Lemma filled_elems n v : elems (filled n v) n 1 (fun _ _ => v).
Proof.
  assert (F : fits (filled n v) n 1) by (apply fits_mk; rewrite repeat_length; lia).
  destruct F as (A & B & C). repeat split; auto. intros i j Hi Hj. rewrite (rget_flat _ n 1) by (auto; repeat split; auto).
  cbn. apply nth_repeat_R. lia.
Qed.
Lemma sum_flat m r c : fits m r c -> mat_sum 0 Rplus m = Rsum r (fun i => Rsum c (fun j => rget m i j)).
Proof. intros H. apply mat_sum_elems. apply fits_elems; auto. Qed.

(** ** ReduceSum, ReduceMean *)
Lemma scaled_sum_correct f k req x : wf x -> cols x = 1%nat ->
  (forall a, fits a (rows x) 1 -> fwd f [a] = Some (scalar (mat_sum 0 Rplus a * k))) ->
  (forall gy, fits gy 1 1 -> bwd f [x] req gy = Some (hand_out 0 req [filled (rows x) (rget gy 0 0 * k)])) ->
  correct f req [x].
Proof.
  intros Hw Hc HF HB. pose proof (fits_wf x Hw) as Hx. rewrite Hc in Hx.
  apply (correct_intro f req [x] 1 1 (fun gy => [filled (rows x) (rget gy 0 0 * k)]) (scalar (mat_sum 0 Rplus x * k))); auto using scalar_fits.
  - intros gy Hg. split; [apply HB; auto|]. constructor; [|constructor]. rewrite Hc. eapply elems_fits, filled_elems.
  - intros Xs Vs HM HX _. destruct (one_mover Xs Vs x (rows x) 1 HM HX Hx) as (X & V & -> & -> & HX0 & HXf & HVf & HD).
    exists (fun t _ _ => Rsum (rows x) (fun i => Rsum 1 (fun j => rget (X t) i j)) * k), (fun _ _ => Rsum (rows x) (fun i => Rsum 1 (fun j => rget V i j)) * k). split; [|split].
    + apply filter_forall. intros t. eexists. split; [apply HF; auto|]. eapply elems_ext; [apply fits_elems, scalar_fits|].
      intros i j Hi Hj. replace i with 0%nat by lia. replace j with 0%nat by lia. rewrite rget_scalar, (sum_flat (X t) (rows x) 1) by auto. reflexivity.
    + intros i j _ _. apply d_scal. apply (Rsum_derive (rows x) (fun i t => Rsum 1 (fun j => rget (X t) i j))). intros a Ha.
      apply (Rsum_derive 1 (fun j t => rget (X t) a j)). intros b Hb. auto.
    + intros gy Hg. rewrite total1. rewrite (inner_elems _ _ (rows x) 1 _ _ (filled_elems _ _) (fits_elems _ _ _ HVf)).
      unfold inner2. unfold Rsum at 1 2; cbn [sum_to]. rewrite Rplus_0_r, Rplus_0_r.
      rewrite (Rsum_ext (rows x) (fun i => Rsum 1 (fun j => rget gy 0 0 * k * rget V i j)) (fun i => rget gy 0 0 * k * Rsum 1 (fun j => rget V i j))).
      * rewrite Rsum_mult_l. ring.
      * intros i _. apply Rsum_mult_l.
Qed.
Lemma reduce_sum_correct req x : wf x -> cols x = 1%nat -> correct reduce_sum_fn req [x].
Proof.
  intros Hw Hc. apply (scaled_sum_correct _ 1); auto.
  - intros a Ha. cbn. unfold m_sum. now rewrite Rmult_1_r.
  - intros gy Hg. cbn [bwd reduce_sum_fn un_b]. rewrite (is_scalar_fits gy Hg), (item_fits gy Hg). cbn [guard bind].
    assert (length (data x) = rows x) as -> by (rewrite (fits_len x (rows x) 1); [lia|rewrite <- Hc; apply fits_wf; auto]).
    rewrite Rmult_1_r. apply when1.
Qed.
Lemma m_prods_in_scalar u v : m_prods_in (scalar u) v = scalar (u * v).
Proof.
  eapply (mat_ext _ _ 1 1); [apply m_prods_in_elems, scalar_fits|apply fits_elems, scalar_fits|].
  intros i j Hi Hj. replace i with 0%nat by lia. replace j with 0%nat by lia. cbv beta. now rewrite !rget_scalar.
Qed.
Lemma reduce_mean_correct req x : wf x -> cols x = 1%nat -> correct reduce_mean_fn req [x].
Proof.
  intros Hw Hc.
  assert (L : forall a, fits a (rows x) 1 -> length (data a) = rows x) by (intros a Ha; rewrite (fits_len a (rows x) 1 Ha); lia).
  apply (scaled_sum_correct _ (1 / INR (rows x))); auto.
  - intros a Ha. cbn [fwd reduce_mean_fn un]. unfold m_sum. rewrite m_prods_in_scalar, (L a Ha). reflexivity.
  - intros gy Hg. cbn [bwd reduce_mean_fn un_b]. rewrite (is_scalar_fits gy Hg), (item_fits gy Hg). cbn [guard bind].
    rewrite L by (rewrite <- Hc; apply fits_wf; auto). replace (rget gy 0 0 / INR (rows x)) with (rget gy 0 0 * (1 / INR (rows x))) by (unfold Rdiv; ring).
    apply when1.
Qed.

(** For any shape the gradient is a column of that many equal elements. *)
Lemma reduce_sum_hands req x gy v : fits gy 1 1 -> rget gy 0 0 = v -> req 0%nat = true ->
  bwd reduce_sum_fn [x] req gy = Some [(0%nat, filled (length (data x)) v)].
Proof.
  intros Hg Hv Hr. cbn [bwd reduce_sum_fn un_b]. rewrite (is_scalar_fits gy Hg), (item_fits gy Hg), Hv. cbn [guard bind]. unfold when. now rewrite Hr.
Qed.
Lemma reduce_mean_hands req x gy v : fits gy 1 1 -> rget gy 0 0 = v -> req 0%nat = true ->
  bwd reduce_mean_fn [x] req gy = Some [(0%nat, filled (length (data x)) (v / INR (length (data x))))].
Proof.
  intros Hg Hv Hr. cbn [bwd reduce_mean_fn un_b]. rewrite (is_scalar_fits gy Hg), (item_fits gy Hg), Hv. cbn [guard bind]. unfold when. now rewrite Hr.
Qed.
Lemma reduce_shape_wrong req x : wf x -> cols x <> 1%nat -> req 0%nat = true ->
  ~ right_shapes reduce_sum_fn req [x] /\ ~ right_shapes reduce_mean_fn req [x].
Proof.
  intros Hw Hc Hr. split; intros H.
  - destruct (H (m_sum x) eq_refl (scalar 1) ltac:(apply scalar_fits) ltac:(split; reflexivity) _ 0%nat (filled (length (data x)) 1)
      (reduce_sum_hands req x (scalar 1) 1 (scalar_fits _) (rget_scalar _) Hr) ltac:(left; reflexivity)) as (_ & x' & E & _ & E2).
    injection E as <-. cbn in E2. congruence.
  - assert (F : fits (m_prods_in (m_sum x) (1 / INR (length (data x)))) 1 1) by (eapply elems_fits, m_prods_in_elems, scalar_fits).
    destruct F as (_ & F2 & F3).
    destruct (H _ eq_refl (scalar 1) ltac:(apply scalar_fits) ltac:(split; cbn -[m_prods_in]; rewrite ?F2, ?F3; reflexivity) _ 0%nat (filled (length (data x)) (1 / INR (length (data x))))
      (reduce_mean_hands req x (scalar 1) 1 (scalar_fits _) (rget_scalar _) Hr) ltac:(left; reflexivity)) as (_ & x' & E & _ & E2).
    injection E as <-. cbn in E2. congruence.
Qed.

(** ** ReduceMax *)
Lemma Rltb_true a b : a < b -> Rltb a b = true.
Proof. unfold Rltb. destruct (Rlt_dec a b); auto; lra. Qed.
Lemma Rltb_false a b : b <= a -> Rltb a b = false.
Proof. unfold Rltb. destruct (Rlt_dec a b); auto; lra. Qed.
Lemma Rltb_spec a b : Rltb a b = true <-> a < b.
Proof. unfold Rltb. destruct (Rlt_dec a b); split; intros; auto; discriminate. Qed.
Lemma R_order : strict_order Rltb.
Proof.
  unfold strict_order. split; [|split].
  - intros a. apply Rltb_false. lra.
  - intros a b c H1 H2. apply Rltb_spec in H1, H2. apply Rltb_true. lra.
  - intros a b c H. apply Rltb_spec in H. destruct (Rlt_dec a c); [left; now apply Rltb_true|right; apply Rltb_true; lra].
Qed.

Lemma arg_max_at (d : mat) k : wf d -> is_vector d = true -> (k < length (data d))%nat ->
  (forall i, (i < length (data d))%nat -> i <> k -> nth i (data d) 0 < nth k (data d) 0) -> arg_max Rltb d = Some k.
Proof.
  intros Hw Hv Hk H. destruct (arg_max_spec 0 Rltb R_order d Hw) as (H1 & H2). destruct (arg_max Rltb d) as [r|] eqn:E.
  - destruct (H2 r eq_refl) as (R1 & R2 & R3). destruct (Nat.eq_dec r k) as [->|Hne]; [reflexivity|].
    specialize (R2 k Hk). specialize (H r R1 Hne). rewrite Rltb_true in R2 by auto. discriminate.
  - exfalso. destruct (proj1 H1 eq_refl) as [F|F]; [congruence|]. unfold wf in Hw. lia.
Qed.
(** Value: an element of the vector, and none is larger. *)
Lemma reduce_max_value x : wf x -> is_vector x = true -> (0 < rows x * cols x)%nat ->
  exists k, (k < length (data x))%nat /\ fwd reduce_max_fn [x] = Some (scalar (nth k (data x) 0)) /\ forall i, (i < length (data x))%nat -> nth i (data x) 0 <= nth k (data x) 0.
Proof.
  intros Hw Hv Hn. destruct (arg_max_spec 0 Rltb R_order x Hw) as (H1 & H2). destruct (arg_max Rltb x) as [r|] eqn:E.
  - destruct (H2 r eq_refl) as (R1 & R2 & R3). exists r. split; auto. split.
    + cbn [fwd reduce_max_fn un]. rewrite E. cbn [bind]. rewrite at_one by auto. rewrite Hv. cbn [andb]. unfold wf in Hw.
      destruct (Z.leb_spec 0 (Z.of_nat r)), (Z.ltb_spec (Z.of_nat r) (Z.of_nat (rows x * cols x))); try lia. cbn [andb]. rewrite Nat2Z.id.
      rewrite (nth_error_nth' (data x) 0) by auto. reflexivity.
    + intros i Hi. specialize (R2 i Hi). destruct (Rle_dec (nth i (data x) 0) (nth r (data x) 0)); auto. rewrite Rltb_true in R2 by lra. discriminate.
  - exfalso. destruct (proj1 H1 eq_refl) as [F|F]; [congruence|lia].
Qed.

Lemma reduce_max_correct req x k : wf x -> is_vector x = true -> (k < length (data x))%nat ->
  (forall i, (i < length (data x))%nat -> i <> k -> nth i (data x) 0 < nth k (data x) 0) -> correct reduce_max_fn req [x].
Proof.
  intros Hw Hv Hk H. pose proof (fits_wf x Hw) as Hx. pose proof (arg_max_at x k Hw Hv Hk H) as EA. pose proof (fits_len _ _ _ Hx) as L.
  assert (A1 : forall a, fits a (rows x) (cols x) -> arg_max Rltb a = Some k -> fwd reduce_max_fn [a] = Some (scalar (nth k (data a) 0))).
  { intros a Ha E. pose proof (fits_len _ _ _ Ha) as La. cbn [fwd reduce_max_fn un]. rewrite E. cbn [bind]. rewrite at_one by apply Ha.
    assert (is_vector a = true) as -> by (destruct Ha as (_ & E1 & E2); unfold is_vector in *; now rewrite E1, E2). cbn [andb].
    destruct Ha as (_ & -> & ->).
    destruct (Z.leb_spec 0 (Z.of_nat k)), (Z.ltb_spec (Z.of_nat k) (Z.of_nat (rows x * cols x))); try lia. cbn [andb]. rewrite Nat2Z.id.
    rewrite (nth_error_nth' (data a) 0) by lia. reflexivity. }
  set (G := fun gy : mat => mkDense (rows x) (cols x) (put (repeat 0 (rows x * cols x)) k (rget gy 0 0))).
  assert (HB : forall gy, fits gy 1 1 -> bwd reduce_max_fn [x] req gy = Some (hand_out 0 req [G gy])).
  { intros gy Hg. cbn [bwd reduce_max_fn un_b]. rewrite (is_scalar_fits gy Hg), EA, (item_fits gy Hg). cbn [guard bind].
    unfold set_. rewrite offset_one by (apply (zeros_fits x (rows x) (cols x)); auto).
    destruct (zeros_fits x (rows x) (cols x) Hx) as (_ & E1 & E2). rewrite E1, E2.
    assert (is_vector (m_zeros_like x) = true) as -> by exact Hv. cbn [andb].
    destruct (Z.leb_spec 0 (Z.of_nat k)), (Z.ltb_spec (Z.of_nat k) (Z.of_nat (rows x * cols x))); try lia. cbn [andb]. rewrite Nat2Z.id.
    unfold m_zeros_like, zeros_like, zeros. cbn [data]. rewrite repeat_length. destruct (Nat.ltb_spec k (rows x * cols x)); [|lia]. apply when1. }
  assert (HG : forall gy, fits (G gy) (rows x) (cols x)) by (intros gy; apply fits_mk; rewrite put_length, repeat_length; reflexivity).
  apply (correct_intro reduce_max_fn req [x] 1 1 (fun gy => [G gy]) (scalar (nth k (data x) 0))); auto using scalar_fits.
  - intros gy Hg. split; [auto|]. constructor; [apply HG|constructor].
  - intros Xs Vs HM HX _. destruct (one_mover Xs Vs x (rows x) (cols x) HM HX Hx) as (X & V & -> & -> & HX0 & HXf & HVf & HD).
    assert (HDk : forall i, (i < rows x * cols x)%nat -> is_derive (fun t => nth i (data (X t)) 0) 0 (nth i (data V) 0)) by (intros i Hi; apply (flat_derive X V (rows x) (cols x)); auto).
    exists (fun t _ _ => nth k (data (X t)) 0), (fun _ _ => nth k (data V) 0). split; [|split].
    + apply (filter_imp (fun t => forall i, (i < rows x * cols x)%nat -> i <> k -> nth i (data (X t)) 0 < nth k (data (X t)) 0)).
      * intros t Ht. eexists. split; [apply A1; auto; apply arg_max_at|].
        -- apply HXf.
        -- destruct (HXf t) as (_ & E1 & E2). unfold is_vector in *. now rewrite E1, E2.
        -- rewrite (fits_len _ _ _ (HXf t)). lia.
        -- rewrite (fits_len _ _ _ (HXf t)). exact Ht.
        -- eapply elems_ext; [apply fits_elems, scalar_fits|]. intros i j Hi Hj. replace i with 0%nat by lia. replace j with 0%nat by lia. apply rget_scalar.
      * apply locally_nat. intros i Hi. destruct (Nat.eq_dec i k) as [->|Hne]; [apply filter_forall; intros; lia|].
        apply (filter_imp (fun t => 0 < nth k (data (X t)) 0 - nth i (data (X t)) 0)); [intros; lra|].
        apply (locally_curve (fun t => nth k (data (X t)) 0 - nth i (data (X t)) 0) _ (fun v => 0 < v) (d_minus _ _ 0 _ _ (HDk k ltac:(lia)) (HDk i Hi))).
        apply (open_gt 0). rewrite HX0. specialize (H i ltac:(lia) Hne). lra.
    + intros i j _ _. apply HDk. lia.
    + intros gy Hg. rewrite total1. rewrite (inner_flat (G gy) V (rows x) (cols x)) by auto.
      unfold inner2. unfold Rsum at 1 2; cbn [sum_to]. rewrite !Rplus_0_r.
      rewrite (Rsum_ext _ _ (fun i => if (i =? k)%nat then rget gy 0 0 * nth i (data V) 0 else 0)).
      * symmetry. apply (Rsum_delta (rows x * cols x) k (fun i => rget gy 0 0 * nth i (data V) 0)). lia.
      * intros i Hi. unfold G. cbn [data]. rewrite (nth_error_nth (put (repeat 0 (rows x * cols x)) k (rget gy 0 0)) i 0 (x := if (i =? k)%nat then rget gy 0 0 else 0)).
        -- destruct (i =? k)%nat; ring.
        -- rewrite nth_put, repeat_length, nth_repeat, (Nat.eqb_sym k i). destruct (Nat.ltb_spec i (rows x * cols x)); [|lia]. destruct (Nat.eqb_spec i k); [|reflexivity].
           destruct (Nat.ltb_spec k (rows x * cols x)); [reflexivity|lia].
Qed.

(** ** Max, Min *)
Lemma nth_map_seq (f : nat -> R) n k : (k < n)%nat -> nth k (map f (seq 0 n)) 0 = f k.
Proof. intros H. rewrite (nth_indep _ 0 (f 0%nat)) by (rewrite map_length, seq_length; auto). rewrite map_nth, seq_nth by auto. reflexivity. Qed.
Lemma select_elems win a b gy n : fits a n 1 -> fits b n 1 -> fits gy n 1 ->
  elems (select win a b gy) n 1 (fun i j => rget gy i j * (if win (rget a i j) (rget b i j) then 1 else 0)).
Proof.
  intros Ha Hb Hg. pose proof (fits_len _ _ _ Hg) as L. rewrite Nat.mul_1_r in L. unfold select. rewrite L.
  eapply elems_ext; [apply (flat_elems _ n 1 (fun i => if win (nth i (data a) 0) (nth i (data b) 0) then nth i (data gy) 0 else 0))|].
  - apply fits_mk. rewrite map_length, seq_length. lia.
  - intros k Hk. rewrite Nat.mul_1_r in Hk. cbn [data]. apply (nth_map_seq (fun i => if win (nth i (data a) 0) (nth i (data b) 0) then nth i (data gy) 0 else 0)); auto.
  - intros i j Hi Hj. cbv beta. rewrite (rget_flat a n 1), (rget_flat b n 1), (rget_flat gy n 1) by auto.
    destruct (win (nth (i * 1 + j) (data a) 0) (nth (i * 1 + j) (data b) 0)); ring.
Qed.

Section Extremum.
Variables (combine : mat -> mat -> option mat) (win : R -> R -> bool) (h : R -> R -> R).
Hypothesis HC : combine = mat_binary 0 h.
Hypothesis Hh : h = fun a b => if win a b then a else b.
Hypothesis Hwin : forall a b, a <> b -> locally (a, b) (fun p => win (fst p) (snd p) = win a b) /\ win b a = negb (win a b).

Lemma extremum_shapes req x1 x2 : wf x1 -> wf x2 -> same_shape x1 x2 -> cols x1 = 1%nat ->
  (hands_one_each (extremum_fn combine win) req [x1; x2] /\ right_shapes (extremum_fn combine win) req [x1; x2]) /\
  ((forall i j, (i < rows x1)%nat -> (j < cols x1)%nat -> rget x1 i j <> rget x2 i j) -> correct (extremum_fn combine win) req [x1; x2]).
Proof.
  intros W1 W2 HS Hc1. pose proof (fits_wf x1 W1) as F1. pose proof (fits_same x1 x2 _ _ F1 W2 HS) as F2. rewrite Hc1 in F1, F2.
  assert (HF : forall a b, fits a (rows x1) 1 -> fits b (rows x1) 1 -> exists m, fwd (extremum_fn combine win) [a; b] = Some m /\ elems m (rows x1) 1 (fun i j => h (rget a i j) (rget b i j))).
  { intros a b Ha Hb. cbn. rewrite HC. apply binary_elems; auto. }
  assert (HB : forall gy, fits gy (rows x1) 1 -> bwd (extremum_fn combine win) [x1; x2] req gy = Some (hand_out 0 req [select win x1 x2 gy; select win x2 x1 gy])).
  { intros gy Hg. cbn. rewrite (same_dims_fits _ _ _ _ F1 Hg), (same_dims_fits _ _ _ _ F2 Hg). cbn [guard andb]. apply hand_out2. }
  assert (E1 : forall gy, fits gy (rows x1) 1 -> elems (select win x1 x2 gy) (rows x1) 1 (fun i j => rget gy i j * (fun a b => if win a b then 1 else 0) (rget x1 i j) (rget x2 i j)))
    by (intros gy Hg; apply select_elems; auto).
  assert (E2 : forall gy, fits gy (rows x1) 1 -> elems (select win x2 x1 gy) (rows x1) 1 (fun i j => rget gy i j * (fun a b => if win b a then 1 else 0) (rget x1 i j) (rget x2 i j)))
    by (intros gy Hg; apply select_elems; auto).
  split.
  - apply (pointwise2_shapes (extremum_fn combine win) h (fun a b => if win a b then 1 else 0) (fun a b => if win b a then 1 else 0) req x1 x2 _ _ _ _ F1 F2 HF HB E1 E2).
  - intros Hne. apply (pointwise2 (extremum_fn combine win) h (fun a b => if win a b then 1 else 0) (fun a b => if win b a then 1 else 0) req x1 x2 _ _ _ _ F1 F2 HF HB E1 E2).
    intros i j Hi Hj u v du dv Hu Hv Du Dv. assert (Hd : u 0 <> v 0) by (rewrite Hu, Hv; apply Hne; lia).
    destruct (Hwin (u 0) (v 0) Hd) as (HL & HN). rewrite HN.
    assert (HT : locally 0 (fun t => win (u t) (v t) = win (u 0) (v 0))).
    { destruct HL as (e & He). pose proof (locally_curve u du (fun w => ball (u 0) e w) Du (locally_ball (u 0) e)) as B1.
      pose proof (locally_curve v dv (fun w => ball (v 0) e w) Dv (locally_ball (v 0) e)) as B2.
      apply (filter_imp (fun t => ball (u 0) e (u t) /\ ball (v 0) e (v t))); [|apply filter_and; auto].
      intros t (Hb1 & Hb2). apply (He (u t, v t)). split; auto. }
    rewrite Hh. destruct (win (u 0) (v 0)); cbn [negb].
    + eapply d_near with (f := u).
      * apply (filter_imp (fun t => win (u t) (v t) = true)); [intros t Ht; cbv beta; rewrite Ht; reflexivity|exact HT].
      * eapply d_ext; [reflexivity| |exact Du]. ring.
    + eapply d_near with (f := v).
      * apply (filter_imp (fun t => win (u t) (v t) = false)); [intros t Ht; cbv beta; rewrite Ht; reflexivity|exact HT].
      * eapply d_ext; [reflexivity| |exact Dv]. ring.
Qed.
End Extremum.

Lemma sign_near (a b : R) : a <> b -> locally (a, b) (fun p => Rltb (snd p) (fst p) = Rltb b a).
Proof.
  intros H. assert (E : 0 < Rabs (a - b) / 2) by (assert (0 < Rabs (a - b)) by (apply Rabs_pos_lt; lra); lra).
  exists (mkposreal _ E). intros (a', b') (Ha & Hb). cbn in *.
  assert (Ha' : Rabs (a' - a) < Rabs (a - b) / 2) by exact Ha. assert (Hb' : Rabs (b' - b) < Rabs (a - b) / 2) by exact Hb.
  clear Ha Hb. apply Rabs_def2 in Ha' as (P1 & P2), Hb' as (P3 & P4).
  destruct (Rlt_dec b a) as [C|C].
  - rewrite Rabs_pos_eq in P1, P2, P3, P4 by lra. rewrite !Rltb_true by lra. reflexivity.
  - rewrite Rabs_left in P1, P2, P3, P4 by lra. rewrite !Rltb_false by lra. reflexivity.
Qed.
Lemma max_setup req x1 x2 : wf x1 -> wf x2 -> same_shape x1 x2 -> cols x1 = 1%nat ->
  (hands_one_each max_fn req [x1; x2] /\ right_shapes max_fn req [x1; x2]) /\
  ((forall i j, (i < rows x1)%nat -> (j < cols x1)%nat -> rget x1 i j <> rget x2 i j) -> correct max_fn req [x1; x2]).
Proof.
  apply (extremum_shapes (mat_maximum 0 Rltb) (fun a b => Rltb b a) (fun a b => if Rltb b a then a else b)); auto.
  intros a b H. split; [apply sign_near; auto|]. destruct (Rlt_dec a b); [rewrite Rltb_true, Rltb_false by lra|rewrite Rltb_false, Rltb_true by lra]; reflexivity.
Qed.
Lemma min_setup req x1 x2 : wf x1 -> wf x2 -> same_shape x1 x2 -> cols x1 = 1%nat ->
  (hands_one_each min_fn req [x1; x2] /\ right_shapes min_fn req [x1; x2]) /\
  ((forall i j, (i < rows x1)%nat -> (j < cols x1)%nat -> rget x1 i j <> rget x2 i j) -> correct min_fn req [x1; x2]).
Proof.
  apply (extremum_shapes (mat_minimum 0 Rltb) (fun a b => Rltb a b) (fun a b => if Rltb a b then a else b)); auto.
  intros a b H. split.
  - pose proof (sign_near b a ltac:(auto)) as (e & He). exists e. intros (a', b') (Ha & Hb). exact (He (b', a') (conj Hb Ha)).
  - destruct (Rlt_dec a b); [rewrite (Rltb_true a b), Rltb_false by lra|rewrite Rltb_true, (Rltb_false a b) by lra]; reflexivity.
Qed.

(** The values of Max and Min, of any shape. *)
Lemma max_value x1 x2 r c : fits x1 r c -> fits x2 r c -> exists m, fwd max_fn [x1; x2] = Some m /\ elems m r c (fun i j => Rmax (rget x1 i j) (rget x2 i j)).
Proof.
  intros H1 H2. destruct (binary_elems (fun a b => if Rltb b a then a else b) x1 x2 r c H1 H2) as (m & E & He). exists m. split; [exact E|].
  eapply elems_ext; [exact He|]. intros i j _ _. cbv beta. unfold Rltb, Rmax. destruct (Rlt_dec (rget x2 i j) (rget x1 i j)), (Rle_dec (rget x1 i j) (rget x2 i j)); lra.
Qed.
Lemma min_value x1 x2 r c : fits x1 r c -> fits x2 r c -> exists m, fwd min_fn [x1; x2] = Some m /\ elems m r c (fun i j => Rmin (rget x1 i j) (rget x2 i j)).
Proof.
  intros H1 H2. destruct (binary_elems (fun a b => if Rltb a b then a else b) x1 x2 r c H1 H2) as (m & E & He). exists m. split; [exact E|].
  eapply elems_ext; [exact He|]. intros i j _ _. cbv beta. unfold Rltb, Rmin. destruct (Rlt_dec (rget x1 i j) (rget x2 i j)), (Rle_dec (rget x1 i j) (rget x2 i j)); lra.
Qed.
(** The gradient is a column, whatever the shape of the operands. *)
Lemma extremum_shape_wrong combine win h req x1 x2 r c : combine = mat_binary 0 h -> fits x1 r c -> fits x2 r c -> c <> 1%nat -> req 0%nat = true ->
  ~ right_shapes (extremum_fn combine win) req [x1; x2].
Proof.
  intros HC H1 H2 Hc Hr H. destruct (binary_elems h x1 x2 r c H1 H2) as (m & E & He). rewrite <- HC in E.
  destruct He as (M1 & M2 & M3 & _).
  assert (HB : exists rest, bwd (extremum_fn combine win) [x1; x2] req x1 = Some ((0%nat, select win x1 x2 x1) :: rest)).
  { cbn [bwd extremum_fn bin_b]. rewrite (same_dims_fits x1 x1 r c), (same_dims_fits x2 x1 r c) by auto. cbn [guard andb]. unfold both, when. rewrite Hr.
    destruct (req 1%nat); eexists; reflexivity. }
  destruct HB as (rest & HB). destruct (H m E x1 (proj1 H1)) with (calls := (0%nat, select win x1 x2 x1) :: rest) (k := 0%nat) (g := select win x1 x2 x1) as (_ & x' & E' & _ & E2); auto.
  - destruct H1 as (_ & H11 & H12). split; congruence.
  - left. reflexivity.
  - injection E' as <-. cbn in E2. destruct H1 as (_ & _ & H12). congruence.
Qed.

(** ** ScalarMax *)
Lemma scalar_max_none xs : forall i mx arg, List.Forall (fun x => fits x 1 1 /\ rget x 0 0 <= mx) xs -> scalar_max_loop i xs mx arg = Some arg.
Proof.
  induction xs as [|x xs IH]; intros i mx arg H; [reflexivity|]. inversion H as [|? ? (H1 & H2) H3]; subst. cbn [scalar_max_loop].
  rewrite (item_fits x H1). cbn [bind]. rewrite Rltb_false by auto. auto.
Qed.
Lemma scalar_max_pick xs : forall i mx arg k, (k < length xs)%nat -> List.Forall (fun x => fits x 1 1) xs ->
  mx < rget (nth k xs (mkDense 0 0 [])) 0 0 ->
  (forall j, (j < length xs)%nat -> j <> k -> rget (nth j xs (mkDense 0 0 [])) 0 0 < rget (nth k xs (mkDense 0 0 [])) 0 0) ->
  scalar_max_loop i xs mx arg = Some (i + k)%nat.
Proof.
  induction xs as [|x xs IH]; intros i mx arg k Hk HF Hm H; [cbn in Hk; lia|]. inversion HF as [|? ? F1 F2]; subst. cbn [scalar_max_loop].
  rewrite (item_fits x F1). cbn [bind]. destruct k as [|k].
  - cbn in Hm. rewrite Rltb_true by auto. rewrite Nat.add_0_r. apply scalar_max_none. apply Forall_forall. intros y Hy.
    split; [rewrite Forall_forall in F2; auto|]. apply In_nth with (d := mkDense 0 0 []) in Hy as (j & Hj & <-).
    specialize (H (S j) ltac:(cbn; lia) ltac:(lia)). cbn in H. lra.
  - cbn in Hk. assert (Hrest : forall j, (j < length xs)%nat -> j <> k -> rget (nth j xs (mkDense 0 0 [])) 0 0 < rget (nth k xs (mkDense 0 0 [])) 0 0).
    { intros j Hj Hjk. apply (H (S j)); [cbn; lia|lia]. }
    specialize (H 0%nat ltac:(cbn; lia) ltac:(lia)). cbn in H, Hm.
    replace (i + S k)%nat with (S i + k)%nat by lia.
    destruct (Rltb mx (rget x 0 0)); apply IH; auto; lia.
Qed.

Lemma clone_id (m : mat) : clone m = m.
Proof. destruct m; reflexivity. Qed.
Lemma Forall2_nth {A B} (P : A -> B -> Prop) l l' : Forall2 P l l' -> forall k a b, (k < length l)%nat -> P (nth k l a) (nth k l' b).
Proof. induction 1; intros [|k] a b Hk; cbn in *; try lia; auto. apply IHForall2. lia. Qed.

Lemma scalar_max_adjoint req xs k : (k < length xs)%nat -> List.Forall (fun x => fits x 1 1) xs ->
  0 < rget (nth k xs (mkDense 0 0 [])) 0 0 ->
  (forall j, (j < length xs)%nat -> j <> k -> rget (nth j xs (mkDense 0 0 [])) 0 0 < rget (nth k xs (mkDense 0 0 [])) 0 0) ->
  adjoint scalar_max_fn req xs /\ right_shapes scalar_max_fn req xs.
Proof.
  intros Hk HF Hp Hm. set (z := mkDense 0 0 [] : mat) in *.
  assert (Hfw : forall ys, length ys = length xs -> List.Forall (fun x => fits x 1 1) ys -> 0 < rget (nth k ys z) 0 0 ->
    (forall j, (j < length xs)%nat -> j <> k -> rget (nth j ys z) 0 0 < rget (nth k ys z) 0 0) -> scalar_max_loop 0 ys 0 0 = Some k /\ fwd scalar_max_fn ys = Some (nth k ys z)).
  { intros ys HL HFy Hpy Hmy. assert (E : scalar_max_loop 0 ys 0 0 = Some k). { rewrite (scalar_max_pick ys 0 0 0 k); auto; try lia. rewrite HL. auto. }
    split; auto. cbn [fwd scalar_max_fn]. rewrite E. cbn [bind]. rewrite (nth_error_nth' ys z) by lia. cbn [bind]. destruct ys as [|y ys]; [cbn in *; lia|].
    f_equal. destruct (nth k (y :: ys) z); reflexivity. }
  assert (Hn : forall j, (j < length xs)%nat -> fits (nth j xs z) 1 1) by (intros j Hj; rewrite Forall_forall in HF; apply HF; apply nth_In; auto).
  destruct (Hfw xs eq_refl HF Hp Hm) as (EL & EF).
  split.
  - intros Xs Vs HM HX HS.
    assert (HLX : length Xs = length xs) by (rewrite <- HX; unfold at_time; rewrite map_length; reflexivity).
    assert (HLV : length Vs = length xs) by (rewrite <- (Forall2_length _ _ _ HM); auto).
    set (X := fun j => nth j Xs (fun _ => z)).
    assert (HMj : forall j, (j < length xs)%nat -> moves (X j) (nth j Vs z)) by (intros j Hj; apply (Forall2_nth moves Xs Vs HM j); lia).
    assert (HXj : forall j t, nth j (at_time Xs t) z = X j t) by (intros j t; unfold at_time, X; exact (map_nth (fun F : R -> mat => F t) Xs (fun _ => z) j)).
    assert (HX0 : forall j, X j 0 = nth j xs z) by (intros j; rewrite <- HXj, HX; reflexivity).
    assert (HXs : forall j, (j < length xs)%nat -> (forall t, fits (X j t) 1 1) /\ fits (nth j Vs z) 1 1 /\ is_derive (fun t => rget (X j t) 0 0) 0 (rget (nth j Vs z) 0 0)).
    { intros j Hj. destruct (mover (X j) (nth j Vs z) 1 1 (HMj j Hj)) as (A & B & C); [rewrite HX0; auto|]. split; auto. }
    exists (X k), (nth k Vs z). split; [|split; [apply HMj; auto|]].
    + apply (filter_imp (fun t => 0 < rget (X k t) 0 0 /\ forall j, (j < length xs)%nat -> j <> k -> rget (X j t) 0 0 < rget (X k t) 0 0)).
      * intros t (P1 & P2). rewrite <- HXj. apply Hfw.
        -- unfold at_time. rewrite map_length. auto.
        -- apply Forall_forall. intros y Hy. apply In_nth with (d := z) in Hy as (j & Hj & <-). rewrite HXj. apply HXs. unfold at_time in Hj. rewrite map_length in Hj. lia.
        -- rewrite HXj. auto.
        -- intros j Hj Hne. rewrite !HXj. auto.
      * apply filter_and.
        -- apply (locally_curve (fun t => rget (X k t) 0 0) _ (fun v => 0 < v) (proj2 (proj2 (HXs k Hk)))). apply (open_gt 0). rewrite HX0. auto.
        -- apply locally_nat. intros j Hj. destruct (Nat.eq_dec j k) as [->|Hne]; [apply filter_forall; intros; lia|].
           apply (filter_imp (fun t => 0 < rget (X k t) 0 0 - rget (X j t) 0 0)); [intros; lra|].
           apply (locally_curve (fun t => rget (X k t) 0 0 - rget (X j t) 0 0) _ (fun v => 0 < v) (d_minus _ _ 0 _ _ (proj2 (proj2 (HXs k Hk))) (proj2 (proj2 (HXs j Hj))))).
           apply (open_gt 0). rewrite !HX0. specialize (Hm j Hj Hne). lra.
    + intros gy Hgw (Hg1 & Hg2). destruct (HXs k Hk) as (A & B & C). destruct B as (B1 & B2 & B3).
      assert (Hg : fits gy 1 1) by (repeat split; auto; congruence).
      cbn [bwd scalar_max_fn]. rewrite (is_scalar_fits gy Hg), EL. cbn [guard bind]. unfold when. cbn [bind].
      destruct (req k) eqn:Hr.
      * eexists. split; [reflexivity|]. unfold work. cbn [fold_right fst snd]. rewrite Rplus_0_r. reflexivity.
      * eexists. split; [reflexivity|]. cbn. symmetry.
        rewrite (inner_elems gy (nth k Vs z) 1 1 _ _ (fits_elems _ _ _ Hg) (fits_elems _ _ _ (conj B1 (conj B2 B3)))). apply inner2_0.
        intros i j Hi Hj. rewrite (moves_still (X k) (nth k Vs z) (HMj k Hk)); [ring| |lia|lia].
        apply (HS k); auto. unfold X. apply nth_error_nth'. lia.
  - intros y Hy gy Hgw (Hg1 & Hg2) calls j g Hb Hin. assert (y = nth k xs z) by congruence. subst y. destruct (Hn k Hk) as (N1 & N2 & N3).
    assert (Hg : fits gy 1 1) by (repeat split; auto; congruence).
    cbn [bwd scalar_max_fn] in Hb. rewrite (is_scalar_fits gy Hg), EL in Hb. cbn [guard bind] in Hb. unfold when in Hb. cbn [bind] in Hb.
    destruct (req k); injection Hb as <-; [|destruct Hin]. destruct Hin as [E|[]]. injection E as <- <-. split; auto. exists (nth k xs z).
    split; [apply nth_error_nth'; auto|]. split; congruence.
Qed.

(** Its value: the largest operand if one is positive, the first operand otherwise. *)
Lemma scalar_max_value_first xs : xs <> [] -> List.Forall (fun x => fits x 1 1 /\ rget x 0 0 <= 0) xs -> fwd scalar_max_fn xs = nth_error xs 0.
Proof.
  intros Hne H. cbn [fwd scalar_max_fn]. rewrite (scalar_max_none xs 0 0 0) by auto. destruct xs as [|x xs]; [congruence|]. cbn. destruct x; reflexivity.
Qed.
Lemma scalar_max_best xs : forall i mx arg, List.Forall (fun x => fits x 1 1) xs ->
  (exists k, scalar_max_loop i xs mx arg = Some (i + k)%nat /\ (k < length xs)%nat /\ mx < rget (nth k xs (mkDense 0 0 [])) 0 0 /\
     List.Forall (fun x => rget x 0 0 <= rget (nth k xs (mkDense 0 0 [])) 0 0) xs) \/
  (scalar_max_loop i xs mx arg = Some arg /\ List.Forall (fun x => rget x 0 0 <= mx) xs).
Proof.
  induction xs as [|x xs IH]; intros i mx arg HF; [right; auto|]. inversion HF as [|? ? F1 F2]; subst. cbn [scalar_max_loop]. rewrite (item_fits x F1). cbn [bind].
  unfold Rltb. destruct (Rlt_dec mx (rget x 0 0)) as [C|C].
  - left. destruct (IH (S i) (rget x 0 0) i F2) as [(k & E & Hk & Hm & HA)|(E & HA)].
    + exists (S k). rewrite E. split; [f_equal; lia|]. cbn. split; [lia|]. split; [lra|]. constructor; [lra|auto].
    + exists 0%nat. rewrite E. split; [f_equal; lia|]. cbn. split; [lia|]. split; [lra|]. constructor; [lra|auto].
  - destruct (IH (S i) mx arg F2) as [(k & E & Hk & Hm & HA)|(E & HA)].
    + left. exists (S k). rewrite E. split; [f_equal; lia|]. cbn. split; [lia|]. split; [lra|]. constructor; [lra|auto].
    + right. split; auto. constructor; auto. lra.
Qed.
Lemma scalar_max_value xs : List.Forall (fun x => fits x 1 1) xs -> (exists x, In x xs /\ 0 < rget x 0 0) ->
  exists y, fwd scalar_max_fn xs = Some y /\ In y xs /\ List.Forall (fun x => rget x 0 0 <= rget y 0 0) xs.
Proof.
  intros HF (x & Hx & Hpos). destruct (scalar_max_best xs 0 0 0 HF) as [(k & E & Hk & Hm & HA)|(E & HA)].
  - cbn in E. exists (nth k xs (mkDense 0 0 [])). split; [|split; [apply nth_In; auto|auto]].
    cbn [fwd scalar_max_fn]. rewrite E. cbn [bind]. rewrite (nth_error_nth' xs (mkDense 0 0 [])) by auto. cbn [bind].
    destruct xs; [destruct Hx|]. f_equal. destruct (nth k (d :: xs) (mkDense 0 0 [])); reflexivity.
  - rewrite Forall_forall in HA. specialize (HA x Hx). lra.
Qed.
(** Only the operand picked is handed a gradient. *)
Lemma scalar_max_starves req xs k j : (k < length xs)%nat -> List.Forall (fun x => fits x 1 1) xs ->
  0 < rget (nth k xs (mkDense 0 0 [])) 0 0 ->
  (forall i, (i < length xs)%nat -> i <> k -> rget (nth i xs (mkDense 0 0 [])) 0 0 < rget (nth k xs (mkDense 0 0 [])) 0 0) ->
  (j < length xs)%nat -> j <> k -> req j = true -> ~ hands_one_each scalar_max_fn req xs.
Proof.
  intros Hk HF Hp Hm Hj Hjk Hr (y & Hy & H).
  assert (E : scalar_max_loop 0 xs 0 0 = Some k) by (rewrite (scalar_max_pick xs 0 0 0 k); auto).
  assert (Hn : fits (nth k xs (mkDense 0 0 [])) 1 1) by (rewrite Forall_forall in HF; apply HF; apply nth_In; auto).
  cbn [fwd scalar_max_fn] in Hy. rewrite E in Hy. cbn [bind] in Hy. rewrite (nth_error_nth' xs (mkDense 0 0 [])) in Hy by auto. cbn [bind] in Hy.
  assert (y = nth k xs (mkDense 0 0 [])) as ->. { destruct xs as [|d xs]; [discriminate|]. injection Hy as Hy. etransitivity; [symmetry; exact Hy|]. apply clone_id. }
  destruct (H (scalar 1)) as (calls & Hb & Hc); [apply scalar_fits|destruct Hn as (_ & E1 & E2); split; cbn; congruence|].
  cbn [bwd scalar_max_fn] in Hb. rewrite E in Hb. cbn in Hb. unfold when in Hb. specialize (Hc j).
  destruct (Nat.ltb_spec j (length xs)); [|lia]. rewrite Hr in Hc. cbn [andb] in Hc.
  destruct (req k); injection Hb as <-; cbn [map fst] in Hc; [|cbn in Hc; discriminate].
  rewrite (proj1 (count_occ_not_In Nat.eq_dec [k] j)) in Hc; [discriminate|]. intros [F|[]]; congruence.
Qed.
