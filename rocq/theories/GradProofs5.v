(** * From element-wise statements to adjoints; SwishB, Dropout *)
From Coq Require Import Reals List Arith Bool ZArith Lia Lra.
From Coquelicot Require Import Coquelicot.
From Verif Require Import DenseModel DenseSpec DenseLemmas DenseProofs DenseProofs2 ArithModel ArithSpec ArithProofs GradModel GradSpec GradLemmas GradProofs GradProofs3 GradProofs4.
Import ListNotations.
Open Scope R_scope.

Lemma locally_nat (t0 : R) n (P : nat -> R -> Prop) : (forall k, (k < n)%nat -> locally t0 (P k)) -> locally t0 (fun t => forall k, (k < n)%nat -> P k t).
Proof.
  induction n; intros H.
  - apply filter_forall. intros t k Hk. lia.
  - apply (filter_imp (fun t => (forall k, (k < n)%nat -> P k t) /\ P n t)).
    + intros t [H1 H2] k Hk. destruct (Nat.eq_dec k n) as [->|]; auto. apply H1. lia.
    + apply filter_and; auto.
Qed.
Lemma locally_curve (u : R -> R) (du : R) (P : R -> Prop) : is_derive u 0 du -> locally (u 0) P -> locally 0 (fun t => P (u t)).
Proof. intros H HP. apply (d_continuous u 0 du H). exact HP. Qed.

Lemma hand_out_none req (gs : list mat) : forall k, (forall n, (k <= n < k + length gs)%nat -> req n = false) -> hand_out k req gs = [].
Proof.
  induction gs as [|g gs IH]; intros k H; [reflexivity|]. cbn. rewrite H by (cbn; lia). apply IH. intros n Hn. apply H. cbn; lia.
Qed.

(** [f] is element-wise on every operand of the shape of [x] whose entries are
    in [on], [on] is a neighbourhood of every entry of [x] and [phi] is
    differentiable there. *)
Lemma elementwise_correct f phi (on : R -> Prop) req x (ps : list mat) : wf x -> List.Forall wf ps ->
  (forall k, (1 <= k <= length ps)%nat -> req k = false) ->
  (forall x', wf x' -> same_shape x' x -> (forall i j, (i < rows x)%nat -> (j < cols x)%nat -> on (rget x' i j)) -> elementwise f phi on req x' ps) ->
  (forall i j, (i < rows x)%nat -> (j < cols x)%nat -> locally (rget x i j) on /\ ex_derive phi (rget x i j)) ->
  correct f req (x :: ps).
Proof.
  intros Hw Hps Hq HE HD. pose proof (fits_wf x Hw) as Fx. set (r := rows x) in *. set (c := cols x) in *.
  assert (Hon : forall i j, (i < r)%nat -> (j < c)%nat -> on (rget x i j)) by (intros i j Hi Hj; apply (locally_singleton _ _ (proj1 (HD i j Hi Hj)))).
  destruct (HE x Hw (conj eq_refl eq_refl) Hon) as [(y & Hy & Wy & (Hyr & Hyc) & _) HB].
  apply (correct_intro f req (x :: ps) r c (fun gy => build r c (fun i j => rget gy i j * Derive phi (rget x i j)) :: map (fun p => m_zeros_like p) ps) y); auto.
  - repeat split; auto.
  - intros gy (Wg & Hgr & Hgc). split.
    + destruct (HB gy Wg (conj Hgr Hgc)) as (g & Hg & Wg' & (Hgr' & Hgc') & He). refine (eq_trans Hg _).
      assert (g = build r c (fun i j => rget gy i j * Derive phi (rget x i j))) as <-.
      { apply elems_build. repeat split; auto. intros i j Hi Hj. apply He; auto. apply HD; auto. }
      cbn [hand_out]. rewrite hand_out_none; [destruct (req 0%nat); reflexivity|]. intros n Hn. rewrite map_length in Hn. apply Hq. split; [apply Hn|apply Nat.lt_succ_r, Hn].
    + constructor; [apply fits_build|]. clear -Hps. induction Hps as [|p ps Hp Hps IH]; cbn; constructor; auto.
      apply (elems_fits _ _ _ _ (zeros_elems p _ _ (fits_wf p Hp))).
  - intros Xs Vs HM HX HS. destruct HM as [|X V Xs Vs HX1 HM]; [discriminate|]. injection HX as H0 H1. subst x.
    destruct (mover X V r c HX1 Fx) as (FX & FV & DX).
    assert (Hst : forall t, at_time Xs t = ps).
    { intros t. rewrite <- H1. unfold at_time. apply map_ext_in. intros Y HY. apply In_nth_error in HY as [k Hk].
      apply (HS (S k) Y Hk). apply Hq. rewrite <- H1. unfold at_time. rewrite map_length. assert (k < length Xs)%nat by (apply nth_error_Some; congruence). lia. }
    exists (fun t i j => phi (rget (X t) i j)), (fun i j => Derive phi (rget (X 0) i j) * rget V i j).
    split; [|split].
    + apply (filter_imp (fun t => forall i, (i < r)%nat -> forall j, (j < c)%nat -> on (rget (X t) i j))).
      * intros t Ht. destruct (FX t) as (Wt & Rt & Ct). change (at_time (X :: Xs) t) with (X t :: at_time Xs t). rewrite Hst.
        destruct (HE (X t) Wt (conj Rt Ct) (fun i j Hi Hj => Ht i Hi j Hj)) as [(yt & Hyt & Wyt & (Ryt & Cyt) & Eyt) _]. exists yt. split; auto.
        rewrite Rt in *. rewrite Ct in *. repeat split; auto.
      * apply locally_nat. intros i Hi. apply locally_nat. intros j Hj. apply (locally_curve (fun t => rget (X t) i j) (rget V i j)); auto. apply HD; auto.
    + intros i j Hi Hj. apply (d_comp phi (fun t => rget (X t) i j)); auto. apply Derive_correct. apply HD; auto.
    + intros gy Fg. cbn [map]. unfold total. cbn [combine map fold_right fst snd].
      rewrite (inner_elems _ V r c _ _ (build_elems r c _) (fits_elems _ _ _ FV)).
      replace (fold_right Rplus 0 (map (fun p => inner (fst p) (snd p)) (combine (map (fun p => m_zeros_like p) ps) Vs))) with 0.
      * rewrite Rplus_0_r. apply inner2_ext. intros i j Hi Hj. ring.
      * symmetry. clear -Hps. revert Vs. induction Hps as [|p ps Hp Hps IH]; intros [|W Vs]; cbn [map combine fold_right]; auto. rewrite IH, Rplus_0_r. cbn [fst snd].
        pose proof (zeros_elems p _ _ (fits_wf p Hp)) as (Z1 & Z2 & Z3 & Z4). unfold inner. rewrite Z2, Z3. apply Rsum_0. intros i Hi. apply Rsum_0. intros j Hj. rewrite Z4 by auto. ring.
Qed.

(** ** SwishB, whose second operand is a scalar that receives a gradient *)
Lemma at_vector (gy : mat) i : is_vector gy = true -> (i < length (data gy))%nat -> at_ gy [Z.of_nat i] = Some (nth i (data gy) 0).
Proof.
  intros Hv Hi. unfold at_, offset. unfold is_vector in Hv.
  replace (negb (rows gy =? 1)%nat && negb (cols gy =? 1)%nat) with false by (destruct (rows gy =? 1)%nat, (cols gy =? 1)%nat; cbn in *; congruence).
  replace ((Z.of_nat i <? 0) || (Z.of_nat (length (data gy)) <=? Z.of_nat i))%Z with false by (symmetry; apply orb_false_iff; split; [apply Z.ltb_ge|apply Z.leb_gt]; lia).
  rewrite Nat2Z.id. apply nth_error_nth'. auto.
Qed.
Lemma swish_b_loop_spec beta gy : is_vector gy = true -> forall xs i gb, (i + length xs = length (data gy))%nat -> fits gb 1 1 ->
  swish_b_loop beta gy i xs gb = Some (scalar (rget gb 0 0 + Rsum (length xs) (fun k => swish_b_beta_deriv (nth k xs 0) beta * nth (i + k) (data gy) 0))).
Proof.
  intros Hv. induction xs as [|x xs IH]; intros i gb Hl Hg; cbn [swish_b_loop length].
  - f_equal. unfold Rsum; simpl. rewrite Rplus_0_r. apply (mat_ext _ _ 1 1 (rget gb) (fun _ _ => rget gb 0 0)).
    + apply fits_elems; auto.
    + repeat split. intros i' j' Hi' Hj'. replace i' with 0%nat by lia. replace j' with 0%nat by lia. reflexivity.
    + intros i' j' Hi' Hj'. replace i' with 0%nat by lia. replace j' with 0%nat by lia. reflexivity.
  - cbn in Hl. rewrite at_vector by (auto; lia). cbn [bind].
    pose proof (m_adds_in_elems gb (swish_b_beta_deriv x beta * nth i (data gy) 0) 1 1 Hg) as E.
    rewrite IH by (try lia; apply (elems_fits _ _ _ _ E)). do 2 f_equal. rewrite (rget_elems _ _ _ _ 0%nat 0%nat E) by lia. rewrite Rsum_S. cbn [nth].
    rewrite Nat.add_0_r, Rplus_assoc. do 2 f_equal. apply Rsum_ext. intros k Hk. now replace (S i + k)%nat with (i + S k)%nat by lia.
Qed.
Lemma swish_b_derive (u v : R -> R) (du dv : R) : is_derive u 0 du -> is_derive v 0 dv ->
  is_derive (fun t => swish_b (v t) (u t)) 0 (swish_b_deriv (v 0) (u 0) * du + swish_b_beta_deriv (u 0) (v 0) * dv).
Proof.
  intros Du Dv.
  (* v / (1 + exp (-(b v))) as a function of the two curves *)
  pose proof (d_mult v u 0 dv du Dv Du) as D1. set (p := fun t => v t * u t) in *.
  assert (D2 : is_derive (fun t => 1 / (1 + exp (- p t))) 0 (exp (- p 0) / ((1 + exp (- p 0)) * (1 + exp (- p 0))) * (dv * u 0 + v 0 * du))).
  { apply (d_comp (fun w => 1 / (1 + exp (- w))) p); auto. pose proof (exp_pos (- p 0)). auto_derive; [lra|]. field. lra. }
  pose proof (d_mult u _ 0 du _ Du D2) as D3.
  eapply d_ext; [| |exact D3].
  - intros t. unfold swish_b, p. cbv beta. replace (v t * - u t) with (- (v t * u t)) by ring. reflexivity.
  - unfold swish_b_deriv, swish_b_beta_deriv, p. cbv beta zeta. replace (u 0 * v 0) with (v 0 * u 0) by ring.
    pose proof (exp_pos (v 0 * u 0)). rewrite exp_neg. field. lra.
Qed.
Lemma swish_b_correct req x b : wf x -> fits b 1 1 -> is_vector x = true -> correct swish_b_fn req [x; b].
Proof.
  intros W F2 Hv. pose proof (fits_wf x W) as F1. set (beta := rget b 0 0).
  apply (pointscalar swish_b_fn (fun v b => swish_b b v) (fun v b => swish_b_deriv b v) (fun v b => swish_b_beta_deriv v b) req x b _ _
    (fun g => get_some (m_prod_in (m_apply (swish_b_deriv beta) x) g)) (fun g => Rsum (length (data x)) (fun k => swish_b_beta_deriv (nth k (data x) 0) beta * nth k (data g) 0)) F1 F2).
  - intros a s Ha Hs. cbn. rewrite item_fits by auto. cbn [bind]. eexists; split; [reflexivity|]. apply m_apply_elems; auto.
  - intros gy Hg. cbn. rewrite (same_dims_fits _ _ _ _ F1 Hg), item_fits by auto. cbn [guard bind]. fold beta.
    destruct (apply_prod (swish_b_deriv beta) x gy _ _ F1 Hg) as (g & -> & _). cbn [get_some].
    rewrite swish_b_loop_spec; [| |rewrite (fits_len _ _ _ F1), (fits_len _ _ _ Hg); reflexivity|exact (elems_fits _ _ _ _ (zeros_elems b 1 1 F2))].
    + rewrite (rget_elems _ _ _ _ 0%nat 0%nat (zeros_elems b 1 1 F2)) by lia. rewrite Rplus_0_l. apply hand_out2.
    + destruct Hg as (_ & Hr & Hc). unfold is_vector in *. now rewrite Hr, Hc.
  - intros gy Hg. destruct (apply_prod (swish_b_deriv beta) x gy _ _ F1 Hg) as (g & -> & Eg). cbn [get_some]. eapply elems_ext; [exact Eg|]. intros; cbv beta; fold beta; ring.
  - intros gy Hg. rewrite (fits_len _ _ _ F1), Rsum_flat. apply Rsum_ext; intros i Hi. apply Rsum_ext; intros j Hj. fold beta.
    destruct Hg as (Wg & Rg & Cg). rewrite !rget_nth by (auto; lia). rewrite Cg. ring.
  - intros i j Hi Hj u v du dv _ _ Du Dv. apply swish_b_derive; auto.
Qed.
Lemma swish_b_elementwise req x b : wf x -> fits b 1 1 -> req 1%nat = false ->
  elementwise swish_b_fn (fun v => v / (1 + exp (- rget b 0 0 * v))) anywhere req x [b].
Proof.
  intros Hw Hb Hq. pose proof (fits_wf x Hw) as Fx. apply (elementwise_intro _ _ _ req x [b] (swish_b (rget b 0 0)) (swish_b_deriv (rget b 0 0)) Hw).
  - cbn. rewrite item_fits by auto. eexists; split; [reflexivity|]. apply m_apply_elems; auto.
  - intros gy Fg. destruct (apply_prod (swish_b_deriv (rget b 0 0)) x gy _ _ Fx Fg) as (g & Hg & Eg). exists g. split; auto.
    cbn. rewrite (same_dims_fits _ _ _ _ Fx Fg), item_fits by auto. cbn [bind]. rewrite Hg, Hq. unfold both, when. destruct (req 0%nat); reflexivity.
  - intros v _. apply swish_b_eq.
  - intros v _ _. transitivity (Derive (swish_b (rget b 0 0)) v); [apply d_eq, swish_b_d|]. apply Derive_ext. intros. apply swish_b_eq.
Qed.
(** a beta that requires gradients makes Backward panic unless x is a vector *)
Lemma swish_b_matrix req x b gy : is_vector gy = false -> fits b 1 1 -> data x <> [] -> req 1%nat = true -> bwd swish_b_fn [x; b] req gy = None.
Proof.
  intros Hv Hb Hx Hq. cbn. destruct (same_dims x gy); [|reflexivity]. cbn [guard]. rewrite Hq, item_fits by auto. cbn [bind].
  destruct (data x) as [|v l]; [congruence|]. cbn [swish_b_loop].
  replace (at_ gy [Z.of_nat 0]) with (@None R); [unfold both, when; cbn [bind]; destruct (req 0%nat); [destruct (m_prod_in _ _)|]; reflexivity|].
  unfold at_, offset. unfold is_vector in Hv. apply orb_false_iff in Hv as [-> ->]. reflexivity.
Qed.

(** ** Dropout, given the mask *)
Lemma dropout_mask_elems p draw x r c : fits draw r c -> fits x r c ->
  elems (dropout_mask p draw x) r c (fun i j => if Rltb 0 (1 - p) then rget draw i j * (1 / (1 - p)) else 0).
Proof.
  intros Fd Fx. unfold dropout_mask. cbv zeta. destruct (Rltb 0 (1 - p)); [apply m_prods_in_elems; auto|apply zeros_elems; auto].
Qed.
Lemma dropout_correct p draw req x : wf x -> wf draw -> same_shape x draw -> correct (dropout_fn p draw) req [x].
Proof.
  intros Wx Wd HS. pose proof (fits_wf x Wx) as Fx. pose proof (fits_same x draw _ _ Fx Wd HS) as Fd. set (r := rows x) in *. set (c := cols x) in *.
  set (k := fun i j => if Rltb 0 (1 - p) then rget draw i j * (1 / (1 - p)) else 0).
  assert (HM : forall a, fits a r c -> exists m, m_prod a (dropout_mask p draw x) = Some m /\ elems m r c (fun i j => rget a i j * k i j)).
  { intros a Fa. pose proof (dropout_mask_elems p draw x r c Fd Fx) as Em. destruct (m_prod_elems a _ r c Fa (elems_fits _ _ _ _ Em)) as (m & -> & E). exists m. split; auto.
    eapply elems_ext; [exact E|]. intros i j Hi Hj. cbv beta. now rewrite (rget_elems _ _ _ _ i j Em Hi Hj). }
  assert (HM' : forall a, fits a r c -> fwd (dropout_fn p draw) [a] = m_prod a (dropout_mask p draw x)).
  { intros a (_ & Ra & Ca). cbn. unfold dropout_mask. cbv zeta. destruct (Rltb 0 (1 - p)); auto. unfold m_zeros_like, zeros_like. fold r c. now rewrite Ra, Ca. }
  destruct (HM x Fx) as (y & Hy & Ey).
  apply (correct_intro (dropout_fn p draw) req [x] r c (fun gy => [get_some (m_prod gy (dropout_mask p draw x))]) y).
  - rewrite HM'; auto.
  - eapply elems_fits; eauto.
  - intros gy Fg. destruct (HM gy Fg) as (g & Hg & Eg). rewrite Hg. split; [|constructor; [apply (elems_fits _ _ _ _ Eg)|constructor]].
    cbn. rewrite (same_dims_fits _ _ _ _ Fx Fg). cbn [guard]. rewrite Hg. apply hand_out1.
  - intros Xs Vs HMv HX _. destruct (one_mover _ _ _ _ _ HMv HX Fx) as (X & V & -> & -> & H0 & FX & FV & DX).
    exists (fun t i j => rget (X t) i j * k i j), (fun i j => rget V i j * k i j). split; [|split].
    + apply filter_forall. intros t. unfold at_time. cbn [map]. rewrite HM'; auto.
    + intros i j Hi Hj. apply (d_scal (fun t => rget (X t) i j)); auto.
    + intros gy Fg. rewrite total1. destruct (HM gy Fg) as (g & -> & Eg). cbn [get_some]. rewrite (inner_elems _ _ _ _ _ _ Eg (fits_elems _ _ _ FV)). apply inner2_ext. intros; ring.
Qed.
