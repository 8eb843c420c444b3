(** * Matrix products: Mul, MulT, Dot, Affine *)
From Coq Require Import Reals List Arith Bool ZArith Lia Lra.
From Coquelicot Require Import Coquelicot.
From Verif Require Import DenseModel DenseSpec DenseLemmas DenseProofs DenseProofs2 ArithModel ArithSpec ArithProofs GradModel GradSpec GradLemmas GradProofs.
Import ListNotations.
Open Scope R_scope.

Lemma grad_w_elems wide x gy r n c : fits x n c -> fits gy r c ->
  exists m, mul_grad_w wide x gy = Some m /\ elems m r n (fun i j => Rsum c (fun k => rget gy i k * rget x j k)).
Proof.
  intros Fx Fg. unfold mul_grad_w. pose proof (m_t_elems x n c Fx) as Et.
  destruct (m_mul_elems wide gy (m_t x) r c n Fg (elems_fits _ _ _ _ Et)) as (m & -> & E). exists m. split; auto.
  eapply elems_ext; [exact E|]. intros i j Hi Hj. apply Rsum_ext. intros k Hk. now rewrite (rget_elems _ _ _ _ k j Et).
Qed.
Lemma grad_x_elems wide w gy r n c : fits w r n -> fits gy r c ->
  exists m, mul_grad_x wide w gy = Some m /\ elems m n c (fun j k => Rsum r (fun i => rget w i j * rget gy i k)).
Proof.
  intros Fw Fg. unfold mul_grad_x. destruct (Nat.eqb_spec (cols gy) 1) as [H1|H1].
  - destruct Fg as (Hw & Hr & Hc). assert (c = 1)%nat as -> by congruence.
    destruct (m_mul_t_elems w gy r n Fw) as (m & -> & E); [repeat split; auto|]. exists m. split; auto. eapply elems_ext; [exact E|].
    intros i j Hi Hj. assert (j = 0)%nat by lia. subst. reflexivity.
  - pose proof (m_t_elems w r n Fw) as Et. destruct (m_mul_elems wide (m_t w) gy n r c (elems_fits _ _ _ _ Et) Fg) as (m & -> & E). exists m. split; auto.
    eapply elems_ext; [exact E|]. intros i j Hi Hj. apply Rsum_ext. intros k Hk. now rewrite (rget_elems _ _ _ _ i k Et).
Qed.

(** the work of gy on the velocity of a product *)
Lemma product_work (gy gw gx dW dX : mat) w x r n c :
  elems gw r n (fun i j => Rsum c (fun k => rget gy i k * x j k)) ->
  elems gx n c (fun j k => Rsum r (fun i => w i j * rget gy i k)) -> fits dW r n -> fits dX n c ->
  inner2 r c (rget gy) (fun i k => Rsum n (fun j => rget dW i j * x j k + w i j * rget dX j k)) = inner gw dW + inner gx dX.
Proof.
  intros Ew Ex FW FX. rewrite (inner_elems _ _ _ _ _ _ Ew (fits_elems _ _ _ FW)), (inner_elems _ _ _ _ _ _ Ex (fits_elems _ _ _ FX)).
  unfold inner2.
  transitivity (Rsum r (fun i => Rsum n (fun j => Rsum c (fun k => rget gy i k * x j k) * rget dW i j)) +
                Rsum r (fun i => Rsum n (fun j => Rsum c (fun k => (w i j * rget gy i k) * rget dX j k)))).
  - rewrite <- Rsum_plus. apply Rsum_ext. intros i Hi. rewrite <- Rsum_plus.
    transitivity (Rsum c (fun k => Rsum n (fun j => rget gy i k * x j k * rget dW i j + w i j * rget gy i k * rget dX j k))).
    + apply Rsum_ext. intros k Hk. rewrite <- Rsum_mult_l. apply Rsum_ext. intros j Hj. ring.
    + rewrite Rsum_swap. apply Rsum_ext. intros j Hj. rewrite Rsum_plus, Rsum_mult_r. reflexivity.
  - f_equal. rewrite Rsum_swap. apply Rsum_ext. intros j Hj.
    rewrite Rsum_swap. apply Rsum_ext. intros k Hk. rewrite Rsum_mult_r. reflexivity.
Qed.
Lemma product_derive (W X : R -> mat) (dW dX : mat) r n c i k : (i < r)%nat -> (k < c)%nat ->
  (forall i j, (i < r)%nat -> (j < n)%nat -> is_derive (fun t => rget (W t) i j) 0 (rget dW i j)) ->
  (forall i j, (i < n)%nat -> (j < c)%nat -> is_derive (fun t => rget (X t) i j) 0 (rget dX i j)) ->
  is_derive (fun t => Rsum n (fun j => rget (W t) i j * rget (X t) j k)) 0
    (Rsum n (fun j => rget dW i j * rget (X 0) j k + rget (W 0) i j * rget dX j k)).
Proof.
  intros Hi Hk DW DX. apply (Rsum_derive n (fun j t => rget (W t) i j * rget (X t) j k)). intros j Hj.
  apply (d_mult (fun t => rget (W t) i j) (fun t => rget (X t) j k)); auto.
Qed.

Lemma mul_correct wide req w x : wf w -> wf x -> cols w = rows x -> correct (mul_fn wide) req [w; x].
Proof.
  intros Ww Wx HC. pose proof (fits_wf w Ww) as Fw. assert (Fx : fits x (cols w) (cols x)) by (repeat split; auto).
  set (r := rows w) in *. set (n := cols w) in *. set (c := cols x) in *.
  destruct (m_mul_elems wide w x r n c Fw Fx) as (y & Hy & Ey).
  eapply (correct_intro (mul_fn wide) req [w; x] r c (fun gy => [get_some (mul_grad_w wide x gy); get_some (mul_grad_x wide w gy)]) y Hy (elems_fits _ _ _ _ Ey)).
  - intros gy Fg. destruct (get_some_eq _ _ (grad_w_elems wide x gy r n c Fx Fg)) as [Hw Ew]. destruct (get_some_eq _ _ (grad_x_elems wide w gy r n c Fw Fg)) as [Hx Ex].
    split.
    + cbn. destruct Fg as (Hgw & Hgr & Hgc). rewrite Hgr, Hgc. fold r c. rewrite !Nat.eqb_refl. cbn [andb guard]. rewrite Hw, Hx at 1. apply hand_out2.
    + apply Forall2_cons; [|apply Forall2_cons; [|apply Forall2_nil]]; [|rewrite <- HC]; eapply elems_fits; eauto.
  - intros Xs Vs HM HX _. destruct (two_movers _ _ _ _ _ _ _ _ HM HX Fw Fx) as (X1 & V1 & X2 & V2 & -> & -> & H1 & H2 & HX1 & HV1 & HX2 & HV2 & D1 & D2).
    exists (fun t i k => Rsum n (fun j => rget (X1 t) i j * rget (X2 t) j k)), (fun i k => Rsum n (fun j => rget V1 i j * rget x j k + rget w i j * rget V2 j k)).
    split; [|split].
    + apply filter_forall. intros t. apply (m_mul_elems wide); auto.
    + intros i j Hi Hj. rewrite <- H1, <- H2. eapply product_derive; eauto.
    + intros gy Fg. rewrite total2. destruct (get_some_eq _ _ (grad_w_elems wide x gy r n c Fx Fg)) as [Hw Ew]. destruct (get_some_eq _ _ (grad_x_elems wide w gy r n c Fw Fg)) as [Hx Ex].
      apply (product_work gy _ _ V1 V2 (rget w) (rget x) r n c); auto.
Qed.

(** MulT: x1 is r x n, x2 is r x 1 and the result n x 1 *)
Lemma mul_t_grad1_elems wide x2 gy r n : fits x2 r 1 -> fits gy n 1 ->
  exists m, (bind (m_mul wide gy (m_t x2)) (fun gx => Some (m_t gx))) = Some m /\ elems m r n (fun i j => rget gy j 0 * rget x2 i 0).
Proof.
  intros F2 Fg. pose proof (m_t_elems x2 r 1 F2) as Et.
  destruct (m_mul_elems wide gy (m_t x2) n 1 r Fg (elems_fits _ _ _ _ Et)) as (m & -> & E). cbn [bind].
  eexists. split; [reflexivity|]. eapply elems_ext; [apply m_t_elems, (elems_fits _ _ _ _ E)|]. intros i j Hi Hj. cbv beta.
  rewrite (rget_elems _ _ _ _ j i E Hj Hi). rewrite Rsum_S. unfold Rsum; simpl. rewrite (rget_elems _ _ _ _ 0%nat i Et) by lia. ring.
Qed.
Lemma mul_t_correct wide req x1 x2 : wf x1 -> wf x2 -> rows x1 = rows x2 -> cols x2 = 1%nat -> correct (mul_t_fn wide) req [x1; x2].
Proof.
  intros W1 W2 HR HC. pose proof (fits_wf x1 W1) as F1. assert (F2 : fits x2 (rows x1) 1) by (repeat split; auto).
  set (r := rows x1) in *. set (n := cols x1) in *.
  destruct (m_mul_t_elems x1 x2 r n F1 F2) as (y & Hy & Ey).
  eapply (correct_intro (mul_t_fn wide) req [x1; x2] n 1 (fun gy => [get_some (bind (m_mul wide gy (m_t x2)) (fun gx => Some (m_t gx))); get_some (m_mul wide x1 gy)]) y Hy (elems_fits _ _ _ _ Ey)).
  - intros gy Fg. destruct (get_some_eq _ _ (mul_t_grad1_elems wide x2 gy r n F2 Fg)) as [Hw Ew]. destruct (get_some_eq _ _ (m_mul_elems wide x1 gy r n 1 F1 Fg)) as [Hx Ex].
    split.
    + cbn. rewrite Hw at 1. destruct Fg as (_ & _ & Hgc). rewrite Hgc. cbn [Nat.eqb]. rewrite Hx at 1. apply hand_out2.
    + apply Forall2_cons; [|apply Forall2_cons; [|apply Forall2_nil]]; [|rewrite <- HR, HC]; eapply elems_fits; eauto.
  - intros Xs Vs HM HX _. destruct (two_movers _ _ _ _ _ _ _ _ HM HX F1 F2) as (X1 & V1 & X2 & V2 & -> & -> & H1 & H2 & HX1 & HV1 & HX2 & HV2 & D1 & D2).
    exists (fun t i _ => Rsum r (fun k => rget (X1 t) k i * rget (X2 t) k 0)), (fun i _ => Rsum r (fun k => rget V1 k i * rget x2 k 0 + rget x1 k i * rget V2 k 0)).
    split; [|split].
    + apply filter_forall. intros t. apply m_mul_t_elems; auto.
    + intros i j Hi Hj. rewrite <- H1, <- H2. apply (Rsum_derive r (fun k t => rget (X1 t) k i * rget (X2 t) k 0)). intros k Hk.
      apply (d_mult (fun t => rget (X1 t) k i) (fun t => rget (X2 t) k 0)); auto.
    + intros gy Fg. rewrite total2. destruct (get_some_eq _ _ (mul_t_grad1_elems wide x2 gy r n F2 Fg)) as [_ Ew]. destruct (get_some_eq _ _ (m_mul_elems wide x1 gy r n 1 F1 Fg)) as [_ Ex].
      rewrite (inner_elems _ _ _ _ _ _ Ew (fits_elems _ _ _ HV1)), (inner_elems _ _ _ _ _ _ Ex (fits_elems _ _ _ HV2)). unfold inner2.
      transitivity (Rsum n (fun i => Rsum r (fun k => rget gy i 0 * rget x2 k 0 * rget V1 k i)) + Rsum n (fun i => Rsum r (fun k => rget x1 k i * rget gy i 0 * rget V2 k 0))).
      * rewrite <- Rsum_plus. apply Rsum_ext. intros i Hi. rewrite Rsum_S. unfold Rsum at 2; simpl. rewrite <- Rsum_mult_l, <- Rsum_plus.
        rewrite Rplus_0_r. apply Rsum_ext. intros. ring.
      * f_equal; [apply Rsum_swap|]. rewrite Rsum_swap. apply Rsum_ext. intros k Hk. rewrite Rsum_S. unfold Rsum at 3; simpl.
        rewrite Rplus_0_r, <- Rsum_mult_r. reflexivity.
Qed.

(** Dot *)
Lemma dot_forward x1 x2 r c : fits x1 r c -> fits x2 r c ->
  exists m, fwd dot_fn [x1; x2] = Some m /\ elems m 1 1 (fun _ _ => Rsum r (fun i => Rsum c (fun j => rget x1 i j * rget x2 i j))).
Proof.
  intros F1 F2. cbn. rewrite (same_dims_fits _ _ _ _ F1 F2). cbn [guard].
  assert (E : m_dot x1 x2 = Some (scalar (Rsum r (fun i => Rsum c (fun j => rget x1 i j * rget x2 i j))))).
  { destruct F1 as (W1 & R1 & C1), F2 as (W2 & R2 & C2). unfold m_dot.
    rewrite (mat_dot_spec 0 1 Rplus Rmult Rsrt x1 x2 W1 W2) by (split; congruence). do 2 f_equal.
    rewrite R1, C1. fold (Rsum (r * c) (fun k => nth k (data x1) 0 * nth k (data x2) 0)). rewrite Rsum_flat. apply Rsum_ext; intros i Hi; apply Rsum_ext; intros j Hj.
    rewrite !rget_nth by (auto; lia). now rewrite C1, C2. }
  destruct (is_vector x1 && is_vector x2).
  - rewrite E. eexists; split; [reflexivity|]. repeat split; intros i j Hi Hj. replace i with 0%nat by lia. replace j with 0%nat by lia. reflexivity.
  - destruct (m_prod_sum x1 x2 r c F1 F2) as (p & -> & Hp). cbn [bind]. eexists; split; [reflexivity|]. unfold m_sum. rewrite Hp.
    repeat split; intros i j Hi Hj. replace i with 0%nat by lia. replace j with 0%nat by lia. reflexivity.
Qed.
Lemma dot_correct req x1 x2 : wf x1 -> wf x2 -> same_shape x1 x2 -> correct dot_fn req [x1; x2].
Proof.
  intros W1 W2 HS. pose proof (fits_wf x1 W1) as F1. pose proof (fits_same x1 x2 _ _ F1 W2 HS) as F2.
  set (r := rows x1) in *. set (c := cols x1) in *.
  destruct (dot_forward x1 x2 r c F1 F2) as (y & Hy & Ey).
  eapply (correct_intro dot_fn req [x1; x2] 1 1 (fun gy => [m_prods x2 (rget gy 0 0); m_prods x1 (rget gy 0 0)]) y Hy (elems_fits _ _ _ _ Ey)).
  - intros gy Fg. split.
    + cbn. rewrite is_scalar_fits, item_fits by auto. cbn [guard bind]. apply hand_out2.
    + destruct HS as [HSr HSc]. apply Forall2_cons; [|apply Forall2_cons; [|apply Forall2_nil]]; [|rewrite <- HSr, <- HSc]; eapply elems_fits, m_prods_elems; eauto.
  - intros Xs Vs HM HX _. destruct (two_movers _ _ _ _ _ _ _ _ HM HX F1 F2) as (X1 & V1 & X2 & V2 & -> & -> & H1 & H2 & HX1 & HV1 & HX2 & HV2 & D1 & D2).
    exists (fun t _ _ => Rsum r (fun i => Rsum c (fun j => rget (X1 t) i j * rget (X2 t) i j))), (fun _ _ => Rsum r (fun i => Rsum c (fun j => rget V1 i j * rget x2 i j + rget x1 i j * rget V2 i j))).
    split; [|split].
    + apply filter_forall. intros t. apply dot_forward; auto.
    + intros _ _ _ _. rewrite <- H1, <- H2. apply (Rsum_derive r (fun i t => Rsum c (fun j => rget (X1 t) i j * rget (X2 t) i j))). intros i Hi.
      apply (Rsum_derive c (fun j t => rget (X1 t) i j * rget (X2 t) i j)). intros j Hj. apply (d_mult (fun t => rget (X1 t) i j) (fun t => rget (X2 t) i j)); auto.
    + intros gy Fg. rewrite total2.
      rewrite (inner_elems _ _ _ _ _ _ (m_prods_elems _ _ _ _ F2) (fits_elems _ _ _ HV1)), (inner_elems _ _ _ _ _ _ (m_prods_elems _ _ _ _ F1) (fits_elems _ _ _ HV2)).
      rewrite inner2_plus. unfold inner2 at 1. unfold Rsum at 1 2; simpl. rewrite !Rplus_0_r. rewrite <- Rsum_mult_l. apply Rsum_ext; intros i Hi. rewrite <- Rsum_mult_l. apply Rsum_ext; intros j Hj. ring.
Qed.

(** ** Affine: b + w1 x1 + w2 x2 + ... *)
Fixpoint dsum (wx vs : list mat) (i k : nat) : R :=
  match wx, vs with
  | w :: x :: wx, dw :: dx :: vs => Rsum (cols w) (fun j => rget dw i j * rget x j k + rget w i j * rget dx j k) + dsum wx vs i k
  | _, _ => 0
  end.
Fixpoint affine_grads (wide : bool) (wx : list mat) (gy : mat) : list mat :=
  match wx with w :: x :: wx => get_some (mul_grad_w wide x gy) :: get_some (mul_grad_x wide w gy) :: affine_grads wide wx gy | _ => [] end.

Lemma pair_ind (P : list mat -> Prop) : P [] -> (forall w, P [w]) -> (forall w x l, P l -> P (w :: x :: l)) -> forall l, P l.
Proof. intros H0 H1 H2. fix IH 1. intros [|w [|x l]]; [exact H0|exact (H1 w)|exact (H2 w x l (IH l))]. Qed.

Lemma affine_loop_elems wide r c wx : matched r c wx -> forall y f, elems y r c f ->
  exists m, affine_loop wide wx y = Some m /\ elems m r c (fun i k => f i k + psum wx i k).
Proof.
  induction wx as [|w|w x wx IH] using pair_ind; intros HM y f E.
  - exists y. split; auto. eapply elems_ext; eauto. intros. simpl. ring.
  - contradiction.
  - destruct HM as (Ww & Wx & Hr & Hn & Hc & HM). cbn [affine_loop psum].
    destruct (m_mul_elems wide w x r (cols w) c) as (p & -> & Ep); [repeat split; auto|repeat split; auto|]. cbn [bind].
    destruct (m_add_in_elems y p r c (elems_fits _ _ _ _ E) (elems_fits _ _ _ _ Ep)) as (y' & -> & Ey'). cbn [bind].
    destruct (IH HM y' _ Ey') as (m & Hm & Em). exists m. split; auto. eapply elems_ext; [exact Em|]. intros i k Hi Hk. cbv beta.
    rewrite (rget_elems _ _ _ _ i k E Hi Hk), (rget_elems _ _ _ _ i k Ep Hi Hk). ring.
Qed.
Lemma affine_back_spec wide r c wx req gy : matched r c wx -> fits gy r c -> forall n,
  affine_back wide n wx req gy = Some (hand_out n req (affine_grads wide wx gy)) /\
  Forall2 (fun g x => fits g (rows x) (cols x)) (affine_grads wide wx gy) wx.
Proof.
  intros HM Fg. induction wx as [|w|w x wx IH] using pair_ind; intros n.
  - split; [reflexivity|constructor].
  - contradiction.
  - destruct HM as (Ww & Wx & Hr & Hn & Hc & HM). cbn [affine_back affine_grads].
    destruct (get_some_eq _ _ (grad_w_elems wide x gy r (rows x) c ltac:(repeat split; auto) Fg)) as [Hw Ew].
    destruct (get_some_eq _ _ (grad_x_elems wide w gy r (cols w) c ltac:(repeat split; auto) Fg)) as [Hx Ex].
    destruct (IH HM (S (S n))) as [H1 H2]. split.
    + destruct Fg as (Hgw & Hgr & Hgc). rewrite Hgr, Hgc, Hr, Hc, !Nat.eqb_refl. cbn [andb guard]. rewrite H1. rewrite Hw, Hx at 1.
      unfold both, when, hand_out. cbn [bind]. fold hand_out. destruct (req n), (req (S n)); reflexivity.
    + constructor; [|constructor; auto].
      * rewrite Hr, Hn. eapply elems_fits; eauto.
      * rewrite Hc, <- Hn. eapply elems_fits; eauto.
Qed.
Lemma affine_moves r c Xs Vs : Forall2 moves Xs Vs -> matched r c (at_time Xs 0) ->
  (forall t, matched r c (at_time Xs t)) /\ (forall i k, (i < r)%nat -> (k < c)%nat ->
    is_derive (fun t => psum (at_time Xs t) i k) 0 (dsum (at_time Xs 0) Vs i k)) /\
  forall wide gy, fits gy r c -> inner2 r c (rget gy) (dsum (at_time Xs 0) Vs) = total (affine_grads wide (at_time Xs 0) gy) Vs.
Proof.
  revert Xs Vs.
  assert (H : forall n Xs Vs, (length Xs <= n)%nat -> Forall2 moves Xs Vs -> matched r c (at_time Xs 0) ->
  (forall t, matched r c (at_time Xs t)) /\ (forall i k, (i < r)%nat -> (k < c)%nat ->
    is_derive (fun t => psum (at_time Xs t) i k) 0 (dsum (at_time Xs 0) Vs i k)) /\
  forall wide gy, fits gy r c -> inner2 r c (rget gy) (dsum (at_time Xs 0) Vs) = total (affine_grads wide (at_time Xs 0) gy) Vs);
  [|intros Xs Vs; apply (H (length Xs)); auto].
  induction n as [|n IH]; intros Xs Vs HL HF HM.
  - destruct HF; [|cbn in HL; lia]. split; [intros; exact I|]. split; [intros; exact (d_const 0 0)|].
    intros. unfold total; simpl. apply inner2_0. intros. cbn. ring.
  - destruct HF as [|W dW Xs Vs HW HF]; [|destruct HF as [|X dX Xs Vs HX HF]].
    + split; [intros; exact I|]. split; [intros; exact (d_const 0 0)|]. intros. unfold total; simpl. apply inner2_0. intros. cbn. ring.
    + contradiction.
    + cbn in HM. destruct HM as (Ww & Wx & Hr & Hn & Hc & HM). cbn in HL.
      destruct (IH Xs Vs ltac:(lia) HF HM) as (H1 & H2 & H3).
      destruct (mover W dW r (cols (W 0)) HW) as (FW & FdW & DW); [repeat split; auto|].
      destruct (mover X dX (cols (W 0)) c HX) as (FX & FdX & DX); [repeat split; auto|].
      split; [|split].
      * intros t. cbn. destruct (FW t) as (a & b & d), (FX t) as (a' & b' & d'). repeat split; auto; try congruence. apply H1.
      * intros i k Hi Hk. cbn [at_time map psum dsum].
        apply (d_plus (fun t => Rsum (cols (W t)) (fun j => rget (W t) i j * rget (X t) j k)) (fun t => psum (at_time Xs t) i k)); [|apply H2; auto].
        eapply d_ext; [| |apply (product_derive W X dW dX r (cols (W 0)) c i k Hi Hk DW DX)]; [|reflexivity].
        intros t. cbv beta. destruct (FW t) as (_ & _ & ->). reflexivity.
      * intros wide gy Fg. cbn [at_time map dsum affine_grads].  change (map (fun X => X 0) Xs) with (at_time Xs 0).
        destruct (get_some_eq _ _ (grad_w_elems wide (X 0) gy r (cols (W 0)) c (FX 0) Fg)) as [_ Ew].
        destruct (get_some_eq _ _ (grad_x_elems wide (W 0) gy r (cols (W 0)) c (FW 0) Fg)) as [_ Ex].
        transitivity (inner (get_some (mul_grad_w wide (X 0) gy)) dW + inner (get_some (mul_grad_x wide (W 0) gy)) dX + total (affine_grads wide (at_time Xs 0) gy) Vs).
        -- rewrite <- (product_work gy _ _ dW dX (rget (W 0)) (rget (X 0)) r (cols (W 0)) c Ew Ex FdW FdX), <- (H3 wide gy Fg). rewrite inner2_plus.
           unfold inner2. apply Rsum_ext; intros; apply Rsum_ext; intros. ring.
        -- unfold total; simpl. fold (at_time Xs 0). ring.
Qed.
Lemma affine_forward wide b wx r c : wx <> [] -> fits b r c -> matched r c wx ->
  exists m, fwd (affine_fn wide) (b :: wx) = Some m /\ elems m r c (fun i k => rget b i k + psum wx i k).
Proof.
  intros Hne Fb HM. destruct wx as [|w [|x wx]]; [congruence|contradiction|]. destruct HM as (Ww & Wx & Hr & Hn & Hc & HM). cbn [affine_fn fwd].
  destruct (m_mul_elems wide w x r (cols w) c) as (p & -> & Ep); [repeat split; auto|repeat split; auto|]. cbn [bind].
  destruct (m_add_in_elems p b r c (elems_fits _ _ _ _ Ep) Fb) as (y & -> & Ey). cbn [bind].
  destruct (affine_loop_elems wide r c wx HM y _ Ey) as (m & Hm & Em). exists m. split; auto. eapply elems_ext; [exact Em|]. intros i k Hi Hk. cbn [psum].
  rewrite (rget_elems _ _ _ _ i k Ep Hi Hk). ring.
Qed.
Lemma affine_correct wide req b wx : wf b -> wx <> [] -> matched (rows b) (cols b) wx -> correct (affine_fn wide) req (b :: wx).
Proof.
  intros Wb Hne HM. pose proof (fits_wf b Wb) as Fb. set (r := rows b) in *. set (c := cols b) in *.
  destruct (affine_forward wide b wx r c Hne Fb HM) as (y & Hy & Ey).
  eapply (correct_intro (affine_fn wide) req (b :: wx) r c (fun gy => gy :: affine_grads wide wx gy) y Hy (elems_fits _ _ _ _ Ey)).
  - intros gy Fg. destruct (affine_back_spec wide r c wx req gy HM Fg 1) as [H1 H2]. split; [|constructor; auto].
    cbn. rewrite H1, (same_dims_fits _ _ _ _ Fb Fg). cbn [guard]. unfold both, when. cbn [bind]. destruct (req 0%nat); reflexivity.
  - intros Xs Vs HF HX _. destruct HF as [|B dB Xs Vs HB HF]; [discriminate|]. injection HX as H0 H1. subst b wx.
    destruct (mover B dB r c HB Fb) as (FB & FdB & DB). destruct (affine_moves r c Xs Vs HF HM) as (M1 & M2 & M3).
    exists (fun t i k => rget (B t) i k + psum (at_time Xs t) i k), (fun i k => rget dB i k + dsum (at_time Xs 0) Vs i k). split; [|split].
    + apply filter_forall. intros t. apply (affine_forward wide (B t) (at_time Xs t) r c); auto. destruct Xs; [now elim Hne|discriminate].
    + intros i k Hi Hk. apply (d_plus (fun t => rget (B t) i k) (fun t => psum (at_time Xs t) i k)); auto.
    + intros gy Fg. transitivity (inner gy dB + total (affine_grads wide (at_time Xs 0) gy) Vs); [|reflexivity].
      rewrite <- (M3 wide gy Fg), (inner_elems gy dB r c _ _ (fits_elems _ _ _ Fg) (fits_elems _ _ _ FdB)), inner2_plus. unfold inner2. apply Rsum_ext; intros; apply Rsum_ext; intros. ring.
Qed.
