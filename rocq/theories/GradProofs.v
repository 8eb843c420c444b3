From Coq Require Import Reals List Arith Bool ZArith Lia Lra.
From Coquelicot Require Import Coquelicot.
From Verif Require Import DenseModel DenseSpec DenseLemmas DenseProofs DenseProofs2 ArithModel ArithSpec ArithProofs GradModel GradSpec GradLemmas.
Import ListNotations.
Open Scope R_scope.

Lemma mover X V r c : moves X V -> fits (X 0) r c -> (forall t, fits (X t) r c) /\ fits V r c /\
  forall i j, (i < r)%nat -> (j < c)%nat -> is_derive (fun t => rget (X t) i j) 0 (rget V i j).
Proof.
  intros H H0. apply moves_shape in H as (r' & c' & HV & HX & HD). specialize (HX 0) as H1.
  destruct H0 as (_ & Ha & Hb), H1 as (_ & Ha' & Hb'). assert (r' = r) by congruence. assert (c' = c) by congruence. subst. auto.
Qed.
Lemma one_mover Xs Vs x r c : Forall2 moves Xs Vs -> at_time Xs 0 = [x] -> fits x r c ->
  exists X V, Xs = [X] /\ Vs = [V] /\ X 0 = x /\ (forall t, fits (X t) r c) /\ fits V r c /\
  forall i j, (i < r)%nat -> (j < c)%nat -> is_derive (fun t => rget (X t) i j) 0 (rget V i j).
Proof.
  intros HM HX H. destruct HM as [|X V Xs Vs HM HMs]; [discriminate|]. injection HX as H0 H1. destruct HMs; [|discriminate].
  subst x. exists X, V. do 3 (split; [reflexivity|]). apply mover; auto.
Qed.
Lemma two_movers Xs Vs x1 x2 r1 c1 r2 c2 : Forall2 moves Xs Vs -> at_time Xs 0 = [x1; x2] -> fits x1 r1 c1 -> fits x2 r2 c2 ->
  exists X1 V1 X2 V2, Xs = [X1; X2] /\ Vs = [V1; V2] /\ X1 0 = x1 /\ X2 0 = x2 /\
  (forall t, fits (X1 t) r1 c1) /\ fits V1 r1 c1 /\ (forall t, fits (X2 t) r2 c2) /\ fits V2 r2 c2 /\
  (forall i j, (i < r1)%nat -> (j < c1)%nat -> is_derive (fun t => rget (X1 t) i j) 0 (rget V1 i j)) /\
  (forall i j, (i < r2)%nat -> (j < c2)%nat -> is_derive (fun t => rget (X2 t) i j) 0 (rget V2 i j)).
Proof.
  intros HM HX H1 H2. destruct HM as [|X V Xs Vs HM HMs]; [discriminate|]. injection HX as H3 H4.
  destruct (one_mover Xs Vs x2 r2 c2 HMs H4 H2) as (X2 & V2 & -> & -> & HA & HB & HC & HD). subst x1.
  destruct (mover X V r1 c1 HM H1) as (HA' & HB' & HC'). exists X, V, X2, V2. repeat (split; [assumption || reflexivity|]). assumption.
Qed.
Lemma fits_same x y r c : fits x r c -> wf y -> same_shape x y -> fits y r c.
Proof. intros (a & b & d) H (e & f). repeat split; auto; congruence. Qed.
Lemma fits_wf x : wf x -> fits x (rows x) (cols x).
Proof. repeat split; auto. Qed.

Lemma scalar_fits v : fits (scalar v) 1 1.
Proof. repeat split. Qed.

Lemma correct_intro f req xs r c G y : fwd f xs = Some y -> fits y r c -> back_ok f req xs r c G ->
  (forall Xs Vs, Forall2 moves Xs Vs -> at_time Xs 0 = xs ->
     (forall k X, nth_error Xs k = Some X -> req k = false -> forall t, X t = X 0) -> exists F D,
     locally 0 (fun t => exists m, fwd f (at_time Xs t) = Some m /\ elems m r c (F t)) /\
     (forall i j, (i < r)%nat -> (j < c)%nat -> is_derive (fun t => F t i j) 0 (D i j)) /\
     forall gy, fits gy r c -> inner2 r c (rget gy) D = total (G gy) Vs) ->
  correct f req xs.
Proof.
  intros Hy Hf HG HA. destruct (shapes_intro f req xs r c G y Hy Hf HG). split; [|split; auto].
  eapply adjoint_intro; eauto.
Qed.

(** ** Element-wise operations on two matrices *)
Section Pointwise2.
Variables (f : gfun) (h d1 d2 : R -> R -> R) (req : nat -> bool) (x1 x2 : mat) (r c : nat) (G1 G2 : mat -> mat).
Hypothesis F1 : fits x1 r c.
Hypothesis F2 : fits x2 r c.
Hypothesis HF : forall a b, fits a r c -> fits b r c -> exists m, fwd f [a; b] = Some m /\ elems m r c (fun i j => h (rget a i j) (rget b i j)).
Hypothesis HB : forall gy, fits gy r c -> bwd f [x1; x2] req gy = Some (hand_out 0 req [G1 gy; G2 gy]).
Hypothesis E1 : forall gy, fits gy r c -> elems (G1 gy) r c (fun i j => rget gy i j * d1 (rget x1 i j) (rget x2 i j)).
Hypothesis E2 : forall gy, fits gy r c -> elems (G2 gy) r c (fun i j => rget gy i j * d2 (rget x1 i j) (rget x2 i j)).

Lemma pointwise2_back : back_ok f req [x1; x2] r c (fun gy => [G1 gy; G2 gy]).
Proof.
  intros gy Hg. split; auto. destruct F1 as (_ & HR1 & HC1), F2 as (_ & HR2 & HC2).
  repeat apply Forall2_cons; try apply Forall2_nil; rewrite ?HR1, ?HC1, ?HR2, ?HC2; eauto using elems_fits, scalar_fits.
Qed.
Lemma pointwise2_shapes : hands_one_each f req [x1; x2] /\ right_shapes f req [x1; x2].
Proof. destruct (HF x1 x2 F1 F2) as (m & Hm & He). eapply shapes_intro; eauto using pointwise2_back, elems_fits. Qed.
Lemma pointwise2 :
  (forall i j, (i < r)%nat -> (j < c)%nat -> forall (u v : R -> R) (du dv : R), u 0 = rget x1 i j -> v 0 = rget x2 i j ->
     is_derive u 0 du -> is_derive v 0 dv -> is_derive (fun t => h (u t) (v t)) 0 (d1 (u 0) (v 0) * du + d2 (u 0) (v 0) * dv)) ->
  correct f req [x1; x2].
Proof.
  intros HD. destruct (HF x1 x2 F1 F2) as (m & Hm & He).
  eapply correct_intro; eauto using pointwise2_back, elems_fits.
  intros Xs Vs HM HX _. destruct (two_movers _ _ _ _ _ _ _ _ HM HX F1 F2) as (X1 & V1 & X2 & V2 & -> & -> & H1 & H2 & HX1 & HV1 & HX2 & HV2 & D1 & D2).
  exists (fun t i j => h (rget (X1 t) i j) (rget (X2 t) i j)),
    (fun i j => d1 (rget x1 i j) (rget x2 i j) * rget V1 i j + d2 (rget x1 i j) (rget x2 i j) * rget V2 i j).
  split; [apply filter_forall; intros t; apply HF; auto|]. split.
  - intros i j Hi Hj. rewrite <- H1, <- H2. apply (HD i j Hi Hj (fun t => rget (X1 t) i j) (fun t => rget (X2 t) i j)); subst; auto.
  - intros gy Hg. rewrite total2.
    rewrite (inner_elems _ _ _ _ _ _ (E1 gy Hg) (fits_elems _ _ _ HV1)), (inner_elems _ _ _ _ _ _ (E2 gy Hg) (fits_elems _ _ _ HV2)).
    rewrite inner2_plus. unfold inner2. apply Rsum_ext. intros i Hi. apply Rsum_ext. intros j Hj. ring.
Qed.
End Pointwise2.

Definition get_some (o : option mat) : mat := match o with Some m => m | None => mkDense 0 0 [] end.
Lemma get_some_eq o P : (exists m, o = Some m /\ P m) -> o = Some (get_some o) /\ P (get_some o).
Proof. intros (m & -> & H). auto. Qed.
Lemma hand_out2 req g1 g2 : both (when (req 0%nat) 0 (Some g1)) (when (req 1%nat) 1 (Some g2)) = Some (hand_out 0 req [g1; g2]).
Proof. unfold both, when, hand_out; cbn [bind]; destruct (req 0%nat), (req 1%nat); reflexivity. Qed.
Lemma hand_out1 req g1 : when (req 0%nat) 0 (Some g1) = Some (hand_out 0 req [g1]).
Proof. unfold when, hand_out; cbn [bind]; destruct (req 0%nat); reflexivity. Qed.

(** u * 1 + ... *)
Lemma add_correct req x1 x2 : wf x1 -> wf x2 -> same_shape x1 x2 -> correct add_fn req [x1; x2].
Proof.
  intros W1 W2 HS. pose proof (fits_wf x1 W1) as F1. pose proof (fits_same x1 x2 _ _ F1 W2 HS) as F2.
  apply (pointwise2 add_fn Rplus (fun _ _ => 1) (fun _ _ => 1) req x1 x2 _ _ (fun g => g) (fun g => g) F1 F2).
  - intros a b Ha Hb. apply m_add_elems; auto.
  - intros gy Hg. cbn. rewrite (same_dims_fits _ _ _ _ F1 Hg), (same_dims_fits _ _ _ _ F2 Hg). cbn [guard]. apply hand_out2.
  - intros gy Hg. eapply elems_ext; [apply fits_elems; eauto|]. intros. cbv beta; ring.
  - intros gy Hg. eapply elems_ext; [apply fits_elems; eauto|]. intros. cbv beta; ring.
  - intros i j Hi Hj u v du dv Hu Hv Du Dv. eapply d_ext; [| |apply (d_plus u v 0 du dv Du Dv)]; [reflexivity|ring].
Qed.
Lemma sub_correct req x1 x2 : wf x1 -> wf x2 -> same_shape x1 x2 -> correct sub_fn req [x1; x2].
Proof.
  intros W1 W2 HS. pose proof (fits_wf x1 W1) as F1. pose proof (fits_same x1 x2 _ _ F1 W2 HS) as F2.
  apply (pointwise2 sub_fn Rminus (fun _ _ => 1) (fun _ _ => -1) req x1 x2 _ _ (fun g => g) (fun g => m_prods g (-1)) F1 F2).
  - intros a b Ha Hb. apply m_sub_elems; auto.
  - intros gy Hg. cbn. rewrite (same_dims_fits _ _ _ _ F1 Hg), (same_dims_fits _ _ _ _ F2 Hg). cbn [guard andb]. apply hand_out2.
  - intros gy Hg. eapply elems_ext; [apply fits_elems; eauto|]. intros. cbv beta; ring.
  - intros gy Hg. eapply elems_ext; [apply m_prods_elems; eauto|]. intros. cbv beta; ring.
  - intros i j Hi Hj u v du dv Hu Hv Du Dv. eapply d_ext; [| |apply (d_minus u v 0 du dv Du Dv)]; [reflexivity|ring].
Qed.
Lemma prod_correct req x1 x2 : wf x1 -> wf x2 -> same_shape x1 x2 -> correct prod_fn req [x1; x2].
Proof.
  intros W1 W2 HS. pose proof (fits_wf x1 W1) as F1. pose proof (fits_same x1 x2 _ _ F1 W2 HS) as F2.
  apply (pointwise2 prod_fn Rmult (fun _ b => b) (fun a _ => a) req x1 x2 _ _ (fun g => get_some (m_prod x2 g)) (fun g => get_some (m_prod x1 g)) F1 F2).
  - intros a b Ha Hb. apply m_prod_elems; auto.
  - intros gy Hg. cbn. rewrite (same_dims_fits _ _ _ _ F1 Hg), (same_dims_fits _ _ _ _ F2 Hg). cbn [guard andb].
    destruct (get_some_eq _ _ (m_prod_elems _ _ _ _ F1 Hg)) as [E1 _]. destruct (get_some_eq _ _ (m_prod_elems _ _ _ _ F2 Hg)) as [E2 _].
    rewrite E1, E2 at 1. apply hand_out2.
  - intros gy Hg. eapply elems_ext; [apply (get_some_eq _ _ (m_prod_elems _ _ _ _ F2 Hg))|]. intros. cbv beta; ring.
  - intros gy Hg. eapply elems_ext; [apply (get_some_eq _ _ (m_prod_elems _ _ _ _ F1 Hg))|]. intros. cbv beta; ring.
  - intros i j Hi Hj u v du dv Hu Hv Du Dv. eapply d_ext; [| |apply (d_mult u v 0 du dv Du Dv)]; [reflexivity|ring].
Qed.
Definition div_grad2 (x1 x2 gy : mat) : option mat :=
  bind (m_prod x2 x2) (fun x2sq => bind (m_prod x1 gy) (fun gx => m_div_in (m_prods_in gx (-1)) x2sq)).
Lemma div_grad2_elems x1 x2 gy r c : fits x1 r c -> fits x2 r c -> fits gy r c ->
  exists m, div_grad2 x1 x2 gy = Some m /\ elems m r c (fun i j => rget x1 i j * rget gy i j * -1 / (rget x2 i j * rget x2 i j)).
Proof.
  intros F1 F2 Fg. unfold div_grad2. destruct (m_prod_elems _ _ _ _ F2 F2) as (sq & -> & Esq). destruct (m_prod_elems _ _ _ _ F1 Fg) as (p & -> & Ep). cbn [bind].
  destruct (m_div_in_elems (m_prods_in p (-1)) sq r c) as (m & -> & Em); [eapply elems_fits, m_prods_in_elems, elems_fits; eauto|eapply elems_fits; eauto|].
  exists m. split; auto. eapply elems_ext; eauto. intros i j Hi Hj. cbv beta.
  rewrite (rget_elems _ _ _ _ i j (m_prods_in_elems p (-1) r c (elems_fits _ _ _ _ Ep)) Hi Hj), (rget_elems _ _ _ _ i j Ep Hi Hj), (rget_elems _ _ _ _ i j Esq Hi Hj). reflexivity.
Qed.
Lemma div_setup req x1 x2 : wf x1 -> wf x2 -> same_shape x1 x2 ->
  (hands_one_each div_fn req [x1; x2] /\ right_shapes div_fn req [x1; x2]) /\
  ((forall i j, (i < rows x2)%nat -> (j < cols x2)%nat -> rget x2 i j <> 0) -> correct div_fn req [x1; x2]).
Proof.
  intros W1 W2 HS. pose proof (fits_wf x1 W1) as F1. pose proof (fits_same x1 x2 _ _ F1 W2 HS) as F2.
  assert (HF : forall a b, fits a (rows x1) (cols x1) -> fits b (rows x1) (cols x1) -> exists m, fwd div_fn [a; b] = Some m /\ elems m (rows x1) (cols x1) (fun i j => Rdiv (rget a i j) (rget b i j)))
    by (intros a b Ha Hb; apply m_div_elems; auto).
  assert (HB : forall gy, fits gy (rows x1) (cols x1) -> bwd div_fn [x1; x2] req gy = Some (hand_out 0 req [get_some (m_div gy x2); get_some (div_grad2 x1 x2 gy)])).
  { intros gy Hg. cbn. rewrite (same_dims_fits _ _ _ _ F1 Hg), (same_dims_fits _ _ _ _ F2 Hg). cbn [guard andb].
    fold (div_grad2 x1 x2 gy).
    destruct (get_some_eq _ _ (m_div_elems _ _ _ _ Hg F2)) as [E1 _]. destruct (get_some_eq _ _ (div_grad2_elems _ _ _ _ _ F1 F2 Hg)) as [E2 _].
    rewrite E1, E2 at 1. apply hand_out2. }
  assert (E1 : forall gy, fits gy (rows x1) (cols x1) -> elems (get_some (m_div gy x2)) (rows x1) (cols x1) (fun i j => rget gy i j * (1 / rget x2 i j))).
  { intros gy Hg. eapply elems_ext; [apply (get_some_eq _ _ (m_div_elems _ _ _ _ Hg F2))|]. intros. cbv beta. unfold Rdiv. ring. }
  assert (E2 : forall gy, fits gy (rows x1) (cols x1) -> elems (get_some (div_grad2 x1 x2 gy)) (rows x1) (cols x1) (fun i j => rget gy i j * (- rget x1 i j / (rget x2 i j * rget x2 i j)))).
  { intros gy Hg. eapply elems_ext; [apply (get_some_eq _ _ (div_grad2_elems _ _ _ _ _ F1 F2 Hg))|]. intros. cbv beta. unfold Rdiv. ring. }
  split.
  - apply (pointwise2_shapes div_fn Rdiv (fun _ b => 1 / b) (fun a b => - a / (b * b)) req x1 x2 _ _ _ _ F1 F2 HF HB E1 E2).
  - intros Hnz. apply (pointwise2 div_fn Rdiv (fun _ b => 1 / b) (fun a b => - a / (b * b)) req x1 x2 _ _ _ _ F1 F2 HF HB E1 E2).
    intros i j Hi Hj u v du dv Hu Hv Du Dv. destruct HS as [HSr HSc].
    assert (v 0 <> 0) by (rewrite Hv; apply Hnz; congruence).
    eapply d_ext; [| |apply (is_derive_div u v 0 du dv Du Dv H)]; [reflexivity|]. cbv beta. field. auto.
Qed.

(** ** A matrix and a scalar *)
Lemma item_fits s : fits s 1 1 -> item s = Some (rget s 0 0).
Proof.
  intros (Hw & Hr & Hc). pose proof (rget_nth s 0 0 Hw ltac:(lia) ltac:(lia)) as H. unfold wf in Hw. rewrite Hr, Hc in Hw. unfold item, is_scalar. 
  destruct s as [r c d]; cbn in *. subst. destruct d as [|v [|? ?]]; try discriminate. cbn in *. reflexivity.
Qed.
Lemma rget_scalar v : rget (scalar v) 0 0 = v.
Proof. reflexivity. Qed.
Lemma mat_sum_elems m r c f : elems m r c f -> mat_sum 0 Rplus m = Rsum r (fun i => Rsum c (fun j => f i j)).
Proof.
  intros H. unfold mat_sum. rewrite (sum_kernel_spec 0 1 Rplus Rmult Rsrt). destruct H as (Hw & Hr & Hc & He). unfold wf in Hw. rewrite Hw, Hr, Hc.
  change (sum_to 0 Rplus (r * c) (fun k => nth k (data m) 0)) with (Rsum (r * c) (fun k => nth k (data m) 0)). rewrite Rsum_flat.
  apply Rsum_ext. intros i Hi. apply Rsum_ext. intros j Hj. rewrite <- He by auto. rewrite rget_nth; auto; [now rewrite Hc|lia|lia].
Qed.
Lemma is_scalar_fits g : fits g 1 1 -> is_scalar g = true.
Proof. intros (Hw & Hr & Hc). unfold wf in Hw. unfold is_scalar. rewrite Hw, Hr, Hc. reflexivity. Qed.
Lemma inner_scalar v V : fits V 1 1 -> inner (scalar v) V = v * rget V 0 0.
Proof.
  intros H. rewrite (inner_elems (scalar v) V 1 1 (rget (scalar v)) (rget V)) by (apply fits_elems; auto using scalar_fits).
  unfold inner2, Rsum; simpl. rewrite rget_scalar. ring.
Qed.

Section PointScalar.
Variables (f : gfun) (h d1 d2 : R -> R -> R) (req : nat -> bool) (x s : mat) (r c : nat) (G1 : mat -> mat) (g2 : mat -> R).
Hypothesis F1 : fits x r c.
Hypothesis F2 : fits s 1 1.
Hypothesis HF : forall a b, fits a r c -> fits b 1 1 -> exists m, fwd f [a; b] = Some m /\ elems m r c (fun i j => h (rget a i j) (rget b 0 0)).
Hypothesis HB : forall gy, fits gy r c -> bwd f [x; s] req gy = Some (hand_out 0 req [G1 gy; scalar (g2 gy)]).
Hypothesis E1 : forall gy, fits gy r c -> elems (G1 gy) r c (fun i j => rget gy i j * d1 (rget x i j) (rget s 0 0)).
Hypothesis E2 : forall gy, fits gy r c -> g2 gy = Rsum r (fun i => Rsum c (fun j => rget gy i j * d2 (rget x i j) (rget s 0 0))).

Lemma pointscalar_back : back_ok f req [x; s] r c (fun gy => [G1 gy; scalar (g2 gy)]).
Proof.
  intros gy Hg. split; auto. destruct F1 as (_ & HR1 & HC1), F2 as (_ & HR2 & HC2).
  repeat apply Forall2_cons; try apply Forall2_nil; rewrite ?HR1, ?HC1, ?HR2, ?HC2; eauto using elems_fits, scalar_fits.
Qed.
Lemma pointscalar_shapes : hands_one_each f req [x; s] /\ right_shapes f req [x; s].
Proof. destruct (HF x s F1 F2) as (m & Hm & He). eapply shapes_intro; eauto using pointscalar_back, elems_fits. Qed.
Lemma pointscalar :
  (forall i j, (i < r)%nat -> (j < c)%nat -> forall (u v : R -> R) (du dv : R), u 0 = rget x i j -> v 0 = rget s 0 0 ->
     is_derive u 0 du -> is_derive v 0 dv -> is_derive (fun t => h (u t) (v t)) 0 (d1 (u 0) (v 0) * du + d2 (u 0) (v 0) * dv)) ->
  correct f req [x; s].
Proof.
  intros HD. destruct (HF x s F1 F2) as (m & Hm & He).
  eapply correct_intro; eauto using pointscalar_back, elems_fits.
  intros Xs Vs HM HX _. destruct (two_movers _ _ _ _ _ _ _ _ HM HX F1 F2) as (X1 & V1 & X2 & V2 & -> & -> & H1 & H2 & HX1 & HV1 & HX2 & HV2 & D1 & D2).
  exists (fun t i j => h (rget (X1 t) i j) (rget (X2 t) 0 0)),
    (fun i j => d1 (rget x i j) (rget s 0 0) * rget V1 i j + d2 (rget x i j) (rget s 0 0) * rget V2 0 0).
  split; [apply filter_forall; intros t; apply HF; auto|]. split.
  - intros i j Hi Hj. rewrite <- H1, <- H2. apply (HD i j Hi Hj (fun t => rget (X1 t) i j) (fun t => rget (X2 t) 0 0)); subst; auto; apply D2; lia.
  - intros gy Hg. rewrite total2, inner_scalar by auto.
    rewrite (inner_elems _ _ _ _ _ _ (E1 gy Hg) (fits_elems _ _ _ HV1)), (E2 gy Hg).
    rewrite <- Rsum_mult_r. unfold inner2. rewrite <- Rsum_plus. apply Rsum_ext. intros i Hi. rewrite <- Rsum_mult_r, <- Rsum_plus. apply Rsum_ext. intros j Hj. ring.
Qed.
End PointScalar.

Lemma add_scalar_correct req x s : wf x -> fits s 1 1 -> correct add_scalar_fn req [x; s].
Proof.
  intros W F2. pose proof (fits_wf x W) as F1.
  apply (pointscalar add_scalar_fn Rplus (fun _ _ => 1) (fun _ _ => 1) req x s _ _ (fun g => g) (fun g => mat_sum 0 Rplus g) F1 F2).
  - intros a b Ha Hb. cbn. rewrite item_fits by auto. cbn [bind]. eexists; split; [reflexivity|]. apply m_adds_elems; auto.
  - intros gy Hg. cbn. rewrite (same_dims_fits _ _ _ _ F1 Hg). cbn [guard]. apply hand_out2.
  - intros gy Hg. eapply elems_ext; [apply fits_elems; eauto|]. intros; cbv beta; ring.
  - intros gy Hg. rewrite (mat_sum_elems gy _ _ _ (fits_elems _ _ _ Hg)). apply Rsum_ext; intros; apply Rsum_ext; intros; ring.
  - intros i j Hi Hj u v du dv Hu Hv Du Dv. eapply d_ext; [| |apply (d_plus u v 0 du dv Du Dv)]; [reflexivity|ring].
Qed.
Lemma sub_scalar_correct req x s : wf x -> fits s 1 1 -> correct sub_scalar_fn req [x; s].
Proof.
  intros W F2. pose proof (fits_wf x W) as F1.
  apply (pointscalar sub_scalar_fn Rminus (fun _ _ => 1) (fun _ _ => -1) req x s _ _ (fun g => g) (fun g => mat_sum 0 Rplus (m_prods g (-1))) F1 F2).
  - intros a b Ha Hb. cbn. rewrite item_fits by auto. cbn [bind]. eexists; split; [reflexivity|]. apply m_subs_elems; auto.
  - intros gy Hg. cbn. rewrite (same_dims_fits _ _ _ _ F1 Hg). cbn [guard]. apply hand_out2.
  - intros gy Hg. eapply elems_ext; [apply fits_elems; eauto|]. intros; cbv beta; ring.
  - intros gy Hg. rewrite (mat_sum_elems _ _ _ _ (m_prods_elems _ (-1) _ _ Hg)). reflexivity.
  - intros i j Hi Hj u v du dv Hu Hv Du Dv. eapply d_ext; [| |apply (d_minus u v 0 du dv Du Dv)]; [reflexivity|ring].
Qed.
Lemma reverse_sub_correct req x s : wf x -> fits s 1 1 -> correct reverse_sub_fn req [x; s].
Proof.
  intros W F2. pose proof (fits_wf x W) as F1.
  apply (pointscalar reverse_sub_fn (fun a b => b - a) (fun _ _ => -1) (fun _ _ => 1) req x s _ _ (fun g => m_prods g (-1)) (fun g => mat_sum 0 Rplus g) F1 F2).
  - intros a b Ha Hb. cbn. rewrite item_fits by auto. cbn [bind]. eexists; split; [reflexivity|].
    eapply elems_ext; [apply m_adds_in_elems; eapply elems_fits, m_prods_elems; eauto|]. intros i j Hi Hj. cbv beta.
    rewrite (rget_elems _ _ _ _ i j (m_prods_elems a (-1) _ _ Ha) Hi Hj). ring.
  - intros gy Hg. cbn. rewrite (same_dims_fits _ _ _ _ F1 Hg). cbn [guard]. apply hand_out2.
  - intros gy Hg. apply m_prods_elems; auto.
  - intros gy Hg. rewrite (mat_sum_elems gy _ _ _ (fits_elems _ _ _ Hg)). apply Rsum_ext; intros; apply Rsum_ext; intros; ring.
  - intros i j Hi Hj u v du dv Hu Hv Du Dv. eapply d_ext; [| |apply (d_minus _ _ _ _ _ Dv Du)]; [reflexivity|ring].
Qed.
Lemma m_prod_sum a b r c : fits a r c -> fits b r c -> exists p, m_prod a b = Some p /\ mat_sum 0 Rplus p = Rsum r (fun i => Rsum c (fun j => rget a i j * rget b i j)).
Proof. intros Ha Hb. destruct (m_prod_elems a b r c Ha Hb) as (p & H & E). exists p. split; auto. apply (mat_sum_elems _ _ _ _ E). Qed.
Lemma prod_scalar_correct req x s : wf x -> fits s 1 1 -> correct prod_scalar_fn req [x; s].
Proof.
  intros W F2. pose proof (fits_wf x W) as F1.
  apply (pointscalar prod_scalar_fn Rmult (fun _ b => b) (fun a _ => a) req x s _ _ (fun g => m_prods g (rget s 0 0)) (fun g => mat_sum 0 Rplus (get_some (m_prod g x))) F1 F2).
  - intros a b Ha Hb. cbn. rewrite item_fits by auto. cbn [bind]. eexists; split; [reflexivity|]. apply m_prods_elems; auto.
  - intros gy Hg. cbn. rewrite (same_dims_fits _ _ _ _ F1 Hg), item_fits by auto. cbn [guard bind].
    destruct (m_prod_elems gy x _ _ Hg F1) as (p & -> & _). cbn [bind get_some]. apply hand_out2.
  - intros gy Hg. apply m_prods_elems; auto.
  - intros gy Hg. destruct (m_prod_sum gy x _ _ Hg F1) as (p & -> & Hp). exact Hp.
  - intros i j Hi Hj u v du dv Hu Hv Du Dv. eapply d_ext; [| |apply (d_mult u v 0 du dv Du Dv)]; [reflexivity|ring].
Qed.
Lemma div_scalar_setup req x s : wf x -> fits s 1 1 ->
  (hands_one_each div_scalar_fn req [x; s] /\ right_shapes div_scalar_fn req [x; s]) /\
  (rget s 0 0 <> 0 -> correct div_scalar_fn req [x; s]).
Proof.
  intros W F2. pose proof (fits_wf x W) as F1. set (k := 1 / - (rget s 0 0 * rget s 0 0)).
  assert (HF : forall a b, fits a (rows x) (cols x) -> fits b 1 1 -> exists m, fwd div_scalar_fn [a; b] = Some m /\ elems m (rows x) (cols x) (fun i j => (fun u v => u * (1 / v)) (rget a i j) (rget b 0 0))).
  { intros a b Ha Hb. cbn. rewrite item_fits by auto. cbn [bind]. eexists; split; [reflexivity|]. apply m_prods_elems; auto. }
  assert (HB : forall gy, fits gy (rows x) (cols x) -> bwd div_scalar_fn [x; s] req gy = Some (hand_out 0 req [m_prods gy (1 / rget s 0 0); scalar (mat_sum 0 Rplus (get_some (m_prod gy (m_prods x k))))])).
  { intros gy Hg. cbn. rewrite (same_dims_fits _ _ _ _ F1 Hg), item_fits by auto. cbn [guard bind]. fold k.
    destruct (m_prod_elems gy (m_prods x k) (rows x) (cols x) Hg) as (p & -> & _); [eapply elems_fits, m_prods_elems; eauto|]. cbn [bind get_some]. apply hand_out2. }
  assert (E1 : forall gy, fits gy (rows x) (cols x) -> elems (m_prods gy (1 / rget s 0 0)) (rows x) (cols x) (fun i j => rget gy i j * (fun _ b => 1 / b) (rget x i j) (rget s 0 0))).
  { intros gy Hg. apply m_prods_elems; auto. }
  assert (E2 : forall gy, fits gy (rows x) (cols x) -> mat_sum 0 Rplus (get_some (m_prod gy (m_prods x k))) = Rsum (rows x) (fun i => Rsum (cols x) (fun j => rget gy i j * (fun a b => a * (1 / - (b * b))) (rget x i j) (rget s 0 0)))).
  { intros gy Hg. destruct (m_prod_sum gy (m_prods x k) (rows x) (cols x) Hg) as (p & -> & Hp); [eapply elems_fits, m_prods_elems; eauto|]. cbn [get_some]. rewrite Hp.
    apply Rsum_ext; intros i Hi; apply Rsum_ext; intros j Hj. rewrite (rget_elems _ _ _ _ i j (m_prods_elems x k _ _ F1) Hi Hj). reflexivity. }
  split.
  - apply (pointscalar_shapes div_scalar_fn (fun u v => u * (1 / v)) (fun _ b => 1 / b) req x s _ _ _ _ F1 F2 HF HB E1).
  - intros Hnz. apply (pointscalar div_scalar_fn (fun u v => u * (1 / v)) (fun _ b => 1 / b) (fun a b => a * (1 / - (b * b))) req x s _ _ _ _ F1 F2 HF HB E1 E2).
    intros i j Hi Hj u v du dv Hu Hv Du Dv. assert (v 0 <> 0) by congruence.
    eapply d_ext; [| |apply (is_derive_div u v 0 du dv Du Dv H)]; [intros t; unfold Rdiv; ring|]. cbv beta. field. auto.
Qed.
