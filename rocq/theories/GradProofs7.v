(** * At, ColView, RowView, Slice, RotateR, Concat, Stack, AppendRows *)
From Coq Require Import Reals List Arith Bool ZArith Lia Lra.
From Coquelicot Require Import Coquelicot.
From Verif Require Import DenseModel DenseSpec DenseLemmas DenseProofs DenseProofs2 ArithModel ArithSpec ArithProofs GradModel GradSpec GradLemmas GradProofs GradProofs6.
Import ListNotations.
Open Scope R_scope.

Lemma matrix_elems m r c f g : is_matrix m r c f -> (forall i j, (i < r)%nat -> (j < c)%nat -> f i j = Some (g i j)) -> elems m r c g.
Proof.
  intros (H1 & H2 & H3 & H4) H. repeat split; auto. intros i j Hi Hj. unfold rget, get. rewrite H4, H by auto. reflexivity.
Qed.
Lemma elem_rget m r c i j : fits m r c -> (i < r)%nat -> (j < c)%nat -> elem m i j = Some (rget m i j).
Proof.
  intros (Hw & Hr & Hc) Hi Hj. destruct (elem_some m i j Hw) as [v Hv]; [lia|lia|]. unfold rget, get. rewrite Hv. reflexivity.
Qed.
Lemma set_elems g v r c a b : fits g r c -> (0 <= a < Z.of_nat r)%Z -> (0 <= b < Z.of_nat c)%Z ->
  exists m, set_ g v [a; b] = Some m /\ elems m r c (fun i j => if (i =? Z.to_nat a)%nat && (j =? Z.to_nat b)%nat then v else rget g i j).
Proof.
  intros Hg Ha Hb. destruct Hg as (Hw & Hr & Hc). destruct (set_ g v [a; b]) as [m|] eqn:E.
  - exists m. split; [reflexivity|]. apply set_other in E; auto. rewrite Hr, Hc in E. eapply matrix_elems; [exact E|].
    intros i j Hi Hj. cbv beta. destruct ((i =? Z.to_nat a)%nat && (j =? Z.to_nat b)%nat); [reflexivity|].
    apply (elem_rget g r c); auto. repeat split; auto.
  - exfalso. apply set_panics in E; auto. apply E. rewrite Hr, Hc. auto.
Qed.
Lemma at_rget g r c a b : fits g r c -> (0 <= a < Z.of_nat r)%Z -> (0 <= b < Z.of_nat c)%Z -> at_ g [a; b] = Some (rget g (Z.to_nat a) (Z.to_nat b)).
Proof.
  intros Hg Ha Hb. rewrite at_two. destruct (Z.leb_spec 0 a), (Z.leb_spec 0 b); try lia. cbn [andb]. apply (elem_rget g r c); auto; lia.
Qed.

(** ** Windows: the output is the sub-matrix starting at (fr, fc) *)
Definition in_window (fr fc r c a b : nat) : bool := ((fr <=? a) && (a <? fr + r) && ((fc <=? b) && (b <? fc + c)))%nat.
Section Window.
Variables (f : gfun) (req : nat -> bool) (x : mat) (rx cx r c fr fc : nat) (G : mat -> mat).
Hypothesis Hx : fits x rx cx.
Hypothesis Hr : (fr + r <= rx)%nat.
Hypothesis Hc : (fc + c <= cx)%nat.
Hypothesis HF : forall a, fits a rx cx -> exists m, fwd f [a] = Some m /\ elems m r c (fun i j => rget a (fr + i) (fc + j)).
Hypothesis HB : forall gy, fits gy r c -> bwd f [x] req gy = Some (hand_out 0 req [G gy]) /\
  elems (G gy) rx cx (fun a b => if in_window fr fc r c a b then rget gy (a - fr) (b - fc) else 0).

Lemma window_correct : correct f req [x].
Proof.
  destruct (HF x Hx) as (y & Hy & Hye).
  apply (correct_intro f req [x] r c (fun gy => [G gy]) y); auto.
  - eapply elems_fits; eauto.
  - intros gy Hg. destruct (HB gy Hg) as (H1 & H2). split; auto. constructor; [|constructor]. destruct Hx as (_ & -> & ->). eapply elems_fits; eauto.
  - intros Xs Vs HM HX _. destruct (one_mover Xs Vs x rx cx HM HX Hx) as (X & V & -> & -> & HX0 & HXf & HVf & HD).
    exists (fun t i j => rget (X t) (fr + i) (fc + j)), (fun i j => rget V (fr + i) (fc + j)). split; [|split].
    + apply filter_forall. intros t. apply (HF (X t) (HXf t)).
    + intros i j Hi Hj. apply HD; lia.
    + intros gy Hg. rewrite total1. destruct (HB gy Hg) as (_ & H2).
      rewrite (inner_elems (G gy) V rx cx _ _ H2 (fits_elems _ _ _ HVf)). unfold inner2.
      rewrite (Rsum_ext r _ (fun i => (fun a => Rsum c (fun j => rget gy (a - fr) j * rget V a (fc + j))) (fr + i)%nat)).
      2:{ intros i Hi. replace (fr + i - fr)%nat with i by lia. reflexivity. }
      rewrite <- (Rsum_window rx fr r (fun a => Rsum c (fun j => rget gy (a - fr) j * rget V a (fc + j)))) by auto. apply Rsum_ext. intros a Ha. unfold in_window.
      destruct ((fr <=? a)%nat && (a <? fr + r)%nat); cbn [andb].
      2:{ symmetry. apply Rsum_0. intros. ring. }
      rewrite (Rsum_ext c _ (fun j => (fun b => rget gy (a - fr) (b - fc) * rget V a b) (fc + j)%nat)).
      2:{ intros j Hj. replace (fc + j - fc)%nat with j by lia. reflexivity. }
      rewrite <- (Rsum_window cx fc c (fun b => rget gy (a - fr) (b - fc) * rget V a b)) by auto. apply Rsum_ext. intros b Hb.
      destruct ((fc <=? b)%nat && (b <? fc + c)%nat); ring.
Qed.
End Window.

(** *** Slice *)
Lemma slice_row_loop gy r c fr fc rg cg i fuel : fits gy rg cg -> (i < rg)%nat -> (fr + rg <= r)%nat -> (fc + cg <= c)%nat -> forall j g, (j + fuel <= cg)%nat -> fits g r c ->
  exists m, loop_opt (fun j gx => do v <- at_ gy [Z.of_nat i; Z.of_nat j]; set_ gx v [(Z.of_nat i + Z.of_nat fr)%Z; (Z.of_nat j + Z.of_nat fc)%Z]) j fuel g = Some m /\
    elems m r c (fun a b => if in_window (fr + i) (fc + j) 1 fuel a b then rget gy i (b - fc) else rget g a b).
Proof.
  intros Hg Hi Hr Hc. induction fuel as [|fuel IH]; intros j g Hj Hgx; cbn [loop_opt].
  - exists g. split; [reflexivity|]. eapply elems_ext; [apply fits_elems; eauto|]. intros a b Ha Hb. unfold in_window.
    destruct (Nat.leb_spec (fc + j) b), (Nat.ltb_spec b (fc + j + 0)); try lia; rewrite ?andb_false_r; reflexivity.
  - rewrite (at_rget gy rg cg) by (auto; lia). rewrite !Nat2Z.id. cbn [bind].
    destruct (set_elems g (rget gy i j) r c (Z.of_nat i + Z.of_nat fr) (Z.of_nat j + Z.of_nat fc) Hgx) as (m & -> & Hm); [lia|lia|]. cbn [bind].
    destruct (IH (S j) m) as (m' & Hm' & He); [lia|eapply elems_fits; eauto|]. exists m'. split; [exact Hm'|].
    eapply elems_ext; [exact He|]. intros a b Ha Hb. cbv beta. rewrite (rget_elems m r c _ a b Hm) by auto. unfold in_window.
    destruct (Nat.leb_spec (fr + i) a), (Nat.ltb_spec a (fr + i + 1)), (Nat.leb_spec (fc + S j) b), (Nat.ltb_spec b (fc + S j + fuel)),
      (Nat.leb_spec (fc + j) b), (Nat.ltb_spec b (fc + j + S fuel)), (Nat.eqb_spec a (Z.to_nat (Z.of_nat i + Z.of_nat fr))),
      (Nat.eqb_spec b (Z.to_nat (Z.of_nat j + Z.of_nat fc))); cbn [andb]; try lia; try reflexivity. f_equal. lia.
Qed.
Lemma slice_loop gy r c fr fc rg cg fuel : fits gy rg cg -> (fr + rg <= r)%nat -> (fc + cg <= c)%nat -> forall i g, (i + fuel <= rg)%nat -> fits g r c ->
  exists m, loop_opt (fun i gx => loop_opt (fun j gx => do v <- at_ gy [Z.of_nat i; Z.of_nat j]; set_ gx v [(Z.of_nat i + Z.of_nat fr)%Z; (Z.of_nat j + Z.of_nat fc)%Z]) 0 cg gx) i fuel g = Some m /\
    elems m r c (fun a b => if in_window (fr + i) fc fuel cg a b then rget gy (a - fr) (b - fc) else rget g a b).
Proof.
  intros Hg Hr Hc. induction fuel as [|fuel IH]; intros i g Hi Hgx; cbn [loop_opt].
  - exists g. split; [reflexivity|]. eapply elems_ext; [apply fits_elems; eauto|]. intros a b Ha Hb. unfold in_window.
    destruct (Nat.leb_spec (fr + i) a), (Nat.ltb_spec a (fr + i + 0)); try lia; rewrite ?andb_false_r; reflexivity.
  - destruct (slice_row_loop gy r c fr fc rg cg i cg Hg ltac:(lia) Hr Hc 0%nat g ltac:(lia) Hgx) as (m & -> & Hm). cbn [bind].
    destruct (IH (S i) m) as (m' & Hm' & He); [lia|eapply elems_fits; eauto|]. exists m'. split; [exact Hm'|].
    eapply elems_ext; [exact He|]. intros a b Ha Hb. cbv beta. rewrite (rget_elems m r c _ a b Hm) by auto. unfold in_window.
    rewrite Nat.add_0_r.
    destruct (Nat.leb_spec (fr + i) a), (Nat.ltb_spec a (fr + i + 1)), (Nat.leb_spec (fr + S i) a), (Nat.ltb_spec a (fr + S i + fuel)), (Nat.ltb_spec a (fr + i + S fuel)),
      (Nat.leb_spec fc b), (Nat.ltb_spec b (fc + cg)); cbn [andb]; try lia; try reflexivity. f_equal; lia.
Qed.

Lemma zeros_fits x r c : fits x r c -> fits (m_zeros_like x) r c.
Proof. intros H. eapply elems_fits, zeros_elems; eauto. Qed.
Lemma zeros_rget x r c a b : fits x r c -> (a < r)%nat -> (b < c)%nat -> rget (m_zeros_like x) a b = 0.
Proof. intros H Ha Hb. apply (rget_elems _ r c _ a b (zeros_elems x r c H)); auto. Qed.

Lemma slice_correct req x fr fc tr tc : wf x -> (0 <= fr < Z.of_nat (rows x))%Z -> (0 <= fc < Z.of_nat (cols x))%Z ->
  (fr <= tr <= Z.of_nat (rows x))%Z -> (fc <= tc <= Z.of_nat (cols x))%Z -> correct (slice_fn fr fc tr tc) req [x].
Proof.
  intros Hw Hfr Hfc Htr Htc. pose proof (fits_wf x Hw) as Hx.
  set (r := Z.to_nat (tr - fr)). set (c := Z.to_nat (tc - fc)).
  assert (HL : forall gy, fits gy r c -> exists m, loop_opt (fun i gx => loop_opt (fun j gx =>
               do v <- at_ gy [Z.of_nat i; Z.of_nat j]; set_ gx v [(Z.of_nat i + fr)%Z; (Z.of_nat j + fc)%Z])
             0 c gx) 0 r (m_zeros_like x) = Some m /\
     elems m (rows x) (cols x) (fun a b => if in_window (Z.to_nat fr) (Z.to_nat fc) r c a b then rget gy (a - Z.to_nat fr) (b - Z.to_nat fc) else 0)).
  { intros gy Hg. destruct (slice_loop gy (rows x) (cols x) (Z.to_nat fr) (Z.to_nat fc) r c r Hg ltac:(unfold r; lia) ltac:(unfold c; lia) 0%nat (m_zeros_like x)
      ltac:(lia) (zeros_fits _ _ _ Hx)) as (m & E & He). rewrite !Z2Nat.id in E by lia. exists m. split; [exact E|].
    eapply elems_ext; [exact He|]. intros a b Ha Hb. cbv beta. rewrite Nat.add_0_r, (zeros_rget x (rows x) (cols x)) by auto. reflexivity. }
  eapply (window_correct (slice_fn fr fc tr tc) req x (rows x) (cols x) r c (Z.to_nat fr) (Z.to_nat fc)
    (fun gy => get_some (loop_opt (fun i gx => loop_opt (fun j gx =>
               do v <- at_ gy [Z.of_nat i; Z.of_nat j]; set_ gx v [(Z.of_nat i + fr)%Z; (Z.of_nat j + fc)%Z])
             0 c gx) 0 r (m_zeros_like x)))); auto; try (unfold r, c; lia).
  - intros a Ha. destruct (submatrix_spec a fr fc tr tc) as (m & Hm & HM); [apply Ha|destruct Ha as (_ & E1 & E2); unfold slice_ok; lia|].
    exists m. split; [exact Hm|]. eapply matrix_elems; [exact HM|]. intros i j Hi Hj. cbv beta. apply (elem_rget a (rows x) (cols x)); auto; lia.
  - intros gy Hg. destruct (get_some_eq _ _ (HL gy Hg)) as (E & He). split; [|exact He]. cbn [bwd slice_fn un_b].
    destruct Hg as (Hgw & Hgr & Hgc). rewrite Hgr, Hgc. unfold r, c at 1. rewrite !Z2Nat.id, !Z.eqb_refl by lia. cbn [andb guard].
    fold r c. rewrite E. apply when1.
Qed.

Lemma loop_ext {A} (b1 b2 : nat -> A -> option A) fuel : (forall i s, b1 i s = b2 i s) -> forall i s, loop_opt b1 i fuel s = loop_opt b2 i fuel s.
Proof. intros H. induction fuel; intros i s; cbn; [reflexivity|]. rewrite H. destruct (b2 i s); cbn; auto. Qed.

Lemma loop_ext_in {A} (b1 b2 : nat -> A -> option A) n : (forall i s, (i < n)%nat -> b1 i s = b2 i s) ->
  forall fuel i s, (i + fuel <= n)%nat -> loop_opt b1 i fuel s = loop_opt b2 i fuel s.
Proof. intros H. induction fuel; intros i s Hi; cbn; [reflexivity|]. rewrite H by lia. destruct (b2 i s); cbn; auto. apply IHfuel. lia. Qed.
Lemma bind_some {A} (o : option A) : (do v <- o; Some v) = o.
Proof. destruct o; reflexivity. Qed.

Lemma offset_column g n i : fits g n 1 -> (0 <= i < Z.of_nat n)%Z -> offset g [i] = offset g [i; 0%Z].
Proof.
  intros (Hw & Hr & Hc) Hi. unfold offset. unfold wf in Hw. rewrite Hw, Hr, Hc. replace (n * 1)%nat with n by lia.
  cbn. rewrite andb_false_r. destruct (Z.ltb_spec i 0), (Z.leb_spec (Z.of_nat n) i); cbn [orb]; try lia. f_equal. lia.
Qed.
Lemma offset_row g n i : fits g 1 n -> (0 <= i < Z.of_nat n)%Z -> offset g [i] = offset g [0%Z; i].
Proof.
  intros (Hw & Hr & Hc) Hi. unfold offset. unfold wf in Hw. rewrite Hw, Hr, Hc. replace (1 * n)%nat with n by lia.
  cbn. destruct (Z.ltb_spec i 0), (Z.leb_spec (Z.of_nat n) i); cbn [orb]; try lia. reflexivity.
Qed.

Lemma col_view_correct req x j : wf x -> (0 <= j < Z.of_nat (cols x))%Z -> correct (col_view_fn j) req [x].
Proof.
  intros Hw Hj. pose proof (fits_wf x Hw) as Hx.
  assert (HL : forall gy, fits gy (rows x) 1 -> exists m,
     loop_opt (fun i gx => do v <- at_ gy [Z.of_nat i]; set_ gx v [Z.of_nat i; j]) 0 (rows x) (m_zeros_like x) = Some m /\
     elems m (rows x) (cols x) (fun a b => if in_window 0 (Z.to_nat j) (rows x) 1 a b then rget gy (a - 0) (b - Z.to_nat j) else 0)).
  { intros gy Hg. destruct (slice_loop gy (rows x) (cols x) 0 (Z.to_nat j) (rows x) 1 (rows x) Hg ltac:(lia) ltac:(lia) 0%nat (m_zeros_like x)
      ltac:(lia) (zeros_fits _ _ _ Hx)) as (m & E & He). exists m. split.
    - rewrite <- E.
      apply (loop_ext_in _ _ (rows x)); [|lia]. intros i s Hi. cbn [loop_opt].
      unfold at_. rewrite (offset_column gy (rows x)) by (auto; lia). 
      rewrite Z2Nat.id by lia. change (Z.of_nat 0) with 0%Z. rewrite Z.add_0_r, Z.add_0_l, bind_some. reflexivity.
    - eapply elems_ext; [exact He|]. intros a b Ha Hb. cbv beta. rewrite (zeros_rget x (rows x) (cols x)) by auto. reflexivity. }
  eapply (window_correct (col_view_fn j) req x (rows x) (cols x) (rows x) 1 0 (Z.to_nat j)
    (fun gy => get_some (loop_opt (fun i gx => do v <- at_ gy [Z.of_nat i]; set_ gx v [Z.of_nat i; j]) 0 (rows x) (m_zeros_like x)))); auto; try lia.
  - intros a Ha. destruct (extract_column_spec 0 a j) as (m & Hm & HM); [apply Ha|destruct Ha as (_ & E1 & E2); lia|].
    exists m. split; [exact Hm|]. destruct Ha as (A1 & A2 & A3). rewrite A2 in HM. eapply matrix_elems; [exact HM|]. intros i k Hi Hk. cbv beta.
    replace (Z.to_nat j + k)%nat with (Z.to_nat j) by lia. apply (elem_rget a (rows x) (cols x)); auto; [repeat split; auto|lia].
  - intros gy Hg. destruct (get_some_eq _ _ (HL gy Hg)) as (E & He). split; [|exact He]. cbn [bwd col_view_fn un_b].
    pose proof (fits_len _ _ _ Hg) as L. rewrite L. replace (rows x * 1)%nat with (rows x) by lia. rewrite Nat.eqb_refl. cbn [guard].
    rewrite E. apply when1.
Qed.

Lemma row_view_correct req x i : wf x -> (0 <= i < Z.of_nat (rows x))%Z -> correct (row_view_fn i) req [x].
Proof.
  intros Hw Hi. pose proof (fits_wf x Hw) as Hx.
  assert (HL : forall gy, fits gy 1 (cols x) -> exists m,
     loop_opt (fun j gx => do v <- at_ gy [0%Z; Z.of_nat j]; set_ gx v [i; Z.of_nat j]) 0 (cols x) (m_zeros_like x) = Some m /\
     elems m (rows x) (cols x) (fun a b => if in_window (Z.to_nat i) 0 1 (cols x) a b then rget gy (a - Z.to_nat i) (b - 0) else 0)).
  { intros gy Hg. destruct (slice_row_loop gy (rows x) (cols x) (Z.to_nat i) 0 1 (cols x) 0 (cols x) Hg ltac:(lia) ltac:(lia) ltac:(lia) 0%nat (m_zeros_like x)
      ltac:(lia) (zeros_fits _ _ _ Hx)) as (m & E & He). exists m. split.
    - rewrite <- E. apply loop_ext. intros j s. cbv beta. rewrite Z2Nat.id by lia. change (Z.of_nat 0) with 0%Z. rewrite Z.add_0_l, Z.add_0_r. reflexivity.
    - eapply elems_ext; [exact He|]. intros a b Ha Hb. cbv beta. rewrite (zeros_rget x (rows x) (cols x)) by auto.
      rewrite !Nat.add_0_r. unfold in_window. destruct (Nat.leb_spec (Z.to_nat i) a), (Nat.ltb_spec a (Z.to_nat i + 1)); cbn [andb]; try reflexivity.
      replace (a - Z.to_nat i)%nat with 0%nat by lia. reflexivity. }
  eapply (window_correct (row_view_fn i) req x (rows x) (cols x) 1 (cols x) (Z.to_nat i) 0
    (fun gy => get_some (loop_opt (fun j gx => do v <- at_ gy [0%Z; Z.of_nat j]; set_ gx v [i; Z.of_nat j]) 0 (cols x) (m_zeros_like x)))); auto; try lia.
  - intros a Ha. destruct (extract_row_spec a i) as (m & Hm & HM); [apply Ha|destruct Ha as (_ & E1 & E2); lia|].
    exists m. split; [exact Hm|]. destruct Ha as (A1 & A2 & A3). rewrite A3 in HM. eapply matrix_elems; [exact HM|]. intros k j Hk Hj. cbv beta.
    replace (Z.to_nat i + k)%nat with (Z.to_nat i) by lia. apply (elem_rget a (rows x) (cols x)); auto; [repeat split; auto|lia].
  - intros gy Hg. destruct (get_some_eq _ _ (HL gy Hg)) as (E & He). split; [|exact He]. cbn [bwd row_view_fn un_b].
    pose proof (fits_len _ _ _ Hg) as L. rewrite L. replace (1 * cols x)%nat with (cols x) by lia. rewrite Nat.eqb_refl. cbn [guard].
    rewrite E. apply when1.
Qed.

(** *** At *)
Lemma at_window req x idx (a b : nat) : wf x -> (a < rows x)%nat -> (b < cols x)%nat ->
  (forall m, fits m (rows x) (cols x) -> offset m idx = offset m [Z.of_nat a; Z.of_nat b]) -> correct (at_fn idx) req [x].
Proof.
  intros Hw Ha Hb HO. pose proof (fits_wf x Hw) as Hx.
  assert (HL : forall gy, fits gy 1 1 -> exists m, (do v <- item gy; set_ (m_zeros_like x) v idx) = Some m /\
     elems m (rows x) (cols x) (fun i j => if in_window a b 1 1 i j then rget gy (i - a) (j - b) else 0)).
  { intros gy Hg. rewrite (item_fits gy Hg). cbn [bind].
    destruct (set_elems (m_zeros_like x) (rget gy 0 0) (rows x) (cols x) (Z.of_nat a) (Z.of_nat b) (zeros_fits _ _ _ Hx)) as (m & E & He); [lia|lia|].
    exists m. split. { rewrite <- E. unfold set_. rewrite HO by (apply zeros_fits; auto). reflexivity. }
    eapply elems_ext; [exact He|]. intros i j Hi Hj. cbv beta. rewrite (zeros_rget x (rows x) (cols x)) by auto. rewrite !Nat2Z.id. unfold in_window.
    destruct (Nat.leb_spec a i), (Nat.ltb_spec i (a + 1)), (Nat.leb_spec b j), (Nat.ltb_spec j (b + 1)), (Nat.eqb_spec i a), (Nat.eqb_spec j b); cbn [andb]; try lia; try reflexivity.
    f_equal; lia. }
  eapply (window_correct (at_fn idx) req x (rows x) (cols x) 1 1 a b (fun gy => get_some (do v <- item gy; set_ (m_zeros_like x) v idx))); auto; try lia.
  - intros m Hm. exists (scalar (rget m a b)). split.
    + cbn [fwd at_fn un]. unfold at_. rewrite HO by auto. pose proof (at_rget m (rows x) (cols x) (Z.of_nat a) (Z.of_nat b) Hm ltac:(lia) ltac:(lia)) as E.
      unfold at_ in E. rewrite E, !Nat2Z.id. reflexivity.
    + eapply elems_ext; [apply fits_elems, scalar_fits|]. intros i j Hi Hj. replace (a + i)%nat with a by lia. replace (b + j)%nat with b by lia.
      replace i with 0%nat by lia. replace j with 0%nat by lia. apply rget_scalar.
  - intros gy Hg. destruct (get_some_eq _ _ (HL gy Hg)) as (E & He). split; [|exact He]. cbn [bwd at_fn un_b]. rewrite E. apply when1.
Qed.
Lemma at2_correct req x a b : wf x -> (0 <= a < Z.of_nat (rows x))%Z -> (0 <= b < Z.of_nat (cols x))%Z -> correct (at_fn [a; b]) req [x].
Proof.
  intros Hw Ha Hb. apply (at_window req x _ (Z.to_nat a) (Z.to_nat b)); auto; try lia. intros m _. rewrite !Z2Nat.id by lia. reflexivity.
Qed.
Lemma at1_correct req x i : wf x -> is_vector x = true -> (0 <= i < Z.of_nat (rows x * cols x))%Z -> correct (at_fn [i]) req [x].
Proof.
  intros Hw Hv Hi. unfold is_vector in Hv. apply orb_true_iff in Hv as [Hv|Hv]; apply Nat.eqb_eq in Hv.
  - apply (at_window req x _ 0 (Z.to_nat i)); auto; try lia. intros m Hm. rewrite Hv in Hm. rewrite Z2Nat.id by lia. apply (offset_row m (cols x)); auto. lia.
  - apply (at_window req x _ (Z.to_nat i) 0); auto; try lia. intros m Hm. rewrite Hv in Hm. rewrite Z2Nat.id by lia. apply (offset_column m (rows x)); auto. lia.
Qed.

(** ** RotateR *)
Lemma rotate_data m n (i : nat) : fits m n 1 -> (i < n)%nat ->
  exists m', rotate_m m (Z.of_nat i) = Some m' /\ fits m' n 1 /\ data m' = skipn i (data m) ++ firstn i (data m).
Proof.
  intros Hm Hi. pose proof (fits_len _ _ _ Hm) as L. rewrite Nat.mul_1_r in L. destruct Hm as (Hw & Hr & Hc). unfold rotate_m. rewrite L.
  assert (S1 : submatrix m 0 0 (Z.of_nat i) 1 = Some (mkDense i 1 (firstn i (data m)))).
  { unfold submatrix, slice_bad. rewrite Hr, Hc. replace (Z.of_nat 1) with 1%Z by reflexivity.
    destruct (Z.leb_spec (Z.of_nat n) 0), (Z.ltb_spec (Z.of_nat n) (Z.of_nat i)), (Z.ltb_spec (Z.of_nat i) 0); try lia. cbn -[slice].
    rewrite Nat2Z.id. unfold slice. cbn [skipn]. now rewrite !Nat.sub_0_r, Nat.mul_1_r. }
  assert (S2 : submatrix m (Z.of_nat i) 0 (Z.of_nat n) 1 = Some (mkDense (n - i) 1 (skipn i (data m)))).
  { unfold submatrix, slice_bad. rewrite Hr, Hc. replace (Z.of_nat 1) with 1%Z by reflexivity.
    destruct (Z.leb_spec (Z.of_nat n) (Z.of_nat i)), (Z.ltb_spec (Z.of_nat n) (Z.of_nat n)), (Z.ltb_spec (Z.of_nat i) 0), (Z.ltb_spec (Z.of_nat n) (Z.of_nat i)); try lia.
    cbn -[slice]. rewrite !Nat2Z.id. do 2 f_equal. unfold slice. rewrite !Nat.mul_1_r. rewrite firstn_all2; [reflexivity|]. rewrite skipn_length. lia. }
  rewrite S1, S2. cbn [bind]. unfold concat_v. unfold is_vector. cbn. rewrite !orb_true_r. cbn. rewrite skipn_length, firstn_length, L.
  eexists. split; [reflexivity|]. split; [|reflexivity]. replace (n - i + Init.Nat.min i n)%nat with n by lia.
  apply fits_mk. rewrite app_length, skipn_length, firstn_length. lia.
Qed.

Lemma nth_skipn_R (l : list R) a k : nth k (skipn a l) 0 = nth (a + k) l 0.
Proof. revert l k. induction a; intros [|v l] k; cbn; auto. destruct k; reflexivity. Qed.
Lemma nth_firstn_R (l : list R) a k : (k < a)%nat -> nth k (firstn a l) 0 = nth k l 0.
Proof. revert l k. induction a; intros [|v l] [|k] H; cbn; auto; try lia. apply IHa. lia. Qed.

Lemma rotate_nth (l : list R) n i k : length l = n -> (i < n)%nat -> (k < n)%nat ->
  nth k (skipn i l ++ firstn i l) 0 = nth (if (k <? n - i)%nat then i + k else k - (n - i))%nat l 0.
Proof.
  intros L Hi Hk. rewrite nth_app_R, skipn_length, L. destruct (Nat.ltb_spec k (n - i)).
  - apply nth_skipn_R.
  - apply nth_firstn_R. lia.
Qed.

Lemma rotate_correct req x k : wf x -> cols x = 1%nat -> (0 < k < Z.of_nat (rows x))%Z -> correct (rotate_fn k) req [x].
Proof.
  intros Hw Hc Hk. pose proof (fits_wf x Hw) as Hx. rewrite Hc in Hx. set (n := rows x) in *. set (K := Z.to_nat k). assert (HK : (0 < K < n)%nat) by (unfold K; lia).
  assert (EK : k = Z.of_nat K) by (unfold K; lia).
  set (sel := fun j => (if (j <? K)%nat then n - K + j else j - K)%nat).
  apply (select_correct (rotate_fn k) req x n 1 n 1 sel (fun gy => get_some (rotate_m gy k))); auto.
  - intros j Hj. unfold sel. destruct (Nat.ltb_spec j K); lia.
  - intros a Ha. pose proof (fits_len _ _ _ Ha) as L. rewrite Nat.mul_1_r in L.
    destruct (rotate_data a n (n - K) Ha ltac:(lia)) as (m & E & Hm & Hd). exists m. split; [|split; auto].
    + cbn [fwd rotate_fn un]. rewrite L. rewrite <- E. f_equal. lia.
    + intros j Hj. rewrite Hd. rewrite (rotate_nth _ n) by (auto; lia). unfold sel. f_equal.
      destruct (Nat.ltb_spec j (n - (n - K))), (Nat.ltb_spec j K); lia.
  - intros gy Hg. pose proof (fits_len _ _ _ Hg) as L. rewrite Nat.mul_1_r in L.
    destruct (rotate_data gy n K Hg ltac:(lia)) as (m & E & Hm & Hd). rewrite <- EK in E.
    cbn [bwd rotate_fn un_b]. rewrite E. cbn [get_some]. split; [apply when1|]. split; auto.
    intros j Hj. apply (scatter (n * 1) (n * 1) sel (fun j => nth j (data m) 0) (fun i => nth i (data gy) 0)); auto.
    + intros a b Ha Hb. unfold sel. destruct (Nat.ltb_spec a K), (Nat.ltb_spec b K); lia.
    + intros i Hi. unfold sel. rewrite Hd. rewrite (rotate_nth _ n) by (auto; destruct (Nat.ltb_spec i K); lia). f_equal.
      destruct (Nat.ltb_spec i K); [destruct (Nat.ltb_spec (n - K + i) (n - K))|destruct (Nat.ltb_spec (i - K) (n - K))]; lia.
    + intros i Hi H. exfalso. apply (H (if (i <? n - K)%nat then i + K else i - (n - K))%nat).
      * destruct (Nat.ltb_spec i (n - K)); lia.
      * unfold sel. destruct (Nat.ltb_spec i (n - K)); [destruct (Nat.ltb_spec (i + K) K)|destruct (Nat.ltb_spec (i - (n - K)) K)]; lia.
Qed.
