(** * The rearranging functions: their gradients are the rearranged gradients *)
From Coq Require Import Reals List Arith Bool ZArith Lia Lra.
From Coquelicot Require Import Coquelicot.
From Verif Require Import DenseModel DenseSpec DenseLemmas DenseProofs DenseProofs2 ArithModel ArithSpec ArithProofs GradModel GradSpec GradLemmas GradProofs.
Import ListNotations.
Open Scope R_scope.

Lemma rget_flat m r c i j : fits m r c -> (i < r)%nat -> (j < c)%nat -> rget m i j = nth (i * c + j) (data m) 0.
Proof. intros (Hw & <- & <-) Hi Hj. apply rget_nth; auto. Qed.
Lemma flat_rget m r c k : fits m r c -> (k < r * c)%nat -> nth k (data m) 0 = rget m (k / c) (k mod c).
Proof.
  intros H Hk. destruct (idx_row r c k Hk) as [Hi Hj]. rewrite (rget_flat m r c) by auto.
  f_equal. destruct c; [lia|]. apply (idx_split (S c) k). lia.
Qed.
Lemma inner_flat a b r c : fits a r c -> fits b r c -> inner a b = Rsum (r * c) (fun k => nth k (data a) 0 * nth k (data b) 0).
Proof.
  intros Ha Hb. rewrite (inner_elems a b r c _ _ (fits_elems _ _ _ Ha) (fits_elems _ _ _ Hb)). rewrite Rsum_flat.
  apply Rsum_ext. intros i Hi. apply Rsum_ext. intros j Hj. rewrite (rget_flat a r c), (rget_flat b r c) by auto. reflexivity.
Qed.
Lemma inner2_flat a r c f : fits a r c -> inner2 r c (rget a) (fun i j => f (i * c + j)%nat) = Rsum (r * c) (fun k => nth k (data a) 0 * f k).
Proof.
  intros Ha. rewrite Rsum_flat. apply Rsum_ext. intros i Hi. apply Rsum_ext. intros j Hj. rewrite (rget_flat a r c) by auto. reflexivity.
Qed.
Lemma flat_elems m r c f : fits m r c -> (forall k, (k < r * c)%nat -> nth k (data m) 0 = f k) -> elems m r c (fun i j => f (i * c + j)%nat).
Proof.
  intros Hm H. destruct Hm as (Hw & Hr & Hc). repeat split; auto. intros i j Hi Hj. rewrite <- (H (i * c + j)%nat) by (apply idx_lt; auto).
  apply (rget_flat m r c); auto. repeat split; auto.
Qed.
Lemma flat_derive X V r c k : (forall t, fits (X t) r c) -> fits V r c ->
  (forall i j, (i < r)%nat -> (j < c)%nat -> is_derive (fun t => rget (X t) i j) 0 (rget V i j)) -> (k < r * c)%nat ->
  is_derive (fun t => nth k (data (X t)) 0) 0 (nth k (data V) 0).
Proof.
  intros HX HV HD Hk. rewrite (flat_rget V r c) by auto. destruct (idx_row r c k Hk) as [Hi Hj].
  eapply d_ext; [|reflexivity|apply HD; eauto]. intros t. symmetry. apply (flat_rget (X t) r c); auto.
Qed.

(** ** One operand: every output entry is an input entry *)
Section Select.
Variables (f : gfun) (req : nat -> bool) (x : mat) (rx cx r c : nat) (sel : nat -> nat) (G : mat -> mat).
Hypothesis Hx : fits x rx cx.
Hypothesis Hsel : forall k, (k < r * c)%nat -> (sel k < rx * cx)%nat.
Hypothesis HF : forall a, fits a rx cx -> exists m, fwd f [a] = Some m /\ fits m r c /\
  forall k, (k < r * c)%nat -> nth k (data m) 0 = nth (sel k) (data a) 0.
Hypothesis HB : forall gy, fits gy r c -> bwd f [x] req gy = Some (hand_out 0 req [G gy]) /\ fits (G gy) rx cx /\
  forall k, (k < rx * cx)%nat -> nth k (data (G gy)) 0 = Rsum (r * c) (fun i => if (sel i =? k)%nat then nth i (data gy) 0 else 0).

Lemma select_correct : correct f req [x].
Proof.
  destruct (HF x Hx) as (y & Hy & Hyf & _).
  apply (correct_intro f req [x] r c (fun gy => [G gy]) y); auto.
  - intros gy Hg. destruct (HB gy Hg) as (H1 & H2 & _). split; auto. constructor; [|constructor]. destruct Hx as (_ & -> & ->). exact H2.
  - intros Xs Vs HM HX _. destruct (one_mover Xs Vs x rx cx HM HX Hx) as (X & V & -> & -> & HX0 & HXf & HVf & HD).
    exists (fun t i j => nth (sel (i * c + j)%nat) (data (X t)) 0), (fun i j => nth (sel (i * c + j)%nat) (data V) 0). split; [|split].
    + apply filter_forall. intros t. destruct (HF (X t) (HXf t)) as (m & Hm & Hmf & Hme). exists m. split; [exact Hm|].
      apply (flat_elems m r c (fun k => nth (sel k) (data (X t)) 0)); auto.
    + intros i j Hi Hj. apply (flat_derive X V rx cx); auto. apply Hsel. apply idx_lt; auto.
    + intros gy Hg. rewrite total1. destruct (HB gy Hg) as (_ & H2 & H3).
      rewrite (inner_flat (G gy) V rx cx) by auto.
      rewrite (inner2_flat gy r c (fun k => nth (sel k) (data V) 0)) by auto.
      rewrite (Rsum_ext (rx * cx) _ (fun k => Rsum (r * c) (fun i => if (sel i =? k)%nat then nth i (data gy) 0 * nth k (data V) 0 else 0))).
      2:{ intros k Hk. rewrite H3 by auto. rewrite <- Rsum_mult_r. apply Rsum_ext. intros i _. destruct (sel i =? k)%nat; ring. }
      rewrite Rsum_swap. apply Rsum_ext. intros i Hi.
      rewrite (Rsum_ext (rx * cx) _ (fun k => if (k =? sel i)%nat then nth i (data gy) 0 * nth k (data V) 0 else 0)).
      2:{ intros k _. rewrite (Nat.eqb_sym (sel i) k). reflexivity. }
      symmetry. apply (Rsum_delta (rx * cx) (sel i) (fun k => nth i (data gy) 0 * nth k (data V) 0)). auto.
Qed.
End Select.

(** The entries the output does not read get zero, the others what was received. *)
Lemma scatter n m sel (g gy : nat -> R) : (forall i j, (i < m)%nat -> (j < m)%nat -> sel i = sel j -> i = j) ->
  (forall i, (i < m)%nat -> g (sel i) = gy i) -> (forall k, (k < n)%nat -> (forall i, (i < m)%nat -> sel i <> k) -> g k = 0) ->
  forall k, (k < n)%nat -> g k = Rsum m (fun i => if (sel i =? k)%nat then gy i else 0).
Proof.
  intros Hinj H1 H0 k Hk.
  assert (D : (exists i, (i < m)%nat /\ sel i = k) \/ (forall i, (i < m)%nat -> sel i <> k)).
  { clear -k. induction m as [|m IH]; [right; intros; lia|]. destruct IH as [(i & Hi & E)|IH]; [left; exists i; split; auto; lia|].
    destruct (Nat.eq_dec (sel m) k) as [E|E]; [left; exists m; split; auto; lia|]. right. intros i Hi.
    destruct (Nat.eq_dec i m) as [->|]; auto. apply IH. lia. }
  destruct D as [(i & Hi & <-)|D].
  - rewrite H1 by auto. rewrite (Rsum_ext m _ (fun j => if (j =? i)%nat then gy j else 0)).
    + symmetry. apply Rsum_delta; auto.
    + intros j Hj. destruct (Nat.eqb_spec (sel j) (sel i)), (Nat.eqb_spec j i); auto; try congruence. exfalso. apply n0. apply Hinj; auto.
  - rewrite H0 by auto. symmetry. apply Rsum_0. intros i Hi. destruct (Nat.eqb_spec (sel i) k); auto. exfalso. eapply D; eauto.
Qed.

(** ** Several operands: the output holds the elements of the operands in order *)
Definition alike (a x : mat) : Prop := fits a (rows x) (cols x).
Lemma alike_self x : wf x -> alike x x.
Proof. apply fits_wf. Qed.
Lemma alike_len a x : wf x -> alike a x -> length (data a) = length (data x).
Proof. intros Hw H. rewrite (fits_len a _ _ H). symmetry. exact Hw. Qed.

Lemma nth_app_R l l' k : nth k (l ++ l') 0 = if (k <? length l)%nat then nth k l 0 else nth (k - length l) l' 0.
Proof. destruct (Nat.ltb_spec k (length l)); [apply app_nth1|apply app_nth2]; auto. Qed.

Lemma flat_app l1 l2 l1' l2' : length l1 = length l1' -> length l2 = length l2' ->
  Rsum (length (l1 ++ l2)) (fun k => nth k (l1 ++ l2) 0 * nth k (l1' ++ l2') 0) =
  Rsum (length l1) (fun k => nth k l1 0 * nth k l1' 0) + Rsum (length l2) (fun k => nth k l2 0 * nth k l2' 0).
Proof.
  intros H1 H2. rewrite app_length, Rsum_split. f_equal; apply Rsum_ext; intros k Hk; rewrite !nth_app_R, <- H1.
  - destruct (Nat.ltb_spec k (length l1)); [reflexivity|lia].
  - destruct (Nat.ltb_spec (length l1 + k) (length l1)); [lia|]. replace (length l1 + k - length l1)%nat with k by lia. reflexivity.
Qed.

Lemma concat_len (gs xs : list mat) : List.Forall wf xs -> Forall2 alike gs xs -> length (concat (map data gs)) = length (concat (map data xs)).
Proof.
  intros HW H. induction H as [|g x gs xs Hg Hgs IH]; [reflexivity|]. inversion HW; subst. cbn. rewrite !app_length, IH by auto.
  rewrite (alike_len g x) by auto. reflexivity.
Qed.

Lemma total_concat (gs Vs xs : list mat) : List.Forall wf xs -> Forall2 alike gs xs -> Forall2 alike Vs xs ->
  Rsum (length (concat (map data gs))) (fun k => nth k (concat (map data gs)) 0 * nth k (concat (map data Vs)) 0) = total gs Vs.
Proof.
  intros HW H. revert Vs. induction H as [|g x gs xs Hg Hgs IH]; intros Vs HV; inversion HV as [|V ? Vs' ? HV1 HV2]; subst; [reflexivity|].
  inversion HW as [|? ? W1 W2]; subst. cbn [map concat]. rewrite flat_app.
  - rewrite IH by auto. unfold total. cbn [combine map fold_right fst snd]. f_equal.
    rewrite (inner_flat g V _ _ Hg HV1). rewrite (fits_len g _ _ Hg). reflexivity.
  - rewrite (alike_len g x), (alike_len V x); auto.
  - rewrite (concat_len gs xs), (concat_len Vs' xs); auto.
Qed.

Lemma movers_alike Xs Vs xs : Forall2 moves Xs Vs -> at_time Xs 0 = xs -> List.Forall wf xs /\ Forall2 alike Vs xs /\ forall t, Forall2 alike (at_time Xs t) xs.
Proof.
  intros HM <-. induction HM as [|X V Xs Vs H HM (H1 & H2 & H3)]; [repeat constructor|].
  pose proof (moves_shape X V H) as (r & c & HV & HX & _). destruct (HX 0) as (a0 & b0 & c0).
  assert (A : forall m, fits m r c -> alike m (X 0)) by (intros m Hm; unfold alike; now rewrite b0, c0).
  split; [constructor; auto|]. split; [constructor; auto|]. intros t. constructor; [auto|apply H3].
Qed.

Lemma concat_derive Xs Vs k : Forall2 moves Xs Vs -> (k < length (concat (map data Vs)))%nat ->
  is_derive (fun t => nth k (concat (map data (at_time Xs t))) 0) 0 (nth k (concat (map data Vs)) 0).
Proof.
  intros HM. revert k. induction HM as [|X V Xs Vs H HM IH]; intros k Hk; [cbn in Hk; lia|].
  cbn [map concat] in Hk. rewrite app_length in Hk. cbn [map concat]. rewrite nth_app_R.
  pose proof (moves_shape X V H) as (r & c & HV & HX & HD).
  assert (L : forall t, length (data (X t)) = length (data V)) by (intros t; rewrite (fits_len _ _ _ (HX t)), (fits_len _ _ _ HV); auto).
  destruct (Nat.ltb_spec k (length (data V))) as [E|E].
  - eapply d_ext; [|reflexivity|apply (flat_derive X V r c k); auto; rewrite <- (fits_len _ _ _ HV); auto].
    intros t. cbn [at_time map concat]. rewrite nth_app_R, L. destruct (Nat.ltb_spec k (length (data V))); [reflexivity|lia].
  - eapply d_ext; [|reflexivity|apply (IH (k - length (data V))%nat); lia].
    intros t. cbn [at_time map concat]. rewrite nth_app_R, L. destruct (Nat.ltb_spec k (length (data V))); [lia|reflexivity].
Qed.

Section Join.
Variables (f : gfun) (req : nat -> bool) (xs : list mat) (r c : nat) (G : mat -> list mat).
Hypothesis HW : List.Forall wf xs.
Hypothesis HF : forall xs', Forall2 alike xs' xs -> exists m, fwd f xs' = Some m /\ fits m r c /\ data m = concat (map data xs').
Hypothesis HB : forall gy, fits gy r c -> bwd f xs req gy = Some (hand_out 0 req (G gy)) /\ Forall2 alike (G gy) xs /\
  concat (map data (G gy)) = data gy.

Lemma join_correct : correct f req xs.
Proof.
  assert (HS : Forall2 alike xs xs). { clear -HW. induction HW; constructor; auto using alike_self. }
  destruct (HF xs HS) as (y & Hy & Hyf & Hyd).
  apply (correct_intro f req xs r c G y); auto.
  - intros gy Hg. destruct (HB gy Hg) as (H1 & H2 & _). split; auto.
  - intros Xs Vs HM HX _. destruct (movers_alike Xs Vs xs HM HX) as (_ & HVa & HXa).
    assert (L : length (concat (map data Vs)) = (r * c)%nat).
    { rewrite (concat_len Vs xs HW HVa), <- Hyd. apply fits_len; auto. }
    exists (fun t i j => nth (i * c + j) (concat (map data (at_time Xs t))) 0), (fun i j => nth (i * c + j) (concat (map data Vs)) 0). split; [|split].
    + apply filter_forall. intros t. destruct (HF _ (HXa t)) as (m & Hm & Hmf & Hmd). exists m. split; [exact Hm|].
      apply (flat_elems m r c (fun k => nth k (concat (map data (at_time Xs t))) 0)); auto. intros k _. now rewrite Hmd.
    + intros i j Hi Hj. apply concat_derive; auto. rewrite L. apply idx_lt; auto.
    + intros gy Hg. destruct (HB gy Hg) as (_ & H2 & H3).
      rewrite (inner2_flat gy r c (fun k => nth k (concat (map data Vs)) 0)) by auto.
      rewrite <- (total_concat (G gy) Vs xs) by auto. rewrite H3. rewrite (fits_len gy r c Hg). reflexivity.
Qed.
End Join.

Lemma when1 req g : when (req 0%nat) 0 (Some g) = Some (hand_out 0 req [g]).
Proof. unfold when. cbn. destruct (req 0%nat); reflexivity. Qed.

(** ** Copy, Reshape, Flatten *)
Lemma alike1 xs' x : Forall2 alike xs' [x] -> exists a, xs' = [a] /\ fits a (rows x) (cols x).
Proof. intros H. inversion H as [|a ? l ? Ha Hl]; subst. inversion Hl; subst. eauto. Qed.

Lemma alike_one g x : fits g (rows x) (cols x) -> Forall2 alike [g] [x].
Proof. intros H. constructor; [exact H|constructor]. Qed.
Lemma fits_mk r c (l : list R) : length l = (r * c)%nat -> fits (mkDense r c l) r c.
Proof. intros H. repeat split. exact H. Qed.

Lemma copy_correct req x : wf x -> req 0%nat = true -> correct copy_fn req [x].
Proof.
  intros Hw Hr. apply (join_correct copy_fn req [x] (rows x) (cols x) (fun gy => [gy])).
  - auto.
  - intros xs' H. apply alike1 in H as (a & -> & Ha). exists (clone a). cbn. destruct Ha as (A1 & A2 & A3).
    repeat split; auto. rewrite app_nil_r. reflexivity.
  - intros gy Hg. cbn. rewrite (same_dims_fits x gy (rows x) (cols x)) by auto using fits_wf. cbn. rewrite Hr.
    split; [reflexivity|]. split; [apply alike_one; auto|]. apply app_nil_r.
Qed.

Lemma reshape_to (gy x : mat) : length (data gy) = (rows x * cols x)%nat -> reshape gy (shape_of x) = Some (mkDense (rows x) (cols x) (data gy)).
Proof.
  intros H. unfold reshape, shape_of. destruct (Z.ltb_spec (Z.of_nat (rows x)) 0); [lia|]. destruct (Z.ltb_spec (Z.of_nat (cols x)) 0); [lia|].
  cbn [orb]. rewrite H. destruct (Z.eqb_spec (Z.of_nat (rows x) * Z.of_nat (cols x)) (Z.of_nat (rows x * cols x))); [|lia].
  rewrite !Nat2Z.id. reflexivity.
Qed.

Lemma reshape_correct req x r c : wf x -> (0 <= r)%Z -> (0 <= c)%Z -> (r * c = Z.of_nat (rows x * cols x))%Z ->
  correct (reshape_fn r c) req [x].
Proof.
  intros Hw Hr Hc E. assert (En : (Z.to_nat r * Z.to_nat c = rows x * cols x)%nat) by nia.
  apply (join_correct (reshape_fn r c) req [x] (Z.to_nat r) (Z.to_nat c) (fun gy => [mkDense (rows x) (cols x) (data gy)])).
  - auto.
  - intros xs' H. apply alike1 in H as (a & -> & Ha). pose proof (fits_len _ _ _ Ha) as L.
    exists (mkDense (Z.to_nat r) (Z.to_nat c) (data a)). cbn [fwd reshape_fn un]. unfold reshape.
    destruct (Z.ltb_spec r 0); [lia|]. destruct (Z.ltb_spec c 0); [lia|]. cbn [orb]. rewrite L, E, Z.eqb_refl.
    split; [reflexivity|]. split; [repeat split; unfold wf; cbn; lia|]. cbn. rewrite app_nil_r. reflexivity.
  - intros gy Hg. pose proof (fits_len _ _ _ Hg) as L. destruct Hg as (Hgw & Hgr & Hgc). cbn [bwd reshape_fn un_b].
    rewrite Hgr, Hgc, !Z2Nat.id, !Z.eqb_refl by auto. cbn [negb andb guard]. rewrite reshape_to by lia. rewrite when1.
    split; [reflexivity|]. split; [apply alike_one, fits_mk; lia|]. cbn. apply app_nil_r.
Qed.

Lemma flatten_correct req x : wf x -> correct flatten_fn req [x].
Proof.
  intros Hw.
  apply (join_correct flatten_fn req [x] 1 (rows x * cols x) (fun gy => [mkDense (rows x) (cols x) (data gy)])).
  - auto.
  - intros xs' H. apply alike1 in H as (a & -> & Ha). pose proof (fits_len _ _ _ Ha) as L.
    exists (flatten a). split; [reflexivity|]. unfold flatten, fits, wf. cbn. rewrite L, app_nil_r. repeat split; lia.
  - intros gy Hg. pose proof (fits_len _ _ _ Hg) as L. destruct Hg as (Hgw & Hgr & Hgc). cbn [bwd flatten_fn un_b].
    assert (is_vector gy = true) as -> by (unfold is_vector; rewrite Hgr; reflexivity).
    unfold wf in Hw. rewrite L, Hw. replace (rows x * cols x =? 1 * (rows x * cols x))%nat with true by (symmetry; apply Nat.eqb_eq; lia).
    cbn [andb guard]. rewrite reshape_to by lia. rewrite when1.
    split; [reflexivity|]. split; [apply alike_one, fits_mk; lia|]. cbn. apply app_nil_r.
Qed.

(** ** Transpose *)
Lemma transpose_correct req x : wf x -> correct transpose_fn req [x].
Proof.
  intros Hw. pose proof (fits_wf x Hw) as Hx. set (r := rows x) in *. set (c := cols x) in *.
  apply (correct_intro transpose_fn req [x] c r (fun gy => [m_t gy]) (m_t x)).
  - reflexivity.
  - eapply elems_fits, m_t_elems; eauto.
  - intros gy Hg. destruct Hg as (Hgw & Hgr & Hgc). cbn [bwd transpose_fn un_b]. rewrite Hgr, Hgc. fold r c. rewrite !Nat.eqb_refl.
    cbn [negb andb guard]. rewrite when1. split; [reflexivity|]. constructor; [|constructor]; eapply (elems_fits _ _ _ _ (m_t_elems gy c r (conj Hgw (conj Hgr Hgc)))).
  - intros Xs Vs HM HX _. destruct (one_mover Xs Vs x r c HM HX Hx) as (X & V & -> & -> & HX0 & HXf & HVf & HD).
    exists (fun t i j => rget (X t) j i), (fun i j => rget V j i). split; [|split].
    + apply filter_forall. intros t. eexists. split; [reflexivity|]. apply m_t_elems; auto.
    + intros; auto.
    + intros gy Hg. rewrite total1. rewrite (inner_elems (m_t gy) V r c _ _ (m_t_elems gy c r Hg) (fits_elems _ _ _ HVf)).
      unfold inner2. apply Rsum_swap.
Qed.
