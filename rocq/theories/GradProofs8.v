(** * Concat, Stack and AppendRows *)
From Coq Require Import Reals List Arith Bool ZArith Lia Lra.
From Coquelicot Require Import Coquelicot.
From Verif Require Import DenseModel DenseSpec DenseLemmas DenseProofs DenseProofs2 ArithModel ArithSpec ArithProofs GradModel GradSpec GradLemmas GradProofs GradProofs6 GradProofs7.
Import ListNotations.
Open Scope R_scope.

(** The elements of l handed out to the operands in order. *)
Fixpoint refit (xs : list mat) (l : list R) : list mat :=
  match xs with
  | [] => []
  | x :: xs => mkDense (rows x) (cols x) (firstn (length (data x)) l) :: refit xs (skipn (length (data x)) l)
  end.
Lemma refit_ok (xs : list mat) : forall l, List.Forall wf xs -> length l = length (concat (map data xs)) ->
  Forall2 alike (refit xs l) xs /\ concat (map data (refit xs l)) = l.
Proof.
  induction xs as [|x xs IH]; intros l HW HL; cbn in *.
  - destruct l; [auto|discriminate].
  - inversion HW as [|? ? W1 W2]; subst. rewrite app_length in HL. destruct (IH (skipn (length (data x)) l) W2) as (H1 & H2). { rewrite skipn_length. lia. }
    split; [constructor; auto|].
    + apply fits_mk. rewrite firstn_length. unfold wf in W1. lia.
    + rewrite H2. apply firstn_skipn.
Qed.

Lemma sizes_len (xs : list mat) : fold_left (fun s (x : mat) => (s + length (data x))%nat) xs 0%nat = length (concat (map data xs)).
Proof.
  rewrite fold_sum. cbn. induction xs as [|x xs IH]; [reflexivity|]. cbn. rewrite app_length. unfold list_sum in *. cbn. lia.
Qed.

(** ** Concat *)
Lemma pieces_refit (xs : list mat) : forall l, List.Forall (fun x => wf x /\ cols x = 1%nat) xs -> length l = length (concat (map data xs)) ->
  map column (pieces l (map Z.to_nat (map (fun x : mat => Z.of_nat (length (data x))) xs))) = refit xs l.
Proof.
  induction xs as [|x xs IH]; intros l HW HL; [reflexivity|]. cbn in *. inversion HW as [|? ? (W1 & W2) W3]; subst. rewrite Nat2Z.id.
  rewrite app_length in HL. rewrite IH; [|auto|rewrite skipn_length; lia]. f_equal. unfold column. rewrite firstn_length, W2. f_equal.
  unfold wf in W1. rewrite W2 in W1. lia.
Qed.
Lemma sum_sizes (xs : list mat) : list_sum (map Z.to_nat (map (fun x : mat => Z.of_nat (length (data x))) xs)) = length (concat (map data xs)).
Proof. induction xs as [|x xs IH]; [reflexivity|]. cbn. rewrite app_length, Nat2Z.id. cbn in IH. unfold list_sum in *. cbn. lia. Qed.

Lemma alike_vectors (xs' xs : list mat) : Forall2 alike xs' xs -> forallb is_vector xs = true -> forallb is_vector xs' = true.
Proof.
  induction 1 as [|a x xs' xs (A1 & A2 & A3) H IH]; [auto|]. cbn. intros E. apply andb_true_iff in E as [E1 E2].
  rewrite IH by auto. unfold is_vector in *. rewrite A2, A3, E1. reflexivity.
Qed.

Lemma concat_fwd (xs : list mat) : forallb is_vector xs = true -> exists m, concat_v xs = Some m /\ fits m (length (concat (map data xs))) 1 /\ data m = concat (map data xs).
Proof.
  intros HV. pose proof (concat_spec (T := R) xs) as [H1 H2]. destruct (concat_v xs) as [m|] eqn:E.
  - destruct (H1 m eq_refl) as (D1 & D2 & D3 & D4). exists m. repeat split; auto. now rewrite D2, D1.
  - exfalso. destruct (proj1 H2 eq_refl) as (v & Hv & Ev). rewrite forallb_forall in HV. apply HV in Hv. congruence.
Qed.

Lemma concat_correct req (xs : list mat) : xs <> [] -> List.Forall (fun x => wf x /\ cols x = 1%nat) xs -> correct concat_fn req xs.
Proof.
  intros Hne HC. assert (HW : List.Forall wf xs) by (revert HC; apply Forall_impl; tauto).
  assert (HV : forallb is_vector xs = true). { apply forallb_forall. intros x Hx. rewrite Forall_forall in HC. destruct (HC x Hx) as (_ & E). unfold is_vector. rewrite E. apply orb_true_r. }
  apply (join_correct concat_fn req xs (length (concat (map data xs))) 1 (fun gy => refit xs (data gy))); auto.
  - intros xs' H. destruct (concat_fwd xs') as (m & E & Hm & Hd); [eapply alike_vectors; eauto|]. exists m. split; [|split; auto].
    + cbn. destruct xs'; [exfalso; apply Hne; inversion H; reflexivity|exact E].
    + rewrite (concat_len xs' xs HW H) in Hm. exact Hm.
  - intros gy Hg. pose proof (fits_len _ _ _ Hg) as L. rewrite Nat.mul_1_r in L. destruct (refit_ok xs (data gy) HW L) as (R1 & R2). split; [|auto].
    cbn [bwd concat_fn]. rewrite sizes_len, L, Nat.eqb_refl. cbn [guard].
    destruct Hg as (Hgw & Hgr & Hgc).
    destruct (split_spec gy (map (fun x : mat => Z.of_nat (length (data x))) xs) Hgw) as (S1 & S2).
    destruct (proj2 S2) as (ms & E).
    + split; [unfold is_vector; rewrite Hgc; apply orb_true_r|]. split; [apply Forall_forall; intros z Hz; apply in_map_iff in Hz as (x & <- & _); lia|].
      rewrite sum_sizes. unfold wf in Hgw. rewrite <- Hgw, L. lia.
    + transitivity (bind (Some ms) (fun gs => Some (hand_out 0 req gs))); [exact (f_equal (fun o => bind o (fun gs => Some (hand_out 0 req gs))) E)|].
      cbn [bind]. rewrite (S1 ms E), pieces_refit by auto. reflexivity.
Qed.

(** ** Stack *)
Lemma firstn_blit (out src : list R) a : (a + length src <= length out)%nat -> firstn (a + length src) (blit out a src) = firstn a out ++ src.
Proof.
  intros H. unfold blit. rewrite app_assoc. replace (a + length src)%nat with (length (firstn a out ++ src)) at 1.
  - rewrite firstn_app, firstn_all. replace (_ - _)%nat with 0%nat by lia. rewrite firstn_O, app_nil_r. reflexivity.
  - rewrite app_length, firstn_length. lia.
Qed.
Lemma append_data c (vs : list mat) : forall off (out : list R), length out = (off + length vs * c)%nat ->
  List.Forall (fun v => is_vector v = true /\ length (data v) = c) vs -> append_loop c off vs out = Some (firstn off out ++ concat (map data vs)).
Proof.
  induction vs as [|v vs IH]; intros off out HL HV; cbn in *.
  - rewrite app_nil_r, firstn_all2 by lia. reflexivity.
  - inversion HV as [|? ? (V1 & V2) V3]; subst. rewrite V1, Nat.eqb_refl. cbn [negb orb].
    rewrite IH; auto; [|rewrite blit_length; lia]. rewrite firstn_blit, <- app_assoc by lia. reflexivity.
Qed.
Lemma stack_data c (vs : list mat) : forall i (out : list R), length out = ((i + length vs) * c)%nat ->
  List.Forall (fun v => is_vector v = true /\ length (data v) = c) vs -> stack_loop c i vs out = Some (firstn (i * c) out ++ concat (map data vs)).
Proof.
  induction vs as [|v vs IH]; intros i out HL HV; cbn [stack_loop map concat length] in *.
  - rewrite app_nil_r, firstn_all2 by lia. reflexivity.
  - inversion HV as [|? ? (V1 & V2) V3]; subst. rewrite V1, Nat.eqb_refl. cbn [negb].
    rewrite IH; auto; [|rewrite blit_length; nia]. replace (S i * length (data v))%nat with (i * length (data v) + length (data v))%nat by lia.
    rewrite firstn_blit, <- app_assoc by nia. reflexivity.
Qed.
Lemma uniform_len c (xs : list mat) : List.Forall (fun v => length (data v) = c) xs -> length (concat (map data xs)) = (length xs * c)%nat.
Proof. induction 1; cbn; [reflexivity|]. rewrite app_length. lia. Qed.

Lemma vectors_alike c xs' xs : Forall2 alike xs' xs -> vectors_of c xs -> vectors_of c xs'.
Proof.
  intros H. unfold vectors_of. induction H as [|a x xs' xs Ha H IH]; intros HV; [constructor|]. inversion HV as [|? ? (V1 & V2 & V3) V4]; subst.
  constructor; [|auto]. split; [apply Ha|]. split; [|apply alike_len; auto]. destruct Ha as (_ & E1 & E2). unfold is_vector in *. now rewrite E1, E2.
Qed.
Lemma vectors_weak c xs : vectors_of c xs -> List.Forall wf xs /\ List.Forall (fun v => is_vector v = true /\ length (data v) = c) xs /\ List.Forall (fun v : mat => length (data v) = c) xs.
Proof. intros H. split; [|split]; revert H; apply Forall_impl; tauto. Qed.

Lemma extract_row_data gy r c i : fits gy r c -> (i < r)%nat -> extract_row gy (Z.of_nat i) = Some (mkDense 1 c (firstn c (skipn (i * c) (data gy)))).
Proof.
  intros (Hw & Hr & Hc) Hi. unfold extract_row. rewrite Hr. destruct (Z.ltb_spec (Z.of_nat i) 0), (Z.leb_spec (Z.of_nat r) (Z.of_nat i)); try lia. cbn [orb].
  rewrite Nat2Z.id, Hc. unfold slice. do 3 f_equal. lia.
Qed.
Lemma skipn_step {A} (l : list A) i c : skipn c (skipn (i * c) l) = skipn (S i * c) l.
Proof. rewrite skipn_skipn. f_equal. Qed.

Lemma for_each_ok req (h : nat -> mat -> option mat) (xs : list mat) : forall k (gs : list mat), length gs = length xs ->
  (forall i x g, nth_error xs i = Some x -> nth_error gs i = Some g -> h (k + i)%nat x = Some g) ->
  for_each k req h xs = Some (hand_out k req gs).
Proof.
  induction xs as [|x xs IH]; intros k gs HL H; destruct gs as [|g gs]; try discriminate; [reflexivity|]. cbn [for_each hand_out].
  pose proof (H 0%nat x g eq_refl eq_refl) as H0. rewrite Nat.add_0_r in H0. rewrite H0. rewrite (IH (S k) gs).
  - unfold when, both. destruct (req k); reflexivity.
  - cbn in HL. lia.
  - intros i y w Hy Hg. rewrite <- (H (S i) y w Hy Hg). f_equal. lia.
Qed.
Lemma refit_nth c (xs : list mat) : forall i x g l k, List.Forall (fun v : mat => length (data v) = c) xs ->
  nth_error xs i = Some x -> nth_error (refit xs (skipn (k * c) l)) i = Some g -> g = mkDense (rows x) (cols x) (firstn c (skipn ((k + i) * c) l)).
Proof.
  induction xs as [|y xs IH]; intros [|i] x g l k HU Hx Hg; try discriminate; inversion HU as [|? ? U1 U2]; subst; cbn [refit nth_error] in *.
  - injection Hx as <-. injection Hg as <-. rewrite Nat.add_0_r. reflexivity.
  - rewrite skipn_step in Hg. rewrite (IH i x g l (S k) U2 Hx Hg). do 3 f_equal. lia.
Qed.
Lemma refit_len xs : forall l, length (refit xs l) = length xs.
Proof. induction xs; intros; cbn; auto. Qed.

Lemma stack_correct req (xs : list mat) c : xs <> [] -> vectors_of c xs -> correct stack_fn req xs.
Proof.
  intros Hne HV. destruct (vectors_weak c xs HV) as (HW & HV2 & HU).
  assert (HL : length (concat (map data xs)) = (length xs * c)%nat) by (apply uniform_len; auto).
  apply (join_correct stack_fn req xs (length xs) c (fun gy => refit xs (data gy))); auto.
  - intros xs' H. pose proof (vectors_alike c xs' xs H HV) as HV'. destruct (vectors_weak c xs' HV') as (HW' & HV2' & HU').
    assert (HN : length xs' = length xs) by (apply (Forall2_length _ _ _ H)).
    exists (mkDense (length xs') c (concat (map data xs'))). split; [|split; [|reflexivity]].
    + cbn [fwd stack_fn]. destruct xs' as [|v vs]; [destruct xs; [congruence|discriminate]|]. unfold stack.
      assert (length (data v) = c) as -> by (inversion HU'; auto). rewrite (stack_data c (v :: vs) 0).
      * cbn [Nat.mul firstn app]. reflexivity.
      * rewrite repeat_length. reflexivity.
      * auto.
    + rewrite HN. apply fits_mk. rewrite (concat_len xs' xs HW H). auto.
  - intros gy Hg. pose proof (fits_len _ _ _ Hg) as L. destruct (refit_ok xs (data gy) HW ltac:(lia)) as (R1 & R2). split; [|auto].
    cbn [bwd stack_fn]. assert (rows gy = length xs) as -> by apply Hg. rewrite Nat.eqb_refl. cbn [guard].
    apply for_each_ok; [apply refit_len|]. intros i x g Hx Hgi. cbn [Nat.add].
    assert (Hi : (i < length xs)%nat) by (apply nth_error_Some; congruence).
    rewrite (extract_row_data gy (length xs) c) by auto. cbn [bind].
    pose proof (refit_nth c xs i x g (data gy) 0 HU Hx Hgi) as ->. cbn [Nat.add].
    assert (Hlx : length (data x) = c). { rewrite Forall_forall in HU. apply HU. eapply nth_error_In; eauto. }
    rewrite reshape_to; [reflexivity|]. cbn [data]. rewrite firstn_length, skipn_length, L.
    rewrite Forall_forall in HW. pose proof (HW x (nth_error_In _ _ Hx)) as Hwx. unfold wf in Hwx. nia.
Qed.

(** ** AppendRows *)
Lemma append_rows_correct req (x : mat) (vs : list mat) : wf x -> (0 < rows x)%nat -> (0 < cols x)%nat -> List.Forall (fun v => wf v /\ rows v = 1%nat /\ cols v = cols x) vs -> correct append_rows_fn req (x :: vs).
Proof.
  intros Hw Hr Hc HV. set (c := cols x).
  assert (HW : List.Forall wf (x :: vs)) by (constructor; [auto|revert HV; apply Forall_impl; tauto]).
  assert (HU : List.Forall (fun v : mat => length (data v) = c) vs).
  { revert HV. apply Forall_impl. intros v (V1 & V2 & V3). unfold wf in V1. unfold c. rewrite V1, V2, V3. lia. }
  assert (HU' : vectors_of c vs).
  { apply Forall_forall. intros v Hv. rewrite Forall_forall in HV, HU. destruct (HV v Hv) as (V1 & V2 & V3). split; auto. split; [|auto]. unfold is_vector. now rewrite V2. }
  assert (HL : length (concat (map data (x :: vs))) = ((rows x + length vs) * c)%nat).
  { cbn. rewrite app_length, (uniform_len c vs HU). unfold wf in Hw. unfold c. rewrite Hw. lia. }
  apply (join_correct append_rows_fn req (x :: vs) (rows x + length vs) c (fun gy => refit (x :: vs) (data gy))); auto.
  - intros xs' H. inversion H as [|a ? vs' ? Ha Hvs]; subst. destruct (vectors_weak c vs' (vectors_alike c vs' vs Hvs HU')) as (W' & V' & U').
    pose proof (fits_len _ _ _ Ha) as La. destruct Ha as (A1 & A2 & A3). fold c in A3, La.
    assert (HN : length vs' = length vs) by (apply (Forall2_length _ _ _ Hvs)).
    exists (mkDense (rows x + length vs) c (concat (map data (a :: vs')))). split; [|split; [|reflexivity]].
    + cbn [fwd append_rows_fn]. unfold append_rows. rewrite A2, A3, HN, La. rewrite (append_data c vs').
      * do 2 f_equal. cbn [map concat]. f_equal. rewrite <- La. change (length (data a)) with (0 + length (data a))%nat at 1. rewrite firstn_blit; [reflexivity|].
        rewrite repeat_length, La. nia.
      * rewrite blit_length; rewrite repeat_length; rewrite ?La; nia.
      * auto.
    + apply fits_mk. rewrite (concat_len (a :: vs') (x :: vs) HW H). auto.
  - intros gy Hg. pose proof (fits_len _ _ _ Hg) as L. destruct (refit_ok (x :: vs) (data gy) HW ltac:(lia)) as (R1 & R2). split; [|auto].
    cbn [bwd append_rows_fn]. assert (rows gy = (rows x + length vs)%nat) as -> by apply Hg. rewrite Nat.eqb_refl. cbn [guard refit hand_out].
    assert (Hlx : length (data x) = (rows x * c)%nat) by exact Hw. rewrite Hlx.
    assert (Hsub : submatrix gy 0 0 (Z.of_nat (rows x)) (Z.of_nat (cols x)) = Some (mkDense (rows x) c (firstn (rows x * c) (data gy)))).
    { destruct Hg as (_ & G2 & G3). unfold submatrix, slice_bad. rewrite G2, G3. fold c in Hc |- *.
      destruct (Z.leb_spec (Z.of_nat (rows x + length vs)) 0), (Z.leb_spec (Z.of_nat c) 0), (Z.ltb_spec (Z.of_nat (rows x + length vs)) (Z.of_nat (rows x))),
        (Z.ltb_spec (Z.of_nat c) (Z.of_nat c)), (Z.ltb_spec (Z.of_nat (rows x)) 0), (Z.ltb_spec (Z.of_nat c) 0); try lia.
      cbn -[slice]. rewrite !Nat2Z.id, Nat.eqb_refl. rewrite !Nat.sub_0_r. unfold slice. cbn [skipn]. rewrite Nat.sub_0_r. reflexivity. }
    rewrite Hsub.
    rewrite (for_each_ok req _ vs 1 (refit vs (skipn (rows x * c) (data gy)))).
    + unfold both, when. fold c. destruct (req 0%nat); reflexivity.
    + apply refit_len.
    + intros i v g Hv Hgi. assert (Hi : (i < length vs)%nat) by (apply nth_error_Some; congruence).
      replace (rows x + (1 + i - 1))%nat with (rows x + i)%nat by lia.
      rewrite (extract_row_data gy (rows x + length vs) c) by (auto; lia).
      pose proof (refit_nth c vs i v g (data gy) (rows x) HU Hv Hgi) as ->. rewrite Forall_forall in HV.
      destruct (HV v (nth_error_In _ _ Hv)) as (_ & -> & ->). reflexivity.
Qed.
