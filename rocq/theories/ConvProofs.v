(** * Proofs about convolution *)
From Coq Require Import Reals List Arith Bool ZArith Lia Lra.
From Verif Require Import DenseModel DenseSpec DenseLemmas DenseProofs DenseProofs2 ArithModel GradModel GradSpec GradLemmas GradProofs2 GradProofs6 GradProofs8 GradProofs9 GradProofs13 OpsModel OpsSpec OpsLemmas OpsProofs4 AttSpec AttProofs ConvModel ConvSpec.
Import ListNotations.
Open Scope nat_scope.

Lemma window_dot_value w x fr fc : wf x -> wf w -> 0 < rows w -> 0 < cols w -> fr + rows w <= rows x -> fc + cols w <= cols x ->
  window_dot w x (Z.of_nat fr) (Z.of_nat fc) = Some (scalar (at_window w x fr fc)).
Proof.
  intros Wx Ww Hr Hc Br Bc. unfold window_dot.
  destruct (slice_gives x (Z.of_nat fr) (Z.of_nat fc) (Z.of_nat fr + Z.of_nat (rows w)) (Z.of_nat fc + Z.of_nat (cols w)) Wx) as (s & Es & Hs); try lia.
  rewrite Es. cbn [bind]. rewrite !Nat2Z.id in Hs. replace (Z.to_nat (Z.of_nat fr + Z.of_nat (rows w) - Z.of_nat fr)) with (rows w) in Hs by lia.
  replace (Z.to_nat (Z.of_nat fc + Z.of_nat (cols w) - Z.of_nat fc)) with (cols w) in Hs by lia.
  destruct (dot_gives s w (rows w) (cols w) (elems_fits _ _ _ _ Hs) ltac:(now repeat split)) as (y & Ey & Hy).
  rewrite Ey. f_equal. rewrite (elems_vec _ _ _ Hy). unfold at_window. change (vec 1 ?f) with (scalar (f 0)). f_equal. cbv beta.
  apply Rsum_ext. intros i Hi. apply Rsum_ext. intros j Hj. now rewrite (rget_elems _ _ _ _ i j Hs Hi Hj).
Qed.
Lemma window_dot_fails w x fr fc : 
  (fr < 0 \/ fc < 0 \/ Z.of_nat (rows x) < fr + Z.of_nat (rows w) \/ Z.of_nat (cols x) < fc + Z.of_nat (cols w))%Z -> window_dot w x fr fc = None.
Proof. intros H. unfold window_dot. cbn [fwd slice_fn un]. replace (submatrix x _ _ _ _) with (@None mat); [reflexivity|]. symmetry. apply submatrix_panics. unfold slice_ok. lia. Qed.

Lemma concat_scalars n f : 0 < n -> fwd concat_fn (map (fun i => scalar (f i)) (seq 0 n)) = Some (vec n f).
Proof.
  intros Hn. assert (L : forall (l : list nat), concat (map data (map (fun i => scalar (f i)) l)) = map f l) by (induction l; cbn; [reflexivity|now f_equal]).
  destruct (concat_gives (map (fun i => scalar (f i)) (seq 0 n))) as (y & E & W & C & D).
  - destruct n; [lia|discriminate].
  - apply forallb_forall. intros v Hv. apply in_map_iff in Hv. destruct Hv as (i & <- & _). reflexivity.
  - rewrite L in D. rewrite E. f_equal. destruct y as [r c d]. cbn in *. subst. unfold wf in W. cbn in W. rewrite map_length, seq_length in W. unfold vec, column. rewrite map_length, seq_length. f_equal. lia.
Qed.

(** ** One dimension *)
Section One.
Variables (w x : mat) (stride : Z).
Hypotheses (Wx : wf x) (Ww : wf w) (Hr : 0 < rows w) (Hc : 0 < cols w).
Lemma conv1d_steps n : (0 < stride \/ n = 0%nat /\ stride <> 0)%Z -> rows x = rows w -> Z.of_nat (cols x) = (Z.of_nat (cols w) + Z.of_nat n * stride)%Z ->
  conv1d w x stride = Some (vec (S n) (fun i => at_window w x 0 (i * Z.to_nat stride))).
Proof.
  intros Hs Er Ec. unfold conv1d. destruct (Z.eqb_spec stride 0) as [?|Hz]; [lia|]. replace (Z.of_nat (cols x) - Z.of_nat (cols w))%Z with (Z.of_nat n * stride)%Z by lia.
  rewrite Z.rem_mul by auto. cbn [Z.eqb negb]. rewrite Er, Nat.eqb_refl. cbn [negb]. rewrite Z.quot_mul by auto. destruct (Z.ltb_spec (Z.of_nat n + 1) 0); [lia|].
  replace (Z.to_nat (Z.of_nat n + 1)) with (S n) by lia.
  rewrite (each_map _ (fun i => scalar (at_window w x 0 (i * Z.to_nat stride)))); [cbn [bind]; apply concat_scalars; lia|].
  intros i Hi. apply in_seq in Hi. rewrite <- window_dot_value; auto; try lia.
  - f_equal. destruct Hs as [Hs|[-> _]]; [lia|]. replace i with 0 by lia. reflexivity.
  - destruct Hs as [Hs|[-> _]]; [|replace i with 0 by lia; lia]. assert (Z.of_nat i * stride <= Z.of_nat n * stride)%Z by (apply Z.mul_le_mono_nonneg_r; lia). nia.
Qed.
Lemma conv1d_fits : rows x = rows w -> steps_to (cols w) (cols x) stride -> exists n, (0 < stride \/ n = 0%nat /\ stride <> 0)%Z /\ Z.of_nat (cols x) = (Z.of_nat (cols w) + Z.of_nat n * stride)%Z.
Proof. intros Er (Hz & [E|(Hs & n & E)]); [exists 0; lia|exists n; auto]. Qed.
Lemma conv1d_panics : conv1d w x stride = None <-> ~ (rows x = rows w /\ steps_to (cols w) (cols x) stride).
Proof.
  split.
  - intros E (Er & St). destruct (conv1d_fits Er St) as (n & Hs & Ec). rewrite (conv1d_steps n) in E; auto. discriminate.
  - intros N. unfold conv1d. destruct (Z.eqb_spec stride 0) as [?|Hz]; [reflexivity|]. set (d := (Z.of_nat (cols x) - Z.of_nat (cols w))%Z).
    destruct (Z.eqb_spec (Z.rem d stride) 0) as [R0|]; [|reflexivity]. destruct (Nat.eqb_spec (rows x) (rows w)) as [Er|]; [|reflexivity]. cbn [negb].
    pose proof (Z.quot_rem d stride Hz) as Q. rewrite R0, Z.add_0_r in Q. set (q := Z.quot d stride) in *. destruct (Z.ltb_spec (q + 1) 0); [reflexivity|].
    destruct (Z.eq_dec q (-1)) as [->|]; [reflexivity|].
    assert (Hd : (d < 0)%Z).
    { destruct (Z.lt_ge_cases d 0) as [|Hd]; [auto|]. exfalso. apply N. split; [auto|]. split; [auto|]. destruct (Z.eq_dec q 0) as [Q0|]; [left; rewrite Q0 in Q; lia|].
      right. split; [nia|]. exists (Z.to_nat q). rewrite Z2Nat.id by lia. unfold d in Q. lia. }
    rewrite (each_none _ _ 0); [reflexivity| |]; [apply in_seq; lia|]. apply window_dot_fails. unfold d in Hd. lia.
Qed.
End One.

(** ** Two dimensions *)
Lemma each_nil {A B} (f : A -> option B) : each f [] = Some []. Proof. reflexivity. Qed.
Lemma concat_rows {A} (g : nat -> nat -> A) n k : concat (map (fun i => map (g i) (seq 0 k)) (seq 0 n)) = map (fun m => g (m / k) (m mod k)) (seq 0 (n * k)).
Proof.
  induction n as [|n IH]; [reflexivity|]. rewrite seq_S, map_app, concat_app, IH. cbn [map concat plus]. rewrite app_nil_r.
  replace (S n * k) with (n * k + k) by lia. rewrite seq_app, map_app. f_equal. cbn [plus]. rewrite <- (Nat.add_0_r (n * k)) at 1.
  clear IH. rewrite <- (map_map (fun j => (n * k + j)) (fun m => g (m / k) (m mod k))) || idtac.
  assert (X : forall a l, seq (a) l = map (fun j => a + j) (seq 0 l)).
  { intros a l. revert a. induction l as [|l IHl]; intros a; [reflexivity|]. cbn [seq map]. f_equal; [lia|]. rewrite (IHl (S a)), (IHl 1), map_map. apply map_ext. intros; lia. }
  rewrite (X (n * k + 0)), map_map. apply map_ext_in. intros j Hj. apply in_seq in Hj.
  replace (n * k + 0 + j) with (j + n * k) by lia. rewrite Nat.div_add, Nat.mod_add by lia. rewrite Nat.div_small, Nat.mod_small by lia. reflexivity.
Qed.
Section Two.
Variables (w x : mat) (xs ys : Z).
Hypotheses (Wx : wf x) (Ww : wf w) (Hr : 0 < rows w) (Hc : 0 < cols w).
Lemma steps_at n (s : Z) small big i : (0 < s \/ n = 0%nat /\ s <> 0)%Z -> Z.of_nat big = (Z.of_nat small + Z.of_nat n * s)%Z -> i <= n ->
  (Z.of_nat i * s)%Z = Z.of_nat (i * Z.to_nat s) /\ i * Z.to_nat s + small <= big.
Proof.
  intros [Hs|[-> Hz]] E Hi; [|replace i with 0 by lia; lia]. split; [rewrite Nat2Z.inj_mul, Z2Nat.id; lia|].
  assert (Z.of_nat i * s <= Z.of_nat n * s)%Z by (apply Z.mul_le_mono_nonneg_r; lia). nia.
Qed.
Lemma conv2d_steps n k : (0 < xs \/ n = 0%nat /\ xs <> 0)%Z -> (0 < ys \/ k = 0%nat /\ ys <> 0)%Z ->
  Z.of_nat (rows x) = (Z.of_nat (rows w) + Z.of_nat n * xs)%Z -> Z.of_nat (cols x) = (Z.of_nat (cols w) + Z.of_nat k * ys)%Z ->
  exists y, conv2d w x xs ys = Some y /\ elems y (S n) (S k) (fun i j => at_window w x (i * Z.to_nat xs) (j * Z.to_nat ys)).
Proof.
  intros Hx Hy Er Ec. unfold conv2d. destruct (Z.eqb_spec xs 0) as [?|Hzx]; [lia|]. destruct (Z.eqb_spec ys 0) as [?|Hzy]; [lia|].
  replace (Z.of_nat (rows x) - Z.of_nat (rows w))%Z with (Z.of_nat n * xs)%Z by lia. replace (Z.of_nat (cols x) - Z.of_nat (cols w))%Z with (Z.of_nat k * ys)%Z by lia.
  rewrite !Z.rem_mul, !Z.quot_mul by auto. cbn [Z.eqb negb].
  replace (Z.to_nat (Z.of_nat n + 1)) with (S n) by lia. replace (Z.to_nat (Z.of_nat k + 1)) with (S k) by lia.
  set (g := fun i j => at_window w x (i * Z.to_nat xs) (j * Z.to_nat ys)).
  rewrite (each_map _ (fun i => map (fun j => scalar (g i j)) (seq 0 (S k)))).
  2:{ intros i Hi. apply in_seq in Hi. apply (each_map _ (fun j => scalar (g i j))). intros j Hj. apply in_seq in Hj.
      destruct (steps_at n xs (rows w) (rows x) i Hx Er ltac:(lia)) as [-> ?]. destruct (steps_at k ys (cols w) (cols x) j Hy Ec ltac:(lia)) as [-> ?]. now apply window_dot_value. }
  cbn [bind]. rewrite (concat_rows (fun i j => scalar (g i j)) (S n) (S k)).
  rewrite (concat_scalars (S n * S k) (fun m => g (m / S k) (m mod S k))) by nia. cbn [bind].
  rewrite reshape_gives; [|apply vec_fits|lia|lia|cbn [rows cols vec column]; rewrite map_length, seq_length; nia].
  eexists. split; [reflexivity|]. cbn [vec column data].
  replace (Z.to_nat (Z.of_nat n + 1)) with (S n) by lia. replace (Z.to_nat (Z.of_nat k + 1)) with (S k) by lia.
  change (elems (flat (S n) (S k) (fun m => g (m / S k) (m mod S k))) (S n) (S k) g).
  destruct (flat_fits (S n) (S k) (fun m => g (m / S k) (m mod S k))) as (? & ? & ?). repeat split; auto. intros i j Hi Hj. rewrite flat_rget' by auto.
  replace (i * S k + j) with (j + i * S k) by lia. rewrite Nat.div_add, Nat.mod_add, Nat.div_small, Nat.mod_small by lia. reflexivity.
Qed.
Lemma dim_of small big s : (s <> 0)%Z -> let d := (Z.of_nat big - Z.of_nat small)%Z in Z.rem d s = 0%Z ->
  steps_to small big s \/ (Z.quot d s + 1 <= 0)%Z \/ (0 <= Z.quot d s /\ d < 0)%Z.
Proof.
  intros Hz d R0. pose proof (Z.quot_rem d s Hz) as Q. rewrite R0, Z.add_0_r in Q. set (q := Z.quot d s) in *.
  destruct (Z.le_gt_cases (q + 1) 0); [auto|]. destruct (Z.lt_ge_cases d 0); [right; right; lia|]. left. split; [auto|].
  destruct (Z.eq_dec q 0) as [Q0|]; [left; rewrite Q0 in Q; lia|]. right. split; [nia|]. exists (Z.to_nat q). rewrite Z2Nat.id by lia. unfold d in Q. lia.
Qed.
Lemma each_empty {A B} (l : list A) : each (fun _ => each (fun b : B => @None mat) (@nil B)) l = Some (map (fun _ => []) l).
Proof. induction l; cbn; [reflexivity|]. cbn in IHl. now rewrite IHl. Qed.
Lemma concat_empty {A B} (l : list A) : concat (map (fun _ => @nil B) l) = [].
Proof. induction l; auto. Qed.
Lemma conv2d_panics : conv2d w x xs ys = None <-> ~ (steps_to (rows w) (rows x) xs /\ steps_to (cols w) (cols x) ys).
Proof.
  split.
  - intros E ((Hx & Sx) & (Hy & Sy)).
    assert (X : exists n, (0 < xs \/ n = 0%nat /\ xs <> 0)%Z /\ Z.of_nat (rows x) = (Z.of_nat (rows w) + Z.of_nat n * xs)%Z) by (destruct Sx as [?|(Hs & n & ?)]; [exists 0; lia|exists n; auto]).
    assert (Y : exists n, (0 < ys \/ n = 0%nat /\ ys <> 0)%Z /\ Z.of_nat (cols x) = (Z.of_nat (cols w) + Z.of_nat n * ys)%Z) by (destruct Sy as [?|(Hs & n & ?)]; [exists 0; lia|exists n; auto]).
    destruct X as (n & ? & ?), Y as (k & ? & ?). destruct (conv2d_steps n k) as (y & Ey & _); auto. congruence.
  - intros N. unfold conv2d. destruct (Z.eqb_spec xs 0) as [?|Hzx]; [reflexivity|]. set (dr := (Z.of_nat (rows x) - Z.of_nat (rows w))%Z). set (dc := (Z.of_nat (cols x) - Z.of_nat (cols w))%Z).
    destruct (Z.eqb_spec (Z.rem dr xs) 0) as [Rx|]; [|reflexivity]. cbn [negb]. destruct (Z.eqb_spec ys 0) as [?|Hzy]; [reflexivity|].
    destruct (Z.eqb_spec (Z.rem dc ys) 0) as [Ry|]; [|reflexivity]. cbn [negb].
    assert (Z0 : forall z, (z <= 0)%Z -> Z.to_nat z = 0) by lia.
    assert (F : forall g, (Z.quot dr xs + 1 <= 0)%Z \/ (Z.quot dc ys + 1 <= 0)%Z -> 
      (do out <- each (fun i => each (g i) (seq 0 (Z.to_nat (Z.quot dc ys + 1)))) (seq 0 (Z.to_nat (Z.quot dr xs + 1)));
       do y <- fwd concat_fn (concat out); fwd (reshape_fn (Z.quot dr xs + 1) (Z.quot dc ys + 1)) [y]) = None).
    { intros g [H|H]; rewrite (Z0 _ H); cbn [seq]; [reflexivity|]. 
      rewrite (each_map _ (fun _ => [])) by reflexivity. cbn [bind]. rewrite concat_empty. reflexivity. }
    destruct (dim_of (rows w) (rows x) xs Hzx Rx) as [Sx|[Sx|[Qx Dx]]]; [| |].
    + destruct (dim_of (cols w) (cols x) ys Hzy Ry) as [Sy|[Sy|[Qy Dy]]]; [tauto|apply F; auto|].
      destruct (Z.le_gt_cases (Z.quot dr xs + 1) 0); [apply F; auto|].
      rewrite (each_none _ _ 0); [reflexivity|apply in_seq; lia|]. rewrite (each_none _ _ 0); [reflexivity|apply in_seq; fold dc in Qy; lia|]. apply window_dot_fails. lia.
    + apply F. auto.
    + destruct (Z.le_gt_cases (Z.quot dc ys + 1) 0); [apply F; auto|].
      rewrite (each_none _ _ 0); [reflexivity|apply in_seq; fold dr in Qx; lia|]. rewrite (each_none _ _ 0); [reflexivity|apply in_seq; lia|]. apply window_dot_fails. lia.
Qed.
End Two.
