(** * C49: the norm of a vector, and vectors of norm one *)
From Coq Require Import Reals List Arith Bool ZArith Lia Lra.
From Coquelicot Require Import Coquelicot.
From Verif Require Import DenseModel DenseSpec DenseLemmas ArithModel ArithSpec ArithProofs GradModel GradSpec GradLemmas GradProofs GradProofs4 GradProofs6 OpsSpec OpsLemmas NormModel.
Import ListNotations.
Open Scope R_scope.

(** |v| to the power p, and the p-norm of the entries *)
Definition abs_pow (v p : R) : R := if Req_EM_T v 0 then 0 else Rpower (Rabs v) p.
Definition p_norm (x : mat) (p : R) : R := abs_pow (total (fun v => abs_pow v p) x) (1 / p).

Lemma vec_flag (x : mat) : wf x -> (rows x = 1%nat \/ cols x = 1%nat) -> is_vector x = true.
Proof. intros Hw H. unfold is_vector. destruct (Nat.eqb_spec (rows x) 1), (Nat.eqb_spec (cols x) 1); auto; lia. Qed.
Lemma fold_total f (l : list R) : forall s, fold_left (fun s x => s + f x) l s = s + Rsum (length l) (fun k => f (nth k l 0)).
Proof.
  induction l as [|x l IH]; intros s; cbn [fold_left length]; [unfold Rsum; cbn; lra|]. rewrite IH, Rsum_S. cbn [nth]. lra.
Qed.
Lemma Rsum_nonneg n f : (forall k, (k < n)%nat -> 0 <= f k) -> 0 <= Rsum n f.
Proof. induction n as [|n IH]; intros H; [unfold Rsum; cbn; lra|]. rewrite Rsum_r. specialize (IH ltac:(auto)). specialize (H n ltac:(lia)). lra. Qed.
Lemma abs_pow_nonneg v p : 0 <= abs_pow v p.
Proof. unfold abs_pow. destruct (Req_EM_T v 0); [lra|]. left. apply exp_pos. Qed.
Lemma go_pow_abs v p : 0 < p -> 0 <= v -> go_pow v p = abs_pow v p.
Proof.
  intros Hp Hv. unfold abs_pow. destruct (Req_EM_T v 0) as [->|H].
  - unfold go_pow, Ris0. destruct (Req_EM_T p 0); [lra|]. unfold Rltb. destruct (Rlt_dec 0 0); [lra|]. destruct (Req_EM_T 0 0); [auto|congruence].
  - rewrite Rabs_pos_eq by auto. apply go_pow_pos. lra.
Qed.
Lemma go_pow_even v p : (0 < p)%Z -> Z.even p = true -> go_pow v (IZR p) = abs_pow v (IZR p).
Proof.
  intros Hp He. pose proof (IZR_lt 0 p Hp) as Hp'. destruct (Rle_dec 0 v) as [C|C]; [apply go_pow_abs; auto|].
  unfold abs_pow. destruct (Req_EM_T v 0); [lra|]. unfold go_pow, Ris0. destruct (Req_EM_T (IZR p) 0); [lra|].
  unfold Rltb. destruct (Rlt_dec 0 v); [lra|]. destruct (Req_EM_T v 0); [lra|].
  assert (E : Int_part (IZR p) = p).
  { unfold Int_part. pose proof (archimed (IZR p)) as (A1 & A2). apply eq_IZR. pose proof (tech_up (IZR p) (p + 1)) as T. rewrite <- T; [|rewrite plus_IZR; lra..].
    replace (p + 1 - 1)%Z with p by lia. reflexivity. }
  cbv zeta. rewrite E. destruct (Req_EM_T (IZR p) (IZR p)); [|congruence]. rewrite He, Rabs_left by lra. reflexivity.
Qed.
Lemma norm_at x p : wf x -> (rows x = 1%nat \/ cols x = 1%nat) -> 0 < p -> (forall k, (k < size x)%nat -> go_pow (entry x k) p = abs_pow (entry x k) p) ->
  mat_norm x p = Some (p_norm x p).
Proof.
  intros Hw Hv Hp H. unfold mat_norm. rewrite vec_flag by auto. rewrite fold_total. f_equal. unfold p_norm, total. rewrite Rplus_0_l.
  rewrite (Rsum_ext _ _ (fun k => abs_pow (entry x k) p)) by (intros k Hk; apply H; auto).
  apply go_pow_abs; [apply Rdiv_lt_0_compat; lra|]. apply Rsum_nonneg. intros; apply abs_pow_nonneg.
Qed.

(** Norm is the p-norm for even integers p, and for every p > 0 if no element is negative; off vectors it panics.
    Missing: other p with negative elements (false, C49_norm_refuted; for p not an integer the result is not a number). *)
Theorem C49_norm_partial : forall (x : mat) p, wf x ->
  (rows x = 1%nat \/ cols x = 1%nat -> 0 < p ->
     (exists n, p = IZR (2 * n)) \/ (forall k, (k < size x)%nat -> 0 <= entry x k) -> m_norm x p = Some (scalar (p_norm x p))) /\
  (~ (rows x = 1%nat \/ cols x = 1%nat) -> m_norm x p = None).
Proof.
  intros x p Hw. split.
  - intros Hv Hp H. unfold m_norm. rewrite (norm_at x p); auto. intros k Hk. destruct H as [(n & ->)|H].
    + apply go_pow_even; [apply lt_IZR; lra|]. rewrite Z.even_mul. reflexivity.
    + apply go_pow_abs; auto.
  - intros Hv. unfold m_norm, mat_norm, is_vector. destruct (Nat.eqb_spec (rows x) 1), (Nat.eqb_spec (cols x) 1); try lia. reflexivity.
Qed.
Print Assumptions C49_norm_partial.

Lemma abs_pow_2 v : abs_pow v 2 = v ^ 2.
Proof.
  unfold abs_pow. destruct (Req_EM_T v 0) as [->|H]; [lra|]. replace 2 with (INR 2) by (cbn; lra). rewrite Rpower_pow by (apply Rabs_pos_lt; auto).
  rewrite RPow_abs. apply Rabs_pos_eq. apply pow2_ge_0.
Qed.
Lemma abs_pow_half v : 0 <= v -> abs_pow v (1 / 2) = sqrt v.
Proof.
  intros Hv. unfold abs_pow. destruct (Req_EM_T v 0) as [->|H]; [rewrite sqrt_0; auto|]. rewrite Rabs_pos_eq by auto.
  replace (1 / 2) with (/ 2) by lra. apply Rpower_sqrt. lra.
Qed.
Lemma p_norm_2 x : p_norm x 2 = norm2 x.
Proof.
  unfold p_norm, norm2, total. rewrite (Rsum_ext _ _ (fun k => entry x k ^ 2)) by (intros; apply abs_pow_2).
  apply abs_pow_half. apply Rsum_nonneg. intros; apply pow2_ge_0.
Qed.
(** Norm(2) is the Euclidean norm of every vector. *)
Theorem C49_norm_2 : forall x : mat, wf x -> (rows x = 1%nat \/ cols x = 1%nat) -> m_norm x 2 = Some (scalar (norm2 x)).
Proof. intros x Hw Hv. rewrite <- p_norm_2. apply C49_norm_partial; auto; [lra|]. left. exists 1%Z. reflexivity. Qed.
Print Assumptions C49_norm_2.
(** Norm(1) adds the elements, not their absolute values: the norm of (-1, 1) is 0. *)
Theorem C49_norm_refuted : exists x, wf x /\ cols x = 1%nat /\ m_norm x 1 = Some (scalar 0) /\ p_norm x 1 = 2.
Proof.
  exists (mkDense 2 1 [-1; 1]). split; [reflexivity|]. split; [reflexivity|]. split.
  - unfold m_norm, mat_norm. cbn [is_vector rows cols Nat.eqb orb data fold_left].
    rewrite (go_pow_int (-1) 1), (go_pow_int 1 1) by (right; lia). rewrite !powerRZ_1.
    cbn [bind]. do 2 f_equal. replace (0 + -1 + 1) with 0 by lra. rewrite go_pow_abs by lra. unfold abs_pow. destruct (Req_EM_T 0 0); [auto|congruence].
  - unfold p_norm, total, size. cbn [data length]. rewrite !Rsum_S. unfold Rsum, entry. cbn [sum_to nth data]. unfold abs_pow.
    destruct (Req_EM_T (-1) 0); [lra|]. destruct (Req_EM_T 1 0); [lra|]. rewrite (Rabs_left (-1)), (Rabs_pos_eq 1), !Rpower_1 by lra.
    destruct (Req_EM_T (- -1 + (1 + 0)) 0); [lra|]. replace (1 / 1) with 1 by lra. rewrite Rabs_pos_eq, Rpower_1 by lra. lra.
Qed.
Print Assumptions C49_norm_refuted.

(** Normalize2 of a vector that is not zero has Euclidean norm 1 and the same direction; the zero vector is returned as it is. *)
Theorem C49_normalize2 : forall x : mat, wf x -> (rows x = 1%nat \/ cols x = 1%nat) -> exists y, m_normalize2 x = Some y /\
  ((exists k, (k < size x)%nat /\ entry x k <> 0) -> norm2 y = 1 /\ entries y x (fun k => entry x k / norm2 x)) /\
  ((forall k, (k < size x)%nat -> entry x k = 0) -> y = x).
Proof.
  intros x Hw Hv. unfold m_normalize2. rewrite (norm_at x 2); auto; [|lra|intros; apply (go_pow_even _ 2); [lia|reflexivity]]. cbn [bind]. rewrite p_norm_2.
  eexists. split; [reflexivity|]. split.
  - intros (k & Hk & Hne). assert (T : 0 < total (fun v => v ^ 2) x).
    { unfold total. assert (Hd : Rsum (size x) (fun j => if (j =? k)%nat then entry x j ^ 2 else 0) = entry x k ^ 2) by (apply (Rsum_delta _ k (fun j => entry x j ^ 2)); auto).
      assert (G : 0 <= Rsum (size x) (fun j => entry x j ^ 2 - (if (j =? k)%nat then entry x j ^ 2 else 0))).
      { apply Rsum_nonneg. intros j _. pose proof (pow2_ge_0 (entry x j)). destruct (j =? k)%nat; lra. }
      rewrite (Rsum_ext _ _ (fun j => entry x j ^ 2 + (-1) * (if (j =? k)%nat then entry x j ^ 2 else 0))) in G by (intros; ring).
      rewrite Rsum_plus, Rsum_mult_l, Hd in G. assert (0 < entry x k ^ 2); [|lra]. apply pow2_gt_0; auto. }
    assert (N : 0 < norm2 x) by (apply sqrt_lt_R0; auto). unfold Ris0. destruct (Req_EM_T (norm2 x) 0); [lra|].
    assert (EN : entries (m_prods x (1 / norm2 x)) x (fun k => entry x k / norm2 x)).
    { pose proof (m_prods_elems x (1 / norm2 x) _ _ (fits_wf x Hw)) as E. pose proof (elems_fits _ _ _ _ E) as F. split; [apply F|]. split; [split; apply F|].
      intros j Hj. unfold size in Hj. rewrite Hw in Hj. unfold entry. rewrite (flat_rget _ (rows x) (cols x)) by auto. destruct (idx_row _ _ _ Hj).
      destruct E as (_ & _ & _ & E). rewrite E by auto. rewrite <- (flat_rget x (rows x) (cols x)) by (auto; apply fits_wf; auto). unfold Rdiv. rewrite Rmult_1_l. reflexivity. }
    split; [|exact EN]. destruct EN as (W & (S1 & S2) & EN). unfold norm2 at 1, total.
    assert (size (m_prods x (1 / norm2 x)) = size x) as -> by (unfold size; rewrite W, Hw; congruence).
    rewrite (Rsum_ext _ _ (fun k => / norm2 x ^ 2 * entry x k ^ 2)) by (intros j Hj; rewrite EN by auto; field; lra). rewrite Rsum_mult_l. fold (total (fun v => v ^ 2) x).
    assert (E2 : norm2 x ^ 2 = total (fun v => v ^ 2) x) by (unfold norm2; apply pow2_sqrt; lra). rewrite E2, Rinv_l by lra. apply sqrt_1.
  - intros H. assert (norm2 x = 0) as ->.
    { unfold norm2, total. rewrite (Rsum_ext _ _ (fun _ => 0)) by (intros k Hk; rewrite H by auto; lra). rewrite Rsum_0 by auto. apply sqrt_0. }
    unfold Ris0. destruct (Req_EM_T 0 0); [|congruence]. unfold clone. destruct x; reflexivity.
Qed.
Print Assumptions C49_normalize2.
Example C49_norm_case : let x := mkDense 1 2 [3; -4] in wf x /\ rows x = 1%nat /\ norm2 x = 5 /\ (exists k, (k < size x)%nat /\ entry x k <> 0).
Proof.
  cbv zeta. split; [reflexivity|]. split; [reflexivity|]. split.
  - unfold norm2, total, size. cbn [data length]. rewrite !Rsum_S. unfold Rsum, entry. cbn [sum_to nth data]. replace (3 ^ 2 + ((-4) ^ 2 + 0)) with (5 ^ 2) by lra. apply sqrt_pow2. lra.
  - exists 0%nat. split; [cbn; lia|]. unfold entry. cbn. lra.
Qed.
