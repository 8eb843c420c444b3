(** * The threshold of SparseMax *)
From Coq Require Import Reals List Arith Bool ZArith Lia Lra Psatz Permutation.
From Verif Require Import DenseModel DenseSpec ArithModel ArithSpec ArithProofs GradModel GradSpec GradLemmas GradProofs6 GradProofs9 OpsModel OpsSpec OpsLemmas OpsProofs AttSpec AttProofs SparseModel SparseSpec.
Import ListNotations.
Open Scope R_scope.

(** ** Sorting *)
Definition lsum (f : R -> R) (l : list R) : R := fold_right (fun v s => f v + s) 0 l.
Lemma lsum_perm f l l' : Permutation l l' -> lsum f l = lsum f l'.
Proof. unfold lsum. induction 1; cbn; lra. Qed.
Lemma lsum_Rsum f l : lsum f l = Rsum (length l) (fun i => f (nth i l 0)).
Proof. induction l as [|v l IH]; [reflexivity|]. cbn [length]. rewrite Rsum_S. cbn [lsum fold_right nth]. fold (lsum f l). now rewrite IH. Qed.
Lemma insert_perm v l : Permutation (v :: l) (insert_desc v l).
Proof. induction l as [|w l IH]; [auto|]. cbn. destruct (Rltb v w); [|auto]. eapply perm_trans; [apply perm_swap|]. now constructor. Qed.
Lemma sort_perm l : Permutation l (sort_desc l).
Proof. induction l as [|v l IH]; [auto|]. cbn. eapply perm_trans; [|apply insert_perm]. now constructor. Qed.
Definition desc (l : list R) : Prop := forall i j, (i <= j < length l)%nat -> nth j l 0 <= nth i l 0.
Lemma desc_cons v l : desc (v :: l) <-> (forall w, In w l -> w <= v) /\ desc l.
Proof.
  split.
  - intros D. split.
    + intros w Hw. destruct (In_nth _ _ 0 Hw) as (j & Hj & <-). apply (D 0%nat (S j)). cbn. lia.
    + intros i j Hij. apply (D (S i) (S j)). cbn. lia.
  - intros (A & D) [|i] [|j] Hij; cbn in *; try lra; try lia. + apply A. apply nth_In. lia. + apply D. lia.
Qed.
Lemma insert_desc_ok v l : desc l -> desc (insert_desc v l).
Proof.
  induction l as [|w l IH]; intros D; cbn.
  - apply desc_cons. split; [now intros w []|intros i j H; cbn in H; lia].
  - apply desc_cons in D. destruct D as (A & D). unfold Rltb. destruct (Rlt_dec v w) as [L|L].
    + apply desc_cons. split; [|auto]. intros u Hu. apply (Permutation_in _ (Permutation_sym (insert_perm v l))) in Hu. destruct Hu as [<-|Hu]; [lra|auto].
    + apply desc_cons. split; [|now apply desc_cons]. intros u [<-|Hu]; [lra|]. specialize (A u Hu). lra.
Qed.
Lemma sort_desc_ok l : desc (sort_desc l).
Proof. induction l as [|v l IH]; [intros i j H; cbn in H; lia|]. now apply insert_desc_ok. Qed.
Lemma sort_length l : length (sort_desc l) = length l.
Proof. symmetry. apply Permutation_length, sort_perm. Qed.
(** a descending rearrangement is unique, so any sorting method gives the same list *)
Lemma desc_unique l l' : Permutation l l' -> desc l -> desc l' -> l = l'.
Proof.
  revert l'. induction l as [|v l IH]; intros l' P D D'; [symmetry; now apply Permutation_nil|].
  destruct l' as [|w l']; [apply Permutation_sym, Permutation_nil in P; discriminate|].
  apply desc_cons in D, D'. destruct D as (A & D), D' as (A' & D').
  assert (E : v = w).
  { apply Rle_antisym.
    - destruct (Permutation_in v P (or_introl eq_refl)) as [->|H]; [lra|auto].
    - destruct (Permutation_in w (Permutation_sym P) (or_introl eq_refl)) as [->|H]; [lra|auto]. }
  subst w. f_equal. apply IH; auto. now apply Permutation_cons_inv in P.
Qed.

Lemma Rsum_pos_one n f k : (forall i, (i < n)%nat -> 0 <= f i) -> (k < n)%nat -> 0 < f k -> 0 < Rsum n f.
Proof.
  intros N Hk P. induction n as [|n IH]; [lia|]. rewrite Rsum_r. assert (0 <= Rsum n f) by (apply Rsum_nonneg; auto). assert (0 <= f n) by auto.
  destruct (Nat.eq_dec k n) as [->|]; [lra|]. assert (0 < Rsum n f) by (apply IH; [auto|lia]). lra.
Qed.
Lemma Rsum_some n f : (forall i, (i < n)%nat -> 0 <= f i) -> 0 < Rsum n f -> exists i, (i < n)%nat /\ 0 < f i.
Proof.
  intros N P. induction n as [|n IH]; [unfold Rsum in P; cbn in P; lra|]. rewrite Rsum_r in P. assert (0 <= f n) by auto.
  destruct (Req_dec (f n) 0) as [E|]; [|exists n; split; [lia|lra]]. destruct IH as (i & Hi & Pi); [auto|lra|]. exists i. split; [lia|auto].
Qed.

(** ** The threshold *)
Definition threshold_of (n : nat) (x : nat -> R) (t : R) : Prop := Rsum n (fun i => Rmax 0 (x i - t)) = 1.

Section Sorted.
Variables (z : nat -> R) (n : nat).
Hypotheses (Hn : (0 < n)%nat) (Hz : forall i j, (i <= j < n)%nat -> z j <= z i).
Definition cond (i : nat) : Prop := Rsum (S i) z < 1 + INR (i + 1) * z i.
Lemma cond_0 : cond 0.
Proof. unfold cond. rewrite Rsum_S. unfold Rsum. cbn. lra. Qed.
Lemma cond_down i : (S i < n)%nat -> cond (S i) -> cond i.
Proof.
  unfold cond. intros Hi H. rewrite (Rsum_r (S i)) in H. assert (Z : z (S i) <= z i) by (apply Hz; lia).
  replace (INR (S i + 1)) with (INR (i + 1) + 1) in H by (rewrite <- S_INR; f_equal; lia). pose proof (pos_INR (i + 1)). nra.
Qed.
Lemma cond_prefix : exists k, (0 < k <= n)%nat /\ forall i, (i < n)%nat -> cond i <-> (i < k)%nat.
Proof.
  assert (X : forall m, (m <= n)%nat -> (forall i, (i < m)%nat -> cond i) \/ exists k, (0 < k < m)%nat /\ forall i, (i < m)%nat -> cond i <-> (i < k)%nat).
  { induction m as [|m IH]; intros Hm; [left; lia|]. destruct (IH ltac:(lia)) as [A|(k & Hk & A)].
    - destruct (Rlt_dec (Rsum (S m) z) (1 + INR (m + 1) * z m)) as [C|C].
      + left. intros i Hi. destruct (Nat.eq_dec i m) as [->|]; [exact C|apply A; lia].
      + right. exists m. destruct m as [|m]; [exfalso; apply C, cond_0|]. split; [lia|]. intros i Hi. split.
        * intros Ci. destruct (Nat.eq_dec i (S m)) as [->|]; [now elim C|lia].
        * intros. apply A. lia.
    - right. exists k. split; [lia|]. intros i Hi. destruct (Nat.eq_dec i m) as [->|]; [|apply A; lia]. split; [|intros; lia].
      intros C. destruct m as [|m]; [lia|]. apply cond_down in C; [|lia]. apply A in C; lia. }
  destruct (X n (le_n n)) as [A|(k & Hk & A)]; [exists n; split; [lia|]; intros i Hi; split; auto|exists k; split; [lia|auto]].
Qed.
(** tau separates the first k values from the others *)
Variable k : nat.
Hypotheses (Hk : (0 < k <= n)%nat) (HC : forall i, (i < n)%nat -> cond i <-> (i < k)%nat).
Definition tau : R := (Rsum k z - 1) / INR k.
Lemma k_pos : 0 < INR k. Proof. apply lt_0_INR. lia. Qed.
Lemma tau_k : INR k * tau = Rsum k z - 1.
Proof. unfold tau. field. pose proof k_pos. lra. Qed.
Lemma above i : (i < k)%nat -> tau < z i.
Proof.
  intros Hi. assert (C : cond (k - 1)) by (apply HC; lia). unfold cond in C. replace (S (k - 1)) with k in C by lia. replace (k - 1 + 1)%nat with k in C by lia.
  assert (z (k - 1)%nat <= z i) by (apply Hz; lia). pose proof k_pos. pose proof tau_k. nra.
Qed.
Lemma below i : (k <= i < n)%nat -> z i <= tau.
Proof.
  intros Hi. assert (C : ~ cond k) by (rewrite HC by lia; lia). unfold cond in C. rewrite Rsum_r in C. replace (k + 1)%nat with (S k) in C by lia. rewrite S_INR in C.
  assert (z i <= z k) by (apply Hz; lia). pose proof k_pos. pose proof tau_k. nra.
Qed.
Lemma tau_threshold : threshold_of n z tau.
Proof.
  unfold threshold_of. replace n with (k + (n - k))%nat by lia. rewrite Rsum_split.
  rewrite (Rsum_ext k _ (fun i => z i + - tau)) by (intros i Hi; pose proof (above i Hi); rewrite Rmax_right; lra).
  rewrite (Rsum_0 (n - k)) by (intros i Hi; pose proof (below (k + i) ltac:(lia)); rewrite Rmax_left; lra).
  rewrite Rsum_plus, Rsum_const, <- Ropp_mult_distr_r, tau_k. lra.
Qed.
End Sorted.

(** ** The projection *)
Section Projection.
Variables (n : nat) (x : nat -> R) (t : R).
Hypothesis Ht : threshold_of n x t.
Definition proj (i : nat) : R := Rmax 0 (x i - t).
Lemma proj_simplex : simplex n proj.
Proof. split; [intros; apply Rmax_l|exact Ht]. Qed.
(** the variational inequality *)
Lemma proj_vi q : simplex n q -> 0 <= Rsum n (fun i => (q i - proj i) * (proj i - x i)).
Proof.
  intros (Q & S). rewrite (Rsum_ext n _ (fun i => q i * (proj i - x i + t) + (q i * - t + proj i * t))).
  - rewrite !Rsum_plus, !Rsum_mult_r, S. destruct proj_simplex as (_ & ->). assert (0 <= Rsum n (fun i => q i * (proj i - x i + t))); [|lra].
    apply Rsum_nonneg. intros i Hi. apply Rmult_le_pos; [auto|]. unfold proj. pose proof (Rmax_r 0 (x i - t)). lra.
  - intros i Hi. assert (proj i * (proj i - x i + t) = 0); [|lra]. unfold proj, Rmax. destruct (Rle_dec 0 (x i - t)); nra.
Qed.
Lemma proj_closest : projection n x proj.
Proof.
  split; [apply proj_simplex|]. intros q Q. pose proof (proj_vi q Q) as V.
  assert (E : dist2 n q x = dist2 n proj x + dist2 n q proj + 2 * Rsum n (fun i => (q i - proj i) * (proj i - x i))).
  { unfold dist2. rewrite <- Rsum_mult_l, <- !Rsum_plus. apply Rsum_ext. intros i Hi. ring. }
  assert (N : 0 <= dist2 n q proj) by (apply Rsum_nonneg; intros i _; exact (Rle_0_sqr (q i - proj i))). split; [lra|].
  intros D. assert (Z : dist2 n q proj = 0) by lra. intros i Hi. destruct (Req_dec (q i) (proj i)) as [|Ne]; [auto|]. exfalso.
  assert (0 < dist2 n q proj); [|lra]. unfold dist2. apply Rsum_pos_one with (k := i); auto. { intros j _. exact (Rle_0_sqr (q j - proj j)). } apply Rsqr_pos_lt. lra.
Qed.
End Projection.
Lemma threshold_unique n x t t' : threshold_of n x t -> threshold_of n x t' -> t = t'.
Proof.
  intros H H'.
  assert (X : forall a b, threshold_of n x a -> threshold_of n x b -> ~ a < b).
  { clear. intros a b Ha Hb L. unfold threshold_of in *. 
    assert (P : exists i, (i < n)%nat /\ 0 < Rmax 0 (x i - b)).
    { apply (Rsum_some n (fun i => Rmax 0 (x i - b))); [intros; apply Rmax_l|lra]. }
    destruct P as (i & Hi & Pi). assert (Rsum n (fun i => Rmax 0 (x i - b)) < Rsum n (fun i => Rmax 0 (x i - a))); [|lra].
    assert (D : 0 < Rsum n (fun i => Rmax 0 (x i - a) + - Rmax 0 (x i - b))).
    { apply Rsum_pos_one with (k := i); auto. - intros j Hj. unfold Rmax. destruct (Rle_dec 0 (x j - a)), (Rle_dec 0 (x j - b)); lra.
      - unfold Rmax in *. destruct (Rle_dec 0 (x i - a)), (Rle_dec 0 (x i - b)); lra. }
    rewrite Rsum_plus in D. rewrite (Rsum_ext n (fun i => - _) (fun i => Rmax 0 (x i - b) * -1)) in D by (intros; ring). rewrite Rsum_mult_r in D. lra. }
  destruct (Rtotal_order t t') as [L|[E|L]]; [elim (X t t'); auto|auto|elim (X t' t); auto].
Qed.
