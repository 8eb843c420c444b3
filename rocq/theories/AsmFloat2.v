(** * Proofs: when rounded sums do not overflow, and that NaNs stay *)
From Coq Require Import ZArith Bool Lia List Permutation Reals Lra.
From Flocq Require Import Core BinarySingleNaN.
From Verif Require Import FloatModel FloatSpec FloatProofs NumModel NumSpec NumLemmas AsmModel AsmSpec AsmCalls AsmFloatSpec AsmFloat.
Import ListNotations.
Open Scope R_scope.

Lemma rep_largest d : rep d (largest d).
Proof.
  apply (rep_dyadic d (2 ^ prec d - 1) (emax d - prec d)).
  - rewrite minus_IZR. unfold largest. destruct d; rewrite !pow2; cbn [prec emax]; [change (IZR (2 ^ 24)) with (IZR (Zpower radix2 24))|change (IZR (2 ^ 53)) with (IZR (Zpower radix2 53))]; rewrite IZR_Zpower by lia; reflexivity.
  - destruct d; cbn; lia.
  - destruct d; cbn; lia.
  - destruct d; cbn; lia.
Qed.
Lemma fma_in d (x y z : val d) l h : finite x -> finite y -> finite z -> rep d l -> rep d h -> l <= real x * real y + real z <= h -> finite (ffma x y z).
Proof.
  intros Fx Fy Fz Rl Rh B. destruct (between d l _ h Rl Rh B) as ((N & L) & Q).
  pose proof (@Bfma_correct (prec d) (emax d) (prec_pos d) (prec_emax d) mode_NE x y z Fx Fy Fz) as C. cbv zeta in C. rewrite <- nearest_eq, <- limit_eq, Rlt_bool_true in C by exact L.
  exact (proj1 (proj2 C)).
Qed.
Section Finite.
Variable d : dtype.
(** how large a dot product of n terms can be *)
Definition size (n : nat) (a : R) : R := (1 + gamma d n) * a + INR n * (1 + gamma d n) * half_tiny d.
Lemma size_mono n m a : (n <= m)%nat -> 0 <= a -> size n a <= size m a.
Proof.
  intros H Pa. unfold size. pose proof (gamma_le d n m H) as G. pose proof (gamma_pos d n) as Gn. pose proof (half_tiny_pos d) as Hh. pose proof (pos_INR n) as In. pose proof (le_INR n m H) as I.
  apply Rplus_le_compat; [apply Rmult_le_compat_r; lra|]. apply Rmult_le_compat_r; [lra|]. apply Rmult_le_compat; lra.
Qed.
Lemma size_add n m a b : 0 <= a -> 0 <= b -> size n a + size m b <= size (n + m) (a + b).
Proof.
  intros Pa Pb. unfold size. rewrite plus_INR. pose proof (gamma_le d n (n + m) ltac:(lia)) as G1. pose proof (gamma_le d m (n + m) ltac:(lia)) as G2.
  pose proof (half_tiny_pos d) as Hh. pose proof (pos_INR n) as In. pose proof (pos_INR m) as Im. set (g := gamma d (n + m)) in *. set (g1 := gamma d n) in *. set (g2 := gamma d m) in *.
  assert (H1 : g1 * a <= g * a) by (apply Rmult_le_compat_r; lra). assert (H2 : g2 * b <= g * b) by (apply Rmult_le_compat_r; lra).
  assert (H3 : INR n * (1 + g1) * half_tiny d <= INR n * (1 + g) * half_tiny d) by (apply Rmult_le_compat_r; [lra|]; apply Rmult_le_compat_l; lra).
  assert (H4 : INR m * (1 + g2) * half_tiny d <= INR m * (1 + g) * half_tiny d) by (apply Rmult_le_compat_r; [lra|]; apply Rmult_le_compat_l; lra).
  lra.
Qed.
Lemma size_pos n a : 0 <= a -> a <= size n a.
Proof.
  intros Pa. unfold size. pose proof (gamma_pos d n) as G. pose proof (half_tiny_pos d) as Hh. pose proof (pos_INR n) as In.
  assert (0 <= gamma d n * a) by (apply Rmult_le_pos; lra). assert (0 <= INR n * (1 + gamma d n) * half_tiny d) by (apply Rmult_le_pos; [apply Rmult_le_pos; lra|lra]). lra.
Qed.
Lemma dot_size v l : dot_of (floats d) v l -> finite v -> Rabs (real v) <= size (length l) (product_abs l).
Proof.
  intros H F. destruct (dot_error d v l H F) as (_ & E). unfold dbound in E. pose proof (product_le d l) as P. unfold size.
  replace (real v) with ((real v - product l) + product l) by ring. eapply Rle_trans; [apply Rabs_triang|]. lra.
Qed.
Theorem dot_finite v l : dot_of (floats d) v l -> Forall (fun p => finite (fst p) /\ finite (snd p)) l -> size (length l) (product_abs l) <= largest d -> finite v.
Proof.
  pose proof (rep_largest d) as T. pose proof (rep_opp d _ T) as T'.
  induction 1 as [|x y|a b l k m Sa IHa Sb IHb P|a x y l m Sa IHa P]; intros F B.
  - reflexivity.
  - inversion F as [|? ? (Fx & Fy) _]. subst. cbn [fst snd] in *. cbn [bin floats].
    apply (mul_in d x y (- largest d) (largest d) Fx Fy T' T). apply Rabs_le_inv. eapply Rle_trans; [|exact B]. eapply Rle_trans; [|apply size_pos; apply product_abs_pos].
    unfold product_abs. cbn [fold_right fst snd]. lra.
  - rewrite <- (product_abs_perm _ _ _ P), <- (Permutation_length P), product_abs_app, app_length in B.
    pose proof (product_abs_pos d l) as Pl. pose proof (product_abs_pos d k) as Pk. pose proof (size_add (length l) (length k) _ _ Pl Pk) as Ad.
    pose proof (size_pos (length l) _ Pl) as Sl. pose proof (size_pos (length k) _ Pk) as Sk.
    apply Permutation_sym in P. eapply Permutation_Forall in F; [|exact P]. apply Forall_app in F. destruct F as (Fl & Fk).
    assert (Fa : finite a) by (apply IHa; [exact Fl|lra]). assert (Fb : finite b) by (apply IHb; [exact Fk|lra]).
    pose proof (dot_size a l Sa Fa). pose proof (dot_size b k Sb Fb). cbn [bin floats].
    apply (add_in d a b (- largest d) (largest d) Fa Fb T' T). apply Rabs_le_inv. eapply Rle_trans; [apply Rabs_triang|]. lra.
  - rewrite <- (product_abs_perm _ _ _ P), <- (Permutation_length P), product_abs_app, app_length in B. cbn [length] in B. unfold product_abs in B at 2. cbn [fold_right fst snd] in B. rewrite Rplus_0_r in B.
    pose proof (product_abs_pos d l) as Pl. pose proof (Rabs_pos (real x * real y)) as Pk. pose proof (size_add (length l) 1 _ _ Pl Pk) as Ad.
    pose proof (size_pos 1 _ Pk) as Sk.
    apply Permutation_sym in P. eapply Permutation_Forall in F; [|exact P]. apply Forall_app in F. destruct F as (Fl & Fk). inversion Fk as [|? ? (Fx & Fy) _]. subst. cbn [fst snd] in *.
    assert (Fa : finite a) by (apply IHa; [exact Fl|lra]). pose proof (dot_size a l Sa Fa). cbn [fma floats].
    apply (fma_in d x y a (- largest d) (largest d) Fx Fy Fa T' T). apply Rabs_le_inv. eapply Rle_trans; [apply Rabs_triang|]. lra.
Qed.
Lemma sum_size v l : sum_of (floats d) v l -> finite v -> Rabs (real v) <= (1 + gamma d (length l)) * total_abs l.
Proof.
  intros H F. destruct (sum_error d v l H F) as (_ & E). pose proof (total_le d l) as P. pose proof (gamma_le d (length l - 1) (length l) ltac:(lia)) as G. pose proof (total_abs_pos d l) as Pt.
  assert (gamma d (length l - 1) * total_abs l <= gamma d (length l) * total_abs l) by (apply Rmult_le_compat_r; lra).
  replace (real v) with ((real v - total l) + total l) by ring. eapply Rle_trans; [apply Rabs_triang|]. lra.
Qed.
Theorem sum_finite v l : sum_of (floats d) v l -> Forall finite l -> (1 + gamma d (length l)) * total_abs l <= largest d -> finite v.
Proof.
  pose proof (rep_largest d) as T. pose proof (rep_opp d _ T) as T'.
  induction 1 as [|x|a b l k m Sa IHa Sb IHb P]; intros F B.
  - reflexivity.
  - now inversion F.
  - rewrite <- (total_abs_perm _ _ _ P), <- (Permutation_length P), total_abs_app, app_length in B.
    pose proof (total_abs_pos d l) as Pl. pose proof (total_abs_pos d k) as Pk.
    pose proof (gamma_le d (length l) (length l + length k) ltac:(lia)) as G1. pose proof (gamma_le d (length k) (length l + length k) ltac:(lia)) as G2. set (g := gamma d (length l + length k)) in *.
    assert (H1 : (1 + gamma d (length l)) * total_abs l <= (1 + g) * total_abs l) by (apply Rmult_le_compat_r; lra).
    assert (H2 : (1 + gamma d (length k)) * total_abs k <= (1 + g) * total_abs k) by (apply Rmult_le_compat_r; lra).
    pose proof (gamma_pos d (length l)) as Gl. pose proof (gamma_pos d (length k)) as Gk.
    assert (0 <= (1 + g) * total_abs l) by (apply Rmult_le_pos; lra). assert (0 <= (1 + g) * total_abs k) by (apply Rmult_le_pos; lra).
    apply Permutation_sym in P. eapply Permutation_Forall in F; [|exact P]. apply Forall_app in F. destruct F as (Fl & Fk).
    assert (Fa : finite a) by (apply IHa; [exact Fl|lra]). assert (Fb : finite b) by (apply IHb; [exact Fk|lra]).
    pose proof (sum_size a l Sa Fa). pose proof (sum_size b k Sb Fb). cbn [bin floats].
    apply (add_in d a b (- largest d) (largest d) Fa Fb T' T). apply Rabs_le_inv. eapply Rle_trans; [apply Rabs_triang|]. lra.
Qed.

(** ** NaN *)
Lemma add_nan (x y : val d) : is_nan x = true \/ is_nan y = true -> fadd x y = B754_nan.
Proof. unfold fadd. destruct x, y; intros [H|H]; try discriminate; reflexivity. Qed.
Lemma fma_nan_add (x y z : val d) : is_nan z = true -> ffma x y z = B754_nan.
Proof. unfold ffma. destruct x, y, z; intros H; try discriminate; reflexivity. Qed.
Lemma fma_nan_mul (x y z : val d) : fmul x y = B754_nan -> ffma x y z = B754_nan.
Proof.
  intros H. destruct (is_finite x && is_finite y) eqn:E.
  - apply andb_true_iff in E. destruct E as (Ex & Ey). pose proof (mul_number d x y Ex Ey) as N. rewrite H in N. discriminate.
  - unfold fmul, ffma in *. destruct x, y; try discriminate; destruct z; reflexivity.
Qed.
Theorem dot_nan v l : dot_of (floats d) v l -> Exists (fun p => fmul (fst p) (snd p) = B754_nan) l -> v = B754_nan.
Proof.
  induction 1 as [|x y|a b l k m Sa IHa Sb IHb P|a x y l m Sa IHa P]; intros H.
  - inversion H.
  - inversion H as [? ? Q|? ? Q]; [exact Q|inversion Q].
  - apply Permutation_sym in P. apply Exists_exists in H. destruct H as (p & Hp & E). eapply Permutation_in in Hp; [|exact P]. apply in_app_iff in Hp. cbn [bin floats]. destruct Hp as [Hp|Hp].
    + apply add_nan. left. rewrite IHa; [reflexivity|]. apply Exists_exists. eauto.
    + apply add_nan. right. rewrite IHb; [reflexivity|]. apply Exists_exists. eauto.
  - apply Permutation_sym in P. apply Exists_exists in H. destruct H as (p & Hp & E). eapply Permutation_in in Hp; [|exact P]. apply in_app_iff in Hp. cbn [fma floats]. destruct Hp as [Hp|[<-|[]]].
    + apply fma_nan_add. rewrite IHa; [reflexivity|]. apply Exists_exists. eauto.
    + now apply fma_nan_mul.
Qed.
End Finite.
