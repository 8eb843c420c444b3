(** * Values of the functions, as equations between matrices given by flat element functions *)
From Coq Require Import Reals List Arith Bool ZArith Lia Lra.
From Coquelicot Require Import Coquelicot.
From Verif Require Import DenseModel DenseSpec DenseLemmas DenseProofs DenseProofs2 ArithModel ArithSpec ArithProofs GradModel GradSpec GradLemmas GradProofs GradProofs2 GradProofs4 GradProofs5 GradProofs6 GradProofs7 GradProofs8 GradProofs9 GradProofs10 OpsModel.
Import ListNotations.
Open Scope R_scope.

(** the r×c matrix whose data are f 0, f 1, ... *)
Definition flat (r c : nat) (f : nat -> R) : mat := mkDense r c (map f (seq 0 (r * c))).

Lemma flat_fits r c f : fits (flat r c f) r c.
Proof. apply fits_mk. now rewrite map_length, seq_length. Qed.
Lemma flat_nth r c f k : (k < r * c)%nat -> nth k (data (flat r c f)) 0 = f k.
Proof. intros H. cbn. now rewrite nth_map_seq. Qed.
Lemma flat_rget' r c f i j : (i < r)%nat -> (j < c)%nat -> rget (flat r c f) i j = f (i * c + j)%nat.
Proof. intros Hi Hj. rewrite (rget_flat _ r c) by auto using flat_fits. apply flat_nth. nia. Qed.
Lemma flat_ext r c f g : (forall k, (k < r * c)%nat -> f k = g k) -> flat r c f = flat r c g.
Proof. intros H. unfold flat. f_equal. apply map_ext_in. intros k Hk. apply in_seq in Hk. apply H. lia. Qed.
Lemma flat_self x r c : fits x r c -> x = flat r c (fun k => nth k (data x) 0).
Proof.
  intros H. pose proof (fits_len _ _ _ H) as L. destruct H as (_ & Hr & Hc). destruct x as [r' c' d]. cbn in *. subst r' c'. unfold flat. f_equal.
  rewrite <- L. apply (List.nth_ext _ _ 0 0); [now rewrite map_length, seq_length|]. intros n Hn. now rewrite nth_map_seq.
Qed.
Lemma elems_flat m r c h f : elems m r c h -> (forall i j, (i < r)%nat -> (j < c)%nat -> h i j = f (i * c + j)%nat) -> m = flat r c f.
Proof.
  intros H E. apply (mat_ext m (flat r c f) r c h (rget (flat r c f))); auto.
  - apply fits_elems, flat_fits.
  - intros i j Hi Hj. rewrite flat_rget' by auto. auto.
Qed.
Lemma scalar_flat v : scalar v = flat 1 1 (fun _ => v).
Proof. reflexivity. Qed.
Lemma flat_1 f : flat 1 1 f = scalar (f 0%nat).
Proof. reflexivity. Qed.

Ltac flat_op lem := destruct lem as (?m & E & He); [apply flat_fits|apply flat_fits|]; first [rewrite E|cbn; rewrite E]; f_equal;
  apply (elems_flat _ _ _ _ _ He); intros; cbv beta; rewrite !flat_rget' by auto; auto.
Section Values.
Variables (r c : nat).
Lemma v_add f g : fwd add_fn [flat r c f; flat r c g] = Some (flat r c (fun k => f k + g k)).
Proof. flat_op (m_add_elems (flat r c f) (flat r c g) r c). Qed.
Lemma v_sub f g : fwd sub_fn [flat r c f; flat r c g] = Some (flat r c (fun k => f k - g k)).
Proof. flat_op (m_sub_elems (flat r c f) (flat r c g) r c). Qed.
Lemma v_prod f g : fwd prod_fn [flat r c f; flat r c g] = Some (flat r c (fun k => f k * g k)).
Proof. flat_op (m_prod_elems (flat r c f) (flat r c g) r c). Qed.
Lemma v_div f g : fwd div_fn [flat r c f; flat r c g] = Some (flat r c (fun k => f k / g k)).
Proof. flat_op (m_div_elems (flat r c f) (flat r c g) r c). Qed.
Lemma v_max f g : fwd max_fn [flat r c f; flat r c g] = Some (flat r c (fun k => Rmax (f k) (g k))).
Proof. flat_op (max_value (flat r c f) (flat r c g) r c). Qed.
Lemma v_min f g : fwd min_fn [flat r c f; flat r c g] = Some (flat r c (fun k => Rmin (f k) (g k))).
Proof. flat_op (min_value (flat r c f) (flat r c g) r c). Qed.

Ltac flat_un lem := cbn; f_equal; apply (elems_flat _ _ _ _ _ lem); intros; cbv beta; rewrite !flat_rget' by auto; auto.
Lemma v_adds f s : fwd add_scalar_fn [flat r c f; scalar s] = Some (flat r c (fun k => f k + s)).
Proof. flat_un (m_adds_elems (flat r c f) s r c (flat_fits r c f)). Qed.
Lemma v_subs f s : fwd sub_scalar_fn [flat r c f; scalar s] = Some (flat r c (fun k => f k - s)).
Proof. flat_un (m_subs_elems (flat r c f) s r c (flat_fits r c f)). Qed.
Lemma v_prods f s : fwd prod_scalar_fn [flat r c f; scalar s] = Some (flat r c (fun k => f k * s)).
Proof. flat_un (m_prods_elems (flat r c f) s r c (flat_fits r c f)). Qed.
Lemma v_divs f s : fwd div_scalar_fn [flat r c f; scalar s] = Some (flat r c (fun k => f k / s)).
Proof. cbn; f_equal. apply (elems_flat _ _ _ _ _ (m_prods_elems (flat r c f) (1 / s) r c (flat_fits r c f))). intros. rewrite flat_rget' by auto. unfold Rdiv. ring. Qed.
Lemma v_rsub f s : fwd reverse_sub_fn [flat r c f; scalar s] = Some (flat r c (fun k => s - f k)).
Proof.
  cbn. f_equal. pose proof (m_prods_elems (flat r c f) (-1) r c (flat_fits r c f)) as E.
  apply (elems_flat _ _ _ _ _ (m_adds_in_elems _ s r c (elems_fits _ _ _ _ E))). intros i j Hi Hj. rewrite (rget_elems _ _ _ _ i j E), flat_rget' by auto. ring.
Qed.
Lemma v_exp f : fwd exp_fn [flat r c f] = Some (flat r c (fun k => exp (f k))).
Proof. flat_un (m_unary_elems exp (flat r c f) r c (flat_fits r c f)). Qed.
Lemma v_log f : fwd log_fn [flat r c f] = Some (flat r c (fun k => ln (f k))).
Proof. flat_un (m_unary_elems ln (flat r c f) r c (flat_fits r c f)). Qed.
Lemma v_sqrt f : fwd sqrt_fn [flat r c f] = Some (flat r c (fun k => sqrt (f k))).
Proof. flat_un (m_unary_elems sqrt (flat r c f) r c (flat_fits r c f)). Qed.
Lemma v_pow p f : fwd (pow_fn p) [flat r c f] = Some (flat r c (fun k => go_pow (f k) p)).
Proof. flat_un (m_unary_elems (fun v => go_pow v p) (flat r c f) r c (flat_fits r c f)). Qed.
Lemma v_unary h dh f : fwd (unary_fn h dh) [flat r c f] = Some (flat r c (fun k => h (f k))).
Proof. flat_un (m_apply_elems h (flat r c f) r c (flat_fits r c f)). Qed.
Lemma v_abs f : fwd abs_fn [flat r c f] = Some (flat r c (fun k => Rabs (f k))).
Proof. apply v_unary. Qed.
Lemma v_neg f : fwd neg_fn [flat r c f] = Some (flat r c (fun k => - f k)).
Proof. apply (v_unary (fun v => - v)). Qed.
Lemma v_unary1 h dh f s : fwd (unary1_fn h dh) [flat r c f; scalar s] = Some (flat r c (fun k => h s (f k))).
Proof. flat_un (m_apply_elems (h s) (flat r c f) r c (flat_fits r c f)). Qed.
Lemma v_copy f : fwd copy_fn [flat r c f] = Some (flat r c f).
Proof. reflexivity. Qed.
Lemma flat_sum f : mat_sum 0 Rplus (flat r c f) = Rsum (r * c) f.
Proof.
  rewrite (mat_sum_elems _ r c (fun i j => f (i * c + j)%nat)).
  - symmetry. rewrite Rsum_flat. apply Rsum_ext. intros i Hi. apply Rsum_ext. intros j Hj. reflexivity.
  - eapply elems_ext; [apply fits_elems, flat_fits|]. intros. apply flat_rget'; auto.
Qed.
Lemma v_sum f : fwd reduce_sum_fn [flat r c f] = Some (scalar (Rsum (r * c) f)).
Proof. cbn. unfold m_sum. now rewrite flat_sum. Qed.
Lemma v_mean f : fwd reduce_mean_fn [flat r c f] = Some (scalar (Rsum (r * c) f / INR (r * c))).
Proof. cbn -[INR]. unfold m_sum. rewrite flat_sum, m_prods_in_scalar, map_length, seq_length. do 2 f_equal. unfold Rdiv. ring. Qed.
Lemma v_square f : ag_square (flat r c f) = Some (flat r c (fun k => f k * f k)).
Proof. apply v_prod. Qed.
End Values.

Section Scalars.
Lemma s_add a b : fwd add_fn [scalar a; scalar b] = Some (scalar (a + b)).
Proof. apply (v_add 1 1 (fun _ => a) (fun _ => b)). Qed.
Lemma s_sub a b : fwd sub_fn [scalar a; scalar b] = Some (scalar (a - b)).
Proof. apply (v_sub 1 1 (fun _ => a) (fun _ => b)). Qed.
Lemma s_prod a b : fwd prod_fn [scalar a; scalar b] = Some (scalar (a * b)).
Proof. apply (v_prod 1 1 (fun _ => a) (fun _ => b)). Qed.
Lemma s_square a : ag_square (scalar a) = Some (scalar (a * a)).
Proof. apply s_prod. Qed.
Lemma s_adds a b : fwd add_scalar_fn [scalar a; scalar b] = Some (scalar (a + b)).
Proof. apply (v_adds 1 1 (fun _ => a)). Qed.
Lemma s_subs a b : fwd sub_scalar_fn [scalar a; scalar b] = Some (scalar (a - b)).
Proof. apply (v_subs 1 1 (fun _ => a)). Qed.
Lemma s_rsub a b : fwd reverse_sub_fn [scalar a; scalar b] = Some (scalar (b - a)).
Proof. apply (v_rsub 1 1 (fun _ => a)). Qed.
Lemma s_prods a b : fwd prod_scalar_fn [scalar a; scalar b] = Some (scalar (a * b)).
Proof. apply (v_prods 1 1 (fun _ => a)). Qed.
Lemma s_divs a b : fwd div_scalar_fn [scalar a; scalar b] = Some (scalar (a / b)).
Proof. apply (v_divs 1 1 (fun _ => a)). Qed.
Lemma s_exp a : fwd exp_fn [scalar a] = Some (scalar (exp a)).
Proof. apply (v_exp 1 1 (fun _ => a)). Qed.
Lemma s_log a : fwd log_fn [scalar a] = Some (scalar (ln a)).
Proof. apply (v_log 1 1 (fun _ => a)). Qed.
Lemma s_sqrt a : fwd sqrt_fn [scalar a] = Some (scalar (sqrt a)).
Proof. apply (v_sqrt 1 1 (fun _ => a)). Qed.
Lemma s_pow p a : fwd (pow_fn p) [scalar a] = Some (scalar (go_pow a p)).
Proof. apply (v_pow 1 1 p (fun _ => a)). Qed.
Lemma s_neg a : fwd neg_fn [scalar a] = Some (scalar (- a)).
Proof. apply (v_neg 1 1 (fun _ => a)). Qed.
Lemma s_abs a : fwd abs_fn [scalar a] = Some (scalar (Rabs a)).
Proof. apply (v_abs 1 1 (fun _ => a)). Qed.
Lemma fits_scalar x : fits x 1 1 -> x = scalar (rget x 0 0).
Proof. intros H. rewrite (flat_self x 1 1 H) at 1. rewrite flat_1. f_equal. symmetry. rewrite (rget_flat x 1 1) by auto. reflexivity. Qed.
End Scalars.

Ltac step := first
  [ rewrite s_add | rewrite s_sub | rewrite s_prod | rewrite s_square | rewrite s_adds | rewrite s_subs | rewrite s_rsub | rewrite s_prods | rewrite s_divs
  | rewrite s_exp | rewrite s_log | rewrite s_sqrt | rewrite s_pow | rewrite s_neg | rewrite s_abs
  | rewrite v_add | rewrite v_sub | rewrite v_prod | rewrite v_div | rewrite v_max | rewrite v_min | rewrite v_adds | rewrite v_subs | rewrite v_rsub | rewrite v_prods | rewrite v_divs
  | rewrite v_exp | rewrite v_log | rewrite v_sqrt | rewrite v_pow | rewrite v_neg | rewrite v_abs | rewrite v_sum | rewrite v_mean | rewrite v_square]; cbn [bind].
Ltac steps := repeat step.

Lemma v_at1 x i : wf x -> is_vector x = true -> (i < length (data x))%nat -> fwd (at_fn [Z.of_nat i]) [x] = Some (scalar (nth i (data x) 0)).
Proof. intros Hw Hv Hi. cbn. rewrite at_vector by auto. reflexivity. Qed.
