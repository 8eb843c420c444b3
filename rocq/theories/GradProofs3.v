(** * Element-wise functions: derivatives *)
From Coq Require Import Reals List Arith Bool ZArith Lia Lra.
From Coquelicot Require Import Coquelicot.
From Verif Require Import GradModel GradLemmas.
Import ListNotations.
Open Scope R_scope.

(** If f agrees with g on one side of a, and both have a derivative at a, it is
    the same. *)
Lemma one_side (f g : R -> R) (a d l s delta : R) : s = 1 \/ s = -1 -> 0 < delta ->
  (forall h, 0 <= h < delta -> f (a + s * h) = g (a + s * h)) ->
  is_derive g a d -> is_derive f a l -> l = d.
Proof.
  intros Hs Hd He Dg Df. pose proof (d_minus f g a l d Df Dg) as D. apply is_derive_Reals in D.
  destruct (Req_dec l d) as [|Hne]; auto. exfalso.
  destruct (D (Rabs (l - d))) as [del Hdel]; [apply Rabs_pos_lt; lra|]. pose proof (cond_pos del) as Hp.
  set (h := Rmin del delta / 2). assert (Hh : 0 < h) by (unfold h; pose proof (Rmin_pos del delta Hp Hd); lra).
  assert (Hh1 : h < del) by (unfold h; pose proof (Rmin_l del delta); lra). assert (Hh2 : h < delta) by (unfold h; pose proof (Rmin_r del delta); lra).
  specialize (Hdel (s * h)). cbv beta in Hdel. rewrite (He h) in Hdel by lra. pose proof (He 0 ltac:(lra)) as H0. rewrite Rmult_0_r, Rplus_0_r in H0. rewrite H0 in Hdel.
  assert (Rabs (s * h) < del) by (destruct Hs as [-> | ->]; [rewrite Rmult_1_l, Rabs_pos_eq; lra|rewrite Rabs_left; lra]).
  assert (s * h <> 0) by (destruct Hs as [-> | ->]; lra).
  specialize (Hdel H1 H). replace ((g (a + s * h) - g (a + s * h) - (g a - g a)) / (s * h) - (l - d)) with (- (l - d)) in Hdel by (unfold Rdiv; ring).
  rewrite Rabs_Ropp in Hdel. lra.
Qed.
Lemma left_side (f g : R -> R) (a d delta : R) : 0 < delta -> (forall v, a - delta < v <= a -> f v = g v) -> is_derive g a d -> ex_derive f a -> Derive f a = d.
Proof.
  intros Hd He Dg Df. apply (one_side f g a d (Derive f a) (-1) delta); auto; [|now apply Derive_correct].
  intros h Hh. apply He. lra.
Qed.
Lemma right_side (f g : R -> R) (a d delta : R) : 0 < delta -> (forall v, a <= v < a + delta -> f v = g v) -> is_derive g a d -> ex_derive f a -> Derive f a = d.
Proof.
  intros Hd He Dg Df. apply (one_side f g a d (Derive f a) 1 delta); auto; [|now apply Derive_correct].
  intros h Hh. apply He. lra.
Qed.
Lemma both_sides (f g : R -> R) (a d delta : R) : 0 < delta -> (forall v, a - delta < v < a + delta -> f v = g v) -> is_derive g a d -> ex_derive f a /\ Derive f a = d.
Proof.
  intros Hd He Dg. assert (is_derive f a d).
  { apply (d_near g f); auto. exists (mkposreal _ Hd). intros v Hv. symmetry. apply He. cbv in Hv. apply Rabs_def2 in Hv. lra. }
  split; [now exists d|now apply is_derive_unique].
Qed.

Ltac dec_all := unfold Rltb, Rleb; repeat match goal with
  | |- context [Rlt_dec ?a ?b] => destruct (Rlt_dec a b); try lra
  | |- context [Rle_dec ?a ?b] => destruct (Rle_dec a b); try lra end.

(** ** The functions *)
Lemma tan_d v : cos v <> 0 -> is_derive tan v (tan_deriv v).
Proof.
  intros H. unfold tan_deriv, tan. auto_derive; auto. pose proof (sin2_cos2 v) as E. unfold Rsqr in E.
  transitivity ((sin v * sin v + cos v * cos v) / (cos v * cos v)); [field; auto|now rewrite E].
Qed.
Lemma cosh_pos v : 0 < cosh v.
Proof. unfold cosh. pose proof (exp_pos v). pose proof (exp_pos (- v)). lra. Qed.
Lemma cosh2 v : cosh v * cosh v - sinh v * sinh v = 1.
Proof.
  unfold cosh, sinh. transitivity (exp v * exp (- v)); [field|]. rewrite <- exp_plus, Rplus_opp_r. apply exp_0.
Qed.
Lemma tanh_d v : is_derive tanh v (tanh_deriv v).
Proof.
  unfold tanh_deriv. pose proof (cosh_pos v). pose proof (cosh2 v) as E.
  assert (is_derive sinh v (cosh v)) by (apply is_derive_Reals, derivable_pt_lim_sinh).
  assert (is_derive cosh v (sinh v)) by (apply is_derive_Reals, derivable_pt_lim_cosh).
  unfold tanh. eapply d_ext; [intros t; reflexivity| |apply (is_derive_div sinh cosh v _ _ H0 H1); lra].
  transitivity ((cosh v * cosh v - sinh v * sinh v) / (cosh v * cosh v)); [field; lra|]. rewrite E.
  transitivity ((cosh v * cosh v - sinh v * sinh v) / (cosh v * cosh v)); [now rewrite E|field; lra].
Qed.
Lemma hard_sigmoid_eq v : hard_sigmoid v = Rmax 0 (Rmin 1 (0.2 * v + 0.5)).
Proof. unfold hard_sigmoid, Rmin. dec_all; unfold Rmax; dec_all. Qed.
Lemma hard_sigmoid_d v : ex_derive hard_sigmoid v -> hard_sigmoid_deriv v = Derive hard_sigmoid v.
Proof.
  intros D. symmetry. unfold hard_sigmoid_deriv.
  destruct (Rle_lt_dec 2.5 v); [|destruct (Rle_lt_dec v (-2.5))].
  - dec_all; apply (right_side _ (fun _ => 1) v 0 1); auto using d_const; try lra; intros; unfold hard_sigmoid; dec_all.
  - dec_all; apply (left_side _ (fun _ => 0) v 0 1); auto using d_const; try lra; intros; unfold hard_sigmoid; dec_all.
  - dec_all; cbn [andb]. apply (left_side _ (fun v => 0.2 * v + 0.5) v 0.2 (v + 2.5)); auto; try lra.
    + intros; unfold hard_sigmoid; dec_all.
    + auto_derive; auto. ring.
Qed.
Lemma hard_tanh_eq v : hard_tanh v = Rmax (-1) (Rmin 1 v).
Proof. unfold hard_tanh, Rmin. dec_all; unfold Rmax; dec_all. Qed.
Lemma d_id (v : R) : is_derive (fun v => v) v 1.
Proof. auto_derive; auto. Qed.
Lemma hard_tanh_d v : ex_derive hard_tanh v -> hard_tanh_deriv v = Derive hard_tanh v.
Proof.
  intros D. symmetry. unfold hard_tanh_deriv.
  destruct (Rle_lt_dec 1 v); [|destruct (Rle_lt_dec v (-1))].
  - dec_all; apply (right_side _ (fun _ => 1) v 0 1); auto using d_const; try lra; intros; unfold hard_tanh; dec_all.
  - dec_all; apply (left_side _ (fun _ => -1) v 0 1); auto using d_const; try lra; intros; unfold hard_tanh; dec_all.
  - dec_all; cbn [andb]. apply (left_side _ (fun v => v) v 1 (v + 1)); auto using d_id; try lra.
    intros; unfold hard_tanh; dec_all.
Qed.
Lemma relu_d v : ex_derive relu v -> relu_deriv v = Derive relu v.
Proof.
  intros D. symmetry. unfold relu_deriv, relu in *. dec_all.
  - apply (right_side _ (fun v => v) v 1 1); auto using d_id; try lra. intros; unfold Rmax; dec_all.
  - apply (left_side _ (fun _ => 0) v 0 1); auto using d_const; try lra. intros; unfold Rmax; dec_all.
Qed.
Lemma softsign_d v : ex_derive softsign v -> softsign_deriv v = Derive softsign v.
Proof.
  intros D. symmetry. unfold softsign_deriv. destruct (Rle_lt_dec 0 v).
  - apply (right_side _ (fun v => v / (1 + v)) v _ 1); auto; try lra.
    + intros u Hu. unfold softsign. rewrite Rabs_pos_eq; lra.
    + unfold softsign. rewrite (Rabs_pos_eq v) by lra. rewrite Rabs_pos_eq by (apply Rle_div_r; lra). auto_derive; [lra|]. field. lra.
  - apply (left_side _ (fun v => v / (1 - v)) v _ 1); auto; try lra.
    + intros u Hu. unfold softsign. rewrite Rabs_left1 by lra. reflexivity.
    + unfold softsign. rewrite (Rabs_left1 v) by lra. rewrite Rabs_left1 by (unfold Rdiv; assert (0 < / (1 + - v)) by (apply Rinv_0_lt_compat; lra); nra). auto_derive; [lra|]. field. lra.
Qed.
Lemma abs_d v : ex_derive Rabs v -> abs_deriv v = Derive Rabs v.
Proof.
  intros D. symmetry. unfold abs_deriv.
  assert (HP : 0 <= v -> Derive Rabs v = 1).
  { intros H. apply (right_side _ (fun v => v) v 1 1); auto using d_id; try lra. intros u Hu. apply Rabs_pos_eq. lra. }
  assert (HN : v <= 0 -> Derive Rabs v = -1).
  { intros H. apply (left_side _ (fun v => - v) v (-1) 1); auto; try lra; [|auto_derive; auto]. intros u Hu. apply Rabs_left1. lra. }
  unfold Rltb. destruct (Rlt_dec v 0); [apply HN; lra|]. destruct (Rlt_dec 0 v); [apply HP; lra|].
  exfalso. rewrite HP in HN by lra. specialize (HN ltac:(lra)). lra.
Qed.
Lemma celu_d alpha v : alpha <> 0 -> ex_derive (celu alpha) v -> celu_deriv alpha v = Derive (celu alpha) v.
Proof.
  intros Ha D. symmetry. unfold celu_deriv. dec_all.
  - apply (left_side _ (fun v => alpha * (exp (v / alpha) - 1)) v _ 1); auto; try lra.
    + intros u Hu. unfold celu. dec_all.
    + auto_derive; auto. unfold Rdiv. field. auto.
  - apply (right_side _ (fun v => v) v 1 1); auto using d_id; try lra. intros u Hu. unfold celu. dec_all.
Qed.
Lemma elu_d alpha v : ex_derive (elu alpha) v -> elu_deriv alpha v = Derive (elu alpha) v.
Proof.
  intros D. symmetry. unfold elu_deriv. dec_all.
  - apply (left_side _ (fun v => alpha * (exp v - 1)) v _ 1); auto; try lra.
    + intros u Hu. unfold elu. dec_all.
    + auto_derive; auto. ring.
  - apply (right_side _ (fun v => v) v 1 1); auto using d_id; try lra. intros u Hu. unfold elu. dec_all.
Qed.
Lemma leaky_relu_d alpha v : ex_derive (leaky_relu alpha) v -> leaky_relu_deriv alpha v = Derive (leaky_relu alpha) v.
Proof.
  intros D. symmetry. unfold leaky_relu_deriv. dec_all.
  - apply (left_side _ (fun v => alpha * v) v _ 1); auto; try lra.
    + intros u Hu. unfold leaky_relu. dec_all.
    + auto_derive; auto. ring.
  - apply (right_side _ (fun v => v) v 1 1); auto using d_id; try lra. intros u Hu. unfold leaky_relu. dec_all.
Qed.
Lemma selu_d alpha scale v : ex_derive (selu alpha scale) v -> selu_deriv alpha scale v = Derive (selu alpha scale) v.
Proof.
  intros D. symmetry. unfold selu_deriv. dec_all.
  - apply (left_side _ (fun v => scale * alpha * (exp v - 1)) v _ 1); auto; try lra.
    + intros u Hu. unfold selu. dec_all.
    + auto_derive; auto. ring.
  - apply (right_side _ (fun v => scale * v) v scale 1); auto; try lra; [|auto_derive; auto; ring]. intros u Hu. unfold selu. dec_all.
Qed.
Lemma soft_plus_d beta threshold v : beta <> 0 -> ex_derive (soft_plus beta threshold) v -> soft_plus_deriv beta threshold v = Derive (soft_plus beta threshold) v.
Proof.
  intros Hb D. symmetry. unfold soft_plus_deriv. dec_all.
  - apply (left_side _ (fun v => 1 / beta * ln (1 + exp (beta * v))) v _ 1); auto; try lra.
    + intros u Hu. unfold soft_plus. dec_all.
    + pose proof (exp_pos (beta * v)). auto_derive; [lra|]. rewrite (Rmult_comm v beta). field. split; auto. lra.
  - apply (right_side _ (fun v => v) v 1 1); auto using d_id; try lra. intros u Hu. unfold soft_plus. dec_all.
Qed.
Lemma soft_shrink_d lambda v : lambda <> 0 -> ex_derive (soft_shrink lambda) v -> soft_shrink_deriv lambda v = Derive (soft_shrink lambda) v.
Proof.
  intros Hl D. symmetry. unfold soft_shrink_deriv. dec_all.
  - apply (left_side _ (fun v => v + lambda) v _ 1); auto; try lra; [|auto_derive; auto]. intros u Hu. unfold soft_shrink. dec_all.
  - apply (right_side _ (fun v => v - lambda) v _ 1); auto; try lra; [|auto_derive; auto]. intros u Hu. unfold soft_shrink. dec_all.
  - destruct (Rle_lt_dec v 0).
    + apply (right_side _ (fun _ => 0) v _ (lambda - v)); auto using d_const; try lra. intros u Hu. unfold soft_shrink. dec_all.
    + apply (left_side _ (fun _ => 0) v _ (v + lambda)); auto using d_const; try lra. intros u Hu. unfold soft_shrink. dec_all.
Qed.
Lemma threshold_d t k v : ex_derive (threshold_f t k) v -> threshold_deriv t k v = Derive (threshold_f t k) v.
Proof.
  intros D. symmetry. unfold threshold_deriv. dec_all.
  - apply (left_side _ (fun _ => k) v 0 1); auto using d_const; try lra. intros u Hu. unfold threshold_f. dec_all.
  - apply (right_side _ (fun v => v) v 1 1); auto using d_id; try lra. intros u Hu. unfold threshold_f. dec_all.
Qed.
Lemma exp_neg v : exp (- v) = / exp v.
Proof. apply exp_Ropp. Qed.
Lemma swish_b_eq beta v : swish_b beta v = v / (1 + exp (- beta * v)).
Proof. unfold swish_b. replace (beta * - v) with (- beta * v) by ring. pose proof (exp_pos (- beta * v)). field. lra. Qed.
Lemma swish_b_d beta v : is_derive (swish_b beta) v (swish_b_deriv beta v).
Proof.
  unfold swish_b_deriv, swish_b. pose proof (exp_pos (v * beta)). pose proof (exp_pos (beta * - v)).
  auto_derive; [lra|]. replace (beta * - v) with (- (v * beta)) in * by ring. rewrite exp_neg. field.
  all: lra.
Qed.
Lemma swish_b_beta_d beta v : is_derive (fun b => swish_b b v) beta (swish_b_beta_deriv v beta).
Proof.
  unfold swish_b_beta_deriv, swish_b. pose proof (exp_pos (- (v * beta))).
  replace (beta * - v) with (- (v * beta)) in * by ring. 
  auto_derive; [pose proof (exp_pos (beta * - v)); lra|]. replace (beta * - v) with (- (v * beta)) in * by ring. field. lra.
Qed.
Lemma swish_d v : is_derive (fun v => v / (1 + exp (- v))) v (swish_deriv v).
Proof.
  unfold swish_deriv. pose proof (exp_pos v). pose proof (exp_pos (- v)).
  auto_derive; [lra|]. rewrite exp_neg. field. split; lra.
Qed.
Lemma sigmoid_d v : is_derive (fun v => 1 / (1 + exp (- v))) v (1 / (1 + exp (- v)) * (1 - 1 / (1 + exp (- v)))).
Proof. pose proof (exp_pos (- v)). auto_derive; [lra|]. field. lra. Qed.
Lemma tanh_ln y : 0 < y -> tanh (ln y) = (y * y - 1) / (y * y + 1).
Proof. intros H. unfold tanh, sinh, cosh. rewrite exp_neg, exp_ln by auto. field. split; [nra|]. lra. Qed.
Lemma mish_d v : is_derive mish v (mish_deriv v).
Proof.
  apply (d_ext (fun v => v * (((1 + exp v) * (1 + exp v) - 1) / ((1 + exp v) * (1 + exp v) + 1))) _ v (mish_deriv v)); [|reflexivity|].
  - intros t. unfold mish. rewrite tanh_ln; [reflexivity|pose proof (exp_pos t); lra].
  - pose proof (exp_pos v). unfold mish_deriv. auto_derive; [nra|].
    replace (2 * v) with (v + v) by ring. replace (3 * v) with (v + v + v) by ring. rewrite !exp_plus. field. nra.
Qed.
Lemma recip_d v : v <> 0 -> is_derive (fun v => 1 / v) v (-1 / (v * v)).
Proof. intros H. auto_derive; auto. field. auto. Qed.
Lemma gelu_d v : is_derive gelu v (let u := sqrt (2 / PI) * (v + 0.044715 * v ^ 3) in
  0.5 * (1 + tanh u) + 0.5 * v * ((1 - (tanh u) ^ 2) * (sqrt (2 / PI) * (1 + 3 * 0.044715 * v ^ 2)))).
Proof.
  unfold gelu. cbv zeta. set (k := sqrt (2 / PI)). set (u := fun v => k * (v + 0.044715 * v ^ 3)).
  assert (Du : is_derive u v (k * (1 + 3 * 0.044715 * v ^ 2))) by (unfold u; auto_derive; auto; ring).
  pose proof (d_comp tanh u v _ _ (tanh_d (u v)) Du) as Dt.
  assert (D1 : is_derive (fun v => 0.5 * v) v 0.5) by (auto_derive; auto; ring).
  pose proof (d_plus (fun _ => 1) (fun t => tanh (u t)) v _ _ (d_const 1 v) Dt) as D2.
  eapply d_ext; [| |apply (d_mult _ _ v _ _ D1 D2)]; [reflexivity|]. cbv beta. unfold tanh_deriv, u. ring.
Qed.
