(** * Element-wise functions: Forward and Backward *)
From Coq Require Import Reals List Arith Bool ZArith Lia Lra.
From Coquelicot Require Import Coquelicot.
From Verif Require Import DenseModel DenseSpec DenseLemmas DenseProofs DenseProofs2 ArithModel ArithSpec ArithProofs GradModel GradSpec GradLemmas GradProofs GradProofs3.
Import ListNotations.
Open Scope R_scope.

Lemma elementwise_intro f phi (on : R -> Prop) req x ps h dh : wf x ->
  (exists y, fwd f (x :: ps) = Some y /\ elems y (rows x) (cols x) (fun i j => h (rget x i j))) ->
  (forall gy, fits gy (rows x) (cols x) -> exists g, bwd f (x :: ps) req gy = Some (if req 0%nat then [(0%nat, g)] else []) /\
     elems g (rows x) (cols x) (fun i j => dh (rget x i j) * rget gy i j)) ->
  (forall v, on v -> h v = phi v) -> (forall v, on v -> ex_derive phi v -> dh v = Derive phi v) ->
  elementwise f phi on req x ps.
Proof.
  intros Hw (y & Hy & Ey) HB Hh Hd. split.
  - exists y. split; auto. destruct (elems_fits _ _ _ _ Ey) as (a & b & c). repeat split; auto. intros i j Hi Hj Ho. rewrite (rget_elems _ _ _ _ i j Ey Hi Hj). auto.
  - intros gy Hgw (Hr & Hc). destruct (HB gy) as (g & Hg & Eg); [repeat split; auto|]. exists g. split; auto.
    destruct (elems_fits _ _ _ _ Eg) as (a & b & c). repeat split; auto. intros i j Hi Hj Ho Hx. rewrite (rget_elems _ _ _ _ i j Eg Hi Hj), (Hd _ Ho Hx). ring.
Qed.

Lemma when0 req g : when (req 0%nat) 0 (Some g) = Some (if req 0%nat then [(0%nat, g)] else []).
Proof. unfold when. destruct (req 0%nat); reflexivity. Qed.
Lemma apply_prod df x gy r c : fits x r c -> fits gy r c -> exists g, m_prod_in (m_apply df x) gy = Some g /\ elems g r c (fun i j => df (rget x i j) * rget gy i j).
Proof.
  intros Fx Fg. pose proof (m_apply_elems df x r c Fx) as E. destruct (m_prod_in_elems _ gy r c (elems_fits _ _ _ _ E) Fg) as (g & -> & Eg). exists g. split; auto.
  eapply elems_ext; [exact Eg|]. intros i j Hi Hj. cbv beta. now rewrite (rget_elems _ _ _ _ i j E Hi Hj).
Qed.
Lemma unary_prod df x gy r c : fits x r c -> fits gy r c -> exists g, m_prod_in (m_unary df x) gy = Some g /\ elems g r c (fun i j => df (rget x i j) * rget gy i j).
Proof.
  intros Fx Fg. pose proof (m_unary_elems df x r c Fx) as E. destruct (m_prod_in_elems _ gy r c (elems_fits _ _ _ _ E) Fg) as (g & -> & Eg). exists g. split; auto.
  eapply elems_ext; [exact Eg|]. intros i j Hi Hj. cbv beta. now rewrite (rget_elems _ _ _ _ i j E Hi Hj).
Qed.

Lemma unary_fn_elementwise h dh phi (on : R -> Prop) req x : wf x ->
  (forall v, on v -> h v = phi v) -> (forall v, on v -> ex_derive phi v -> dh v = Derive phi v) ->
  elementwise (unary_fn h dh) phi on req x [].
Proof.
  intros Hw H1 H2. pose proof (fits_wf x Hw) as Fx. apply (elementwise_intro _ phi on req x [] h dh Hw); auto.
  - eexists; split; [reflexivity|]. apply m_apply_elems; auto.
  - intros gy Fg. destruct (apply_prod dh x gy _ _ Fx Fg) as (g & Hg & Eg). exists g. split; auto.
    cbn. rewrite (same_dims_fits _ _ _ _ Fx Fg), Hg. apply when0.
Qed.
Lemma unary1_fn_elementwise h dh phi (on : R -> Prop) req x a : wf x -> fits a 1 1 ->
  (forall v, on v -> h (rget a 0 0) v = phi v) -> (forall v, on v -> ex_derive phi v -> dh (rget a 0 0) v = Derive phi v) ->
  elementwise (unary1_fn h dh) phi on req x [a].
Proof.
  intros Hw Ha H1 H2. pose proof (fits_wf x Hw) as Fx. apply (elementwise_intro _ phi on req x [a] (h (rget a 0 0)) (dh (rget a 0 0)) Hw); auto.
  - cbn. rewrite item_fits by auto. eexists; split; [reflexivity|]. apply m_apply_elems; auto.
  - intros gy Fg. destruct (apply_prod (dh (rget a 0 0)) x gy _ _ Fx Fg) as (g & Hg & Eg). exists g. split; auto.
    cbn. rewrite (same_dims_fits _ _ _ _ Fx Fg), item_fits by auto. cbn [bind]. rewrite Hg. apply when0.
Qed.
Lemma unary2_fn_elementwise h dh phi (on : R -> Prop) req x a b : wf x -> fits a 1 1 -> fits b 1 1 ->
  (forall v, on v -> h (rget a 0 0) (rget b 0 0) v = phi v) -> (forall v, on v -> ex_derive phi v -> dh (rget a 0 0) (rget b 0 0) v = Derive phi v) ->
  elementwise (unary2_fn h dh) phi on req x [a; b].
Proof.
  intros Hw Ha Hb H1 H2. pose proof (fits_wf x Hw) as Fx. apply (elementwise_intro _ phi on req x [a; b] (h (rget a 0 0) (rget b 0 0)) (dh (rget a 0 0) (rget b 0 0)) Hw); auto.
  - cbn. rewrite !item_fits by auto. eexists; split; [reflexivity|]. apply m_apply_elems; auto.
  - intros gy Fg. destruct (apply_prod (dh (rget a 0 0) (rget b 0 0)) x gy _ _ Fx Fg) as (g & Hg & Eg). exists g. split; auto.
    cbn. rewrite (same_dims_fits _ _ _ _ Fx Fg), !item_fits by auto. cbn [bind]. rewrite Hg. apply when0.
Qed.
Lemma d_eq (phi : R -> R) (v d : R) : is_derive phi v d -> d = Derive phi v.
Proof. intros H. symmetry. now apply is_derive_unique. Qed.

Definition in_place (g : R -> R) (m : mat) : mat :=
  mkDense (rows m) (cols m) (loop_up (fun i st => put st i (g (nth i st 0))) 0 (length (data m)) (data m)).
Lemma in_place_elems g m r c : fits m r c -> elems (in_place g m) r c (fun i j => g (rget m i j)).
Proof.
  intros (Hw & <- & <-). apply elems_has. unfold in_place. rewrite (loop_all 0 (fun _ v => g v)) by reflexivity. unfold wf in Hw. rewrite Hw. apply (has_elems_seq (T := R)).
  intros i j Hi Hj. rewrite rget_nth; auto.
Qed.
Lemma sigmoid_elems x r c : fits x r c -> elems (m_sigmoid x) r c (fun i j => 1 / (1 + exp (- rget x i j))).
Proof.
  intros Fx. pose proof (m_prods_elems x (- (1)) r c Fx) as E1. pose proof (in_place_elems exp _ r c (elems_fits _ _ _ _ E1)) as E2.
  pose proof (in_place_elems (fun v => 1 / (1 + v)) _ r c (elems_fits _ _ _ _ E2)) as E3.
  replace (m_sigmoid x) with (in_place (fun v => 1 / (1 + v)) (in_place exp (m_prods x (- (1))))).
  - eapply elems_ext; [exact E3|]. intros i j Hi Hj. cbv beta. rewrite (rget_elems _ _ _ _ i j E2 Hi Hj), (rget_elems _ _ _ _ i j E1 Hi Hj). do 4 f_equal. ring.
  - unfold m_sigmoid, mat_sigmoid, in_place. cbn [rows cols data]. reflexivity.
Qed.
Lemma sigmoid_elementwise req x : wf x -> elementwise sigmoid_fn (fun v => 1 / (1 + exp (- v))) anywhere req x [].
Proof.
  intros Hw. pose proof (fits_wf x Hw) as Fx. pose proof (sigmoid_elems x _ _ Fx) as Es.
  apply (elementwise_intro _ _ _ req x [] (fun v => 1 / (1 + exp (- v))) (fun v => 1 / (1 + exp (- v)) * (1 - 1 / (1 + exp (- v)))) Hw); auto.
  - eexists; split; [reflexivity|]. exact Es.
  - intros gy Fg. destruct (apply_prod (fun v => v * (1 - v)) (m_sigmoid x) gy _ _ (elems_fits _ _ _ _ Es) Fg) as (g & Hg & Eg). exists g. split.
    + cbn. rewrite (same_dims_fits _ _ _ _ Fx Fg), Hg. apply when0.
    + eapply elems_ext; [exact Eg|]. intros i j Hi Hj. cbv beta. now rewrite (rget_elems _ _ _ _ i j Es Hi Hj).
  - intros v _ _. apply d_eq, sigmoid_d.
Qed.
Lemma swish_elementwise req x : wf x -> elementwise swish_fn (fun v => v / (1 + exp (- v))) anywhere req x [].
Proof.
  intros Hw. pose proof (fits_wf x Hw) as Fx. pose proof (sigmoid_elems x _ _ Fx) as Es.
  apply (elementwise_intro _ _ _ req x [] (fun v => v / (1 + exp (- v))) swish_deriv Hw); auto.
  - cbn. destruct (m_prod_in_elems _ x _ _ (elems_fits _ _ _ _ Es) Fx) as (m & -> & Em). exists m. split; auto. eapply elems_ext; [exact Em|].
    intros i j Hi Hj. cbv beta. rewrite (rget_elems _ _ _ _ i j Es Hi Hj). pose proof (exp_pos (- rget x i j)). field. lra.
  - intros gy Fg. destruct (apply_prod swish_deriv x gy _ _ Fx Fg) as (g & Hg & Eg). exists g. split; auto.
    cbn. rewrite (same_dims_fits _ _ _ _ Fx Fg), Hg. apply when0.
  - intros v _ _. apply d_eq, swish_d.
Qed.
Lemma exp_elementwise req x : wf x -> elementwise exp_fn exp anywhere req x [].
Proof.
  intros Hw. pose proof (fits_wf x Hw) as Fx. apply (elementwise_intro _ _ _ req x [] exp exp Hw); auto.
  - eexists; split; [reflexivity|]. apply m_unary_elems; auto.
  - intros gy Fg. destruct (unary_prod exp x gy _ _ Fx Fg) as (g & Hg & Eg). exists g. split; auto.
    cbn. rewrite (same_dims_fits _ _ _ _ Fx Fg), Hg. apply when0.
  - intros v _ _. apply d_eq. apply is_derive_Reals, derivable_pt_lim_exp.
Qed.
(** Log's Backward panics if an entry is negative *)
Lemma log_elementwise req x : wf x -> (forall v, In v (data x) -> 0 <= v) -> elementwise log_fn ln (fun v => 0 < v) req x [].
Proof.
  intros Hw Hp. pose proof (fits_wf x Hw) as Fx. apply (elementwise_intro _ _ _ req x [] ln safe_log_deriv Hw); auto.
  - eexists; split; [reflexivity|]. apply m_unary_elems; auto.
  - intros gy Fg. destruct (apply_prod safe_log_deriv x gy _ _ Fx Fg) as (g & Hg & Eg). exists g. split; auto.
    cbn. rewrite (same_dims_fits _ _ _ _ Fx Fg), Hg. replace (forallb (fun v => Rleb 0 v) (data x)) with true; [apply when0|].
    symmetry. apply forallb_forall. intros v Hv. unfold Rleb. destruct (Rle_dec 0 v) as [|n]; [reflexivity|destruct n; apply Hp; exact Hv].
  - intros v Hv _. transitivity (1 / v); [unfold safe_log_deriv, Rltb; destruct (Rlt_dec 0 v); [auto|contradiction]|]. apply d_eq. auto_derive; [exact Hv|unfold Rdiv; ring].
Qed.
Lemma log_negative req x gy : wf x -> wf gy -> same_shape gy x -> req 0%nat = true -> (exists v, In v (data x) /\ v < 0) -> bwd log_fn [x] req gy = None.
Proof.
  intros Hw Hg (Hr & Hc) Hq (v & Hv & Hn). cbn. rewrite (same_dims_fits x gy (rows x) (cols x)) by (repeat split; auto).
  rewrite Hq. unfold when. replace (forallb (fun v => Rleb 0 v) (data x)) with false; [reflexivity|]. symmetry. apply not_true_is_false. intros H.
  rewrite forallb_forall in H. specialize (H v Hv). unfold Rleb in H. destruct (Rle_dec 0 v); [lra|discriminate].
Qed.

(** ** Powers *)
Lemma Int_part_IZR z : Int_part (IZR z) = z.
Proof.
  destruct (base_Int_part (IZR z)) as [H1 H2]. apply le_IZR in H1. assert (IZR (z - 1) < IZR (Int_part (IZR z))) by (rewrite minus_IZR; lra). apply lt_IZR in H. lia.
Qed.
Lemma Ris0_true v : Ris0 v = true <-> v = 0.
Proof. unfold Ris0. destruct (Req_EM_T v 0); split; congruence. Qed.
Lemma neg_pow x n : (- x) ^ n = if Nat.even n then x ^ n else - x ^ n.
Proof.
  induction n as [|n IH]; [reflexivity|]. rewrite Nat.even_succ, <- Nat.negb_even. cbn [pow]. rewrite IH. destruct (Nat.even n); cbn [negb]; ring.
Qed.
Lemma even_pos p : Z.even (Z.pos p) = Nat.even (Pos.to_nat p).
Proof.
  rewrite <- (positive_nat_Z p). generalize (Pos.to_nat p). intros n. induction n as [|n IH]; [reflexivity|].
  rewrite Nat2Z.inj_succ, Z.even_succ, <- Z.negb_even, IH, Nat.even_succ, <- Nat.negb_even. reflexivity.
Qed.
Lemma neg_powerRZ x z : x <> 0 -> powerRZ (- x) z = if Z.even z then powerRZ x z else - powerRZ x z.
Proof.
  intros Hx. destruct z as [|p|p]; [reflexivity| |]; cbn [powerRZ].
  - rewrite neg_pow, <- even_pos. reflexivity.
  - rewrite neg_pow. change (Z.even (Z.neg p)) with (Z.even (Z.pos p)). rewrite <- even_pos. destruct (Z.even (Z.pos p)); auto. symmetry. rewrite <- Rinv_opp. reflexivity.
Qed.
Lemma go_pow_int x z : x <> 0 \/ (0 <= z)%Z -> go_pow x (IZR z) = powerRZ x z.
Proof.
  intros H. unfold go_pow. destruct (Ris0 (IZR z)) eqn:E.
  - apply Ris0_true in E. apply eq_IZR in E. subst z. reflexivity.
  - assert (Hz : z <> 0%Z) by (intros ->; unfold Ris0 in E; destruct (Req_EM_T 0 0); congruence).
    unfold Rltb. destruct (Rlt_dec 0 x) as [Hp|Hp]; [symmetry; apply powerRZ_Rpower; auto|].
    destruct (Ris0 x) eqn:E0.
    + apply Ris0_true in E0. subst x. destruct z as [|p|p]; [congruence| |destruct H; [congruence|lia]]. cbn [powerRZ]. rewrite pow_ne_zero; auto. lia.
    + assert (Hx : x <> 0) by (intros ->; unfold Ris0 in E0; destruct (Req_EM_T 0 0); congruence). rewrite Int_part_IZR. destruct (Req_EM_T (IZR z) (IZR z)); [|congruence].
      rewrite <- !powerRZ_Rpower by lra. rewrite neg_powerRZ by auto. destruct (Z.even z); auto. ring.
Qed.
Lemma powerRZ_d v z : v <> 0 \/ (0 <= z)%Z -> is_derive (fun v => powerRZ v z) v (IZR z * powerRZ v (z - 1)).
Proof.
  intros H. destruct z as [|p|p].
  - eapply d_ext; [| |apply (d_const 1 v)]; [reflexivity|ring].
  - cbn [powerRZ]. pose proof (Pos2Nat.is_pos p). set (n := Pos.to_nat p) in *.
    assert (E : powerRZ v (Z.pos p - 1) = v ^ pred n).
    { replace (Z.pos p - 1)%Z with (Z.of_nat (pred n)) by lia. symmetry. apply pow_powerRZ. }
    rewrite E. replace (IZR (Z.pos p)) with (INR n) by (unfold n; rewrite INR_IZR_INZ, positive_nat_Z; reflexivity).
    eapply d_ext; [| |apply (is_derive_pow (fun v => v) n v 1 (d_id v))]; [reflexivity|]. cbv beta. ring.
  - destruct H as [H|H]; [|lia]. cbn [powerRZ]. set (n := Pos.to_nat p).
    assert (E : powerRZ v (Z.neg p - 1) = / v ^ S n).
    { replace (Z.neg p - 1)%Z with (Z.neg (Pos.succ p)) by lia. cbn [powerRZ]. now rewrite Pos2Nat.inj_succ. }
    rewrite E. replace (IZR (Z.neg p)) with (- INR n) by (unfold n; rewrite INR_IZR_INZ, positive_nat_Z; symmetry; apply (opp_IZR (Z.pos p))).
    pose proof (Pos2Nat.is_pos p) as Hn. fold n in Hn.
    assert (Hv : v ^ n <> 0) by (apply pow_nonzero; auto).
    eapply d_ext; [| |apply (is_derive_inv (fun v => v ^ n) v _ (is_derive_pow (fun v => v) n v 1 (d_id v)) Hv)]; [reflexivity|]. cbv beta.
    replace (v ^ S n) with (v * v ^ n) by reflexivity. replace (v ^ n) with (v * v ^ pred n) in * by (destruct n; [lia|reflexivity]).
    assert (v ^ pred n <> 0) by (apply pow_nonzero; auto). field. auto.
Qed.
Lemma Rpower_d v p : 0 < v -> is_derive (fun v => Rpower v p) v (p * Rpower v (p - 1)).
Proof. intros H. apply is_derive_Reals, derivable_pt_lim_power. auto. Qed.
Lemma go_pow_pos x p : 0 < x -> go_pow x p = Rpower x p.
Proof.
  intros H. unfold go_pow. destruct (Ris0 p) eqn:E; [apply Ris0_true in E; subst; now rewrite Rpower_O|]. unfold Rltb. destruct (Rlt_dec 0 x); [auto|contradiction].
Qed.
Lemma pow_fn_elementwise phi (on : R -> Prop) p req x : wf x -> (forall v, on v -> go_pow v p = phi v) ->
  (forall v, on v -> ex_derive phi v -> p * go_pow v (p - 1) = Derive phi v) -> elementwise (pow_fn p) phi on req x [].
Proof.
  intros Hw H1 H2. pose proof (fits_wf x Hw) as Fx. apply (elementwise_intro _ _ _ req x [] (fun v => go_pow v p) (fun v => p * go_pow v (p - 1)) Hw); auto.
  - eexists; split; [reflexivity|]. apply m_unary_elems; auto.
  - intros gy Fg. pose proof (m_unary_elems (fun v => go_pow v (p - 1)) x _ _ Fx) as E1. pose proof (m_prods_in_elems _ p _ _ (elems_fits _ _ _ _ E1)) as E2.
    destruct (m_prod_in_elems _ gy _ _ (elems_fits _ _ _ _ E2) Fg) as (g & Hg & Eg). exists g. split.
    + cbn. rewrite (same_dims_fits _ _ _ _ Fx Fg). rewrite Hg. apply when0.
    + eapply elems_ext; [exact Eg|]. intros i j Hi Hj. cbv beta. rewrite (rget_elems _ _ _ _ i j E2 Hi Hj), (rget_elems _ _ _ _ i j E1 Hi Hj). ring.
Qed.
Lemma pow_pos_elementwise p req x : wf x -> elementwise (pow_fn p) (fun v => Rpower v p) (fun v => 0 < v) req x [].
Proof.
  intros Hw. apply pow_fn_elementwise; auto.
  - intros v Hv. now apply go_pow_pos.
  - intros v Hv _. rewrite go_pow_pos by auto. apply d_eq, Rpower_d. auto.
Qed.
Lemma pow_int_elementwise z req x : wf x -> elementwise (pow_fn (IZR z)) (fun v => powerRZ v z) (fun v => v <> 0 \/ (0 <= z)%Z) req x [].
Proof.
  intros Hw. apply pow_fn_elementwise; auto.
  - intros v Hv. now apply go_pow_int.
  - intros v Hv _. transitivity (IZR z * powerRZ v (z - 1)); [|exact (d_eq _ _ _ (powerRZ_d v z Hv))]. destruct (Z.eq_dec z 0) as [->|Hz]; [ring|].
    rewrite <- minus_IZR, go_pow_int by (destruct Hv; [auto|right; lia]). reflexivity.
Qed.
Lemma sqrt_elementwise req x : wf x -> elementwise sqrt_fn sqrt (fun v => 0 < v) req x [].
Proof.
  intros Hw. pose proof (fits_wf x Hw) as Fx. apply (elementwise_intro _ _ _ req x [] sqrt (fun v => 0.5 * go_pow v (-0.5)) Hw); auto.
  - eexists; split; [reflexivity|]. apply m_unary_elems; auto.
  - intros gy Fg. pose proof (m_unary_elems (fun v => go_pow v (-0.5)) x _ _ Fx) as E1. pose proof (m_prods_in_elems _ 0.5 _ _ (elems_fits _ _ _ _ E1)) as E2.
    destruct (m_prod_in_elems _ gy _ _ (elems_fits _ _ _ _ E2) Fg) as (g & Hg & Eg). exists g. split.
    + cbn. rewrite (same_dims_fits _ _ _ _ Fx Fg). rewrite Hg. apply when0.
    + eapply elems_ext; [exact Eg|]. intros i j Hi Hj. cbv beta. rewrite (rget_elems _ _ _ _ i j E2 Hi Hj), (rget_elems _ _ _ _ i j E1 Hi Hj). ring.
  - intros v Hv _. rewrite go_pow_pos by auto. replace (-0.5) with (- (/ 2)) by lra. rewrite Rpower_Ropp, Rpower_sqrt by auto. replace 0.5 with (/ 2) by lra.
    apply d_eq. auto_derive; auto. assert (0 < sqrt v) by (apply sqrt_lt_R0; auto). field. lra.
Qed.
