(** * Optimizers in floating point: SGD and the rates *)
From Coq Require Import ZArith Bool Lia List Arith Reals Lra Psatz.
From Flocq Require Import Core BinarySingleNaN Relative.
From Verif Require Import DenseModel DenseSpec ArithModel ArithSpec FloatModel FloatSpec FloatProofs NumModel NumSpec NumLemmas AsmFloatSpec AsmFloat OptFloatModel OptFloatSpec OptFloatNum OptFloatNum2 OptFloatNum3 OptFloatProofs OptFloatNum4 OptFloatProofs2 OptFloatProofs3.
Import ListNotations.
Local Open Scope R_scope.

Section Sgd.
Variable d : dtype.
Notation mat := (dense (val d)).
Notation U := (u d).
Notation h := (half_tiny d).
Notation cv := (conv F64 d).
Notation get m i j := (get fzero m i j).

(** ** The matrices *)
Definition oshaped (o : option mat) (r c : nat) : Prop := exists m, o = Some m /\ shaped d m r c.
Definition sgd_shaped (mu : val F64) (nesterov : bool) (s : sgd_state d) (r c : nat) : Prop :=
  shaped d (sg_v d s) r c /\ (is0 mu = false -> oshaped (sg_buf d s) r c) /\
  (is0 mu = false -> nesterov = true -> oshaped (sg_vprev d s) r c /\ oshaped (sg_vtmp d s) r c).
Lemma sgd_fresh_shaped mu nest x r c : shaped d x r c -> sgd_shaped mu nest (sgd_fresh d mu nest x) r c /\
  forall i j, (i < r)%nat -> (j < c)%nat -> get (sg_v d (sgd_fresh d mu nest x)) i j = fzero.
Proof.
  intros (_ & Rx & Cx). unfold sgd_fresh. rewrite Rx, Cx. destruct (zeros_elems d r c) as (Sz & Ez). assert (Oz : oshaped (Some (m_zeros d r c)) r c) by (eexists; split; [reflexivity|exact Sz]).
  unfold sgd_shaped. destruct (is0 mu); [|destruct nest]; cbn [negb sg_v sg_buf sg_vprev sg_vtmp]; (split; [|exact Ez]); (split; [exact Sz|]); split; auto; try discriminate.
Qed.
Lemma sgd_plain_elems al mu nest g s w r c : is0 mu = true -> sgd_shaped mu nest s r c -> shaped d g r c ->
  exists delta s', sgd_update d al mu nest g s w = Some (delta, s') /\ sgd_shaped mu nest s' r c /\ shaped d delta r c /\ forall i j, (i < r)%nat -> (j < c)%nat -> get delta i j = fmul (get g i j) (cv al).
Proof.
  intros Z (S1 & S2 & S3) Sg. unfold sgd_update. rewrite Z. destruct (pms_elems d (sg_v d s) g al r c S1 Sg) as (v & -> & Ev). cbn [bind]. eexists _, _. split; [reflexivity|].
  split; [|split; [apply Ev|exact (proj2 Ev)]]. split; [apply Ev|]. rewrite Z. split; discriminate.
Qed.
Lemma sgd_momentum_elems al mu nest g s w r c : is0 mu = false -> sgd_shaped mu nest s r c -> shaped d g r c ->
  exists delta s', sgd_update d al mu nest g s w = Some (delta, s') /\ sgd_shaped mu nest s' r c /\ shaped d delta r c /\ forall i j, (i < r)%nat -> (j < c)%nat ->
    let v' := avg d (cv mu) (get (sg_v d s) i j) (cv al) (get g i j) in
    get (sg_v d s') i j = v' /\ get delta i j = if nest then fsub (fmul v' (cv (fadd fone mu))) (fmul (get (sg_v d s) i j) (cv mu)) else v'.
Proof.
  intros Z (S1 & S2 & S3) Sg. unfold sgd_update. rewrite Z. destruct (S2 Z) as (buf & Eb & Sb). rewrite Eb. cbn [bind].
  destruct (pms_elems d buf g al r c Sb Sg) as (buf' & Eb' & Hb'). pose proof (const_in_elems d fmul (sg_v d s) (cv mu) r c S1) as Hv.
  destruct (binary_in_elems d fadd (m_prods_in d (sg_v d s) mu) buf' r c (proj1 Hv) (proj1 Hb')) as (v' & Ev' & Hv').
  assert (X : forall i j, (i < r)%nat -> (j < c)%nat -> get v' i j = avg d (cv mu) (get (sg_v d s) i j) (cv al) (get g i j)).
  { intros i j Hi Hj. rewrite (proj2 Hv' i j Hi Hj), (proj2 Hb' i j Hi Hj). unfold m_prods_in. rewrite (proj2 Hv i j Hi Hj). reflexivity. }
  destruct nest.
  - destruct (S3 Z eq_refl) as ((vp & Evp & Svp) & (vt & Evt & Svt)). rewrite Eb'. cbn [bind]. rewrite Evp. cbn [bind]. destruct (pms_elems d vp (sg_v d s) mu r c Svp S1) as (vp' & Evp' & Hvp'). rewrite Evp'. cbn [bind].
    unfold m_add_in. rewrite Ev'. cbn [bind]. rewrite Evt. cbn [bind]. destruct (pms_elems d vt v' (fadd fone mu) r c Svt (proj1 Hv')) as (vt' & Evt' & Hvt'). rewrite Evt'. cbn [bind].
    destruct (sub_elems d vt' vp' r c (proj1 Hvt') (proj1 Hvp')) as (dl & Ed & Hd). rewrite Ed. cbn [bind]. eexists _, _. split; [reflexivity|]. split; [|split; [apply Hd|]].
    + unfold sgd_shaped. cbn [sg_v sg_buf sg_vprev sg_vtmp]. split; [apply Hv'|]. split; [intros _; eexists; split; [reflexivity|apply Hb']|]. intros _ _. split; eexists; (split; [reflexivity|]); [apply Hvp'|apply Hd].
    + intros i j Hi Hj. cbv zeta. cbn [sg_v]. split; [now apply X|]. rewrite (proj2 Hd i j Hi Hj), (proj2 Hvt' i j Hi Hj), (proj2 Hvp' i j Hi Hj), (X i j Hi Hj). reflexivity.
  - rewrite Eb'. cbn [bind]. unfold m_add_in. rewrite Ev'. cbn [bind]. eexists _, _. split; [reflexivity|]. split; [|split; [apply Hv'|]].
    + unfold sgd_shaped. cbn [sg_v sg_buf sg_vprev sg_vtmp]. split; [apply Hv'|]. split; [intros _; eexists; split; [reflexivity|apply Hb']|]. discriminate.
    + intros i j Hi Hj. cbv zeta. cbn [sg_v]. split; now apply X.
Qed.

(** ** One element *)
Definition steps_max : R := bpow radix2 (emax d - 4 - prec d).
Lemma steps_max_facts : 2 ^ 90 <= steps_max /\ rep d steps_max /\ rep d (2 * steps_max) /\ rep d (4 * steps_max) /\ U * weight_max d = steps_max.
Proof.
  unfold steps_max. split; [rewrite pow2; apply bpow_le; destruct d; cbn; lia|].
  assert (E : forall k, bpow radix2 k * bpow radix2 (emax d - 4 - prec d) = bpow radix2 (k + (emax d - 4 - prec d))) by (intros k; now rewrite bpow_plus).
  assert (E1 := E 1%Z). change (bpow radix2 1) with 2 in E1. assert (E2 := E 2%Z). change (bpow radix2 2) with 4 in E2. rewrite E1, E2.
  split; [apply rep_bpow; destruct d; cbn; lia|]. split; [apply rep_bpow; destruct d; cbn; lia|]. split; [apply rep_bpow; destruct d; cbn; lia|].
  rewrite u_bpow, weight_bpow, <- bpow_plus. f_equal. lia.
Qed.
Lemma room_steps s B : room d s B -> 4 * s <= steps_max.
Proof.
  intros ((_ & H) & H2). destruct steps_max_facts as (_ & _ & _ & _ & <-). pose proof (u_pos d). apply Rle_trans with (1 := H2). apply Rmult_le_compat_l; lra.
Qed.
(** the rate at the type of the parameter *)
Lemma tiny_ratio : h <= U * / 2 ^ 100.
Proof.
  destruct d; [pose proof (tiny_small F32); unfold u; lra|]. apply Rle_trans with (/ 2 ^ 200); [|unfold u; lra].
  unfold half_tiny. apply Rinv_le_contravar; [apply pow_lt; lra|]. apply Rle_pow; [lra|lia].
Qed.
Lemma conv_learning A (a : val F64) : rate A a -> / 2 ^ 100 <= real a -> A <= 2 ^ 19 -> finite (cv a) /\ 0 <= real (cv a) <= real a * (1 + 2 * U).
Proof.
  intros Ha L HA. destruct (conv_rate d A a Ha HA) as (F & P & _). split; [exact F|]. split; [lra|]. eapply Rle_trans; [apply P|]. pose proof tiny_ratio as T. pose proof (u_pos d).
  assert (U * / 2 ^ 100 <= U * real a) by (apply Rmult_le_compat_l; lra). lra.
Qed.
Lemma plain_op A P (g : val d) (a : val F64) : rate A a -> / 2 ^ 100 <= real a -> A <= 2 ^ 19 -> finite g -> Rabs (real g) <= P -> 4 * (P * A) <= steps_max ->
  finite (fmul g (cv a)) /\ Rabs (real (fmul g (cv a))) <= full (P * real a).
Proof.
  intros Ha L HA Fg Lg Hs. destruct (conv_learning A a Ha L HA) as (Fa & La). destruct steps_max_facts as (S1 & R1 & _). pose proof (u_small d) as HU. pose proof (tiny_small d) as Hh. pose proof (Rabs_pos (real g)) as Pg.
  assert (T : Rabs (real g * real (cv a)) <= P * real a * (1 + 2 * U)). { rewrite Rabs_mult, (Rabs_right (real (cv a))) by lra. rewrite Rmult_assoc. apply Rmult_le_compat; lra. }
  assert (Pa : 0 <= P * real a) by (apply Rmult_le_pos; lra). assert (PA : P * real a <= P * A) by (apply Rmult_le_compat_l; [lra|apply Ha]).
  set (pa := P * real a) in *. clearbody pa. assert (pa * (1 + 2 * U) <= pa * 2) by (apply Rmult_le_compat_l; lra).
  destruct (mul_op g (cv a) steps_max Fg Fa R1) as (F & _ & N); [lra|]. split; [exact F|]. apply near_le in N. eapply Rle_trans; [exact N|].
  assert (X : (1 + U) * Rabs (real g * real (cv a)) <= (1 + U) * (pa * (1 + 2 * U))) by (apply Rmult_le_compat_l; lra).
  assert (pa * ((1 + U) * (1 + 2 * U)) <= pa * (1 + / 2 ^ 17)). { apply Rmult_le_compat_l; [exact Pa|]. set (uu := U) in *. clearbody uu. clear - HU. nra. } unfold full. lra.
Qed.
(** the velocity *)
Lemma conv_momentum (m : val F64) : momentum m -> finite (cv m) /\ 0 <= real (cv m) <= 1 /\ (1 + U) ^ 2 * real (cv m) <= 1 - (1 - real m) * (1 - / 2 ^ 10).
Proof.
  intros (F & H). destruct (conv_factor d m F ltac:(lra)) as (Fc & Pc & N). split; [exact Fc|]. split; [exact Pc|]. apply rabs_le in N. pose proof (u_small d) as HU. pose proof (tiny_small d) as Hh.
  set (uu := U) in *. set (hh := h) in *. clearbody uu hh. set (z := real m) in *. set (q := real (cv m)) in *. clearbody z q. clear - HU Hh N Pc H.
  assert (uu * z <= / 2 ^ 24 * 1) by (apply Rmult_le_compat; lra). assert ((1 + uu) ^ 2 <= 1 + 3 * uu) by nra. assert ((1 + uu) ^ 2 * q <= (1 + 3 * uu) * q) by (apply Rmult_le_compat_r; lra).
  assert (3 * uu * q <= 3 * / 2 ^ 24 * 1) by (apply Rmult_le_compat; lra). lra.
Qed.
Section Velocity.
Variables (A P M : R) (mu a : val F64) (v g : val d).
Hypothesis Hmu : momentum mu.
Hypothesis HM : (1 - real mu) * M = 2 * (A * P).
Hypothesis Hs : 12 * M <= steps_max.
Hypothesis Ha : rate A a.
Hypothesis La : / 2 ^ 100 <= real a.
Hypothesis HA : A <= 2 ^ 19.
Hypothesis Fv : finite v.
Hypothesis Lv : Rabs (real v) <= M + / 2 ^ 120.
Hypothesis Fg : finite g.
Hypothesis Lg : Rabs (real g) <= P.
Let v' := avg d (cv mu) v (cv a) g.
Lemma M_pos : 0 <= A * P /\ 0 <= M /\ 2 * (A * P) <= M.
Proof.
  pose proof (Rabs_pos (real g)). assert (AP : 0 <= A * P) by (apply Rmult_le_pos; [destruct Ha as (_ & ?)|]; lra). destruct Hmu as (_ & Hm). split; [exact AP|].
  assert (0 <= M). { destruct (Rle_or_lt 0 M) as [?|N]; auto. assert (/ 2 ^ 10 * - M <= (1 - real mu) * - M) by (apply Rmult_le_compat_r; lra). lra. } split; [assumption|]. rewrite <- HM.
  assert ((1 - real mu) * M <= 1 * M) by (apply Rmult_le_compat_r; lra). lra.
Qed.
Lemma velocity_op : finite v' /\ Rabs (real v') <= M + / 2 ^ 120.
Proof.
  destruct M_pos as (AP & M0 & AM). destruct (conv_momentum mu Hmu) as (Fm & Pm & Lm). destruct (conv_learning A a Ha La HA) as (Fa & Pa). destruct steps_max_facts as (S1 & R1 & R2 & _).
  pose proof (u_small d) as HU. pose proof (tiny_small d) as Hh. pose proof (Rabs_pos (real g)) as Pg. pose proof (Rabs_pos (real v)) as Pv.
  assert (T : Rabs (real g) * real (cv a) <= A * P * (1 + 2 * U)). { replace (A * P * (1 + 2 * U)) with (P * (A * (1 + 2 * U))) by ring. apply Rmult_le_compat; try lra. eapply Rle_trans; [apply Pa|]. apply Rmult_le_compat_r; [lra|apply Ha]. }
  assert (T2 : A * P * (1 + 2 * U) <= A * P * 2) by (apply Rmult_le_compat_l; lra).
  destruct (average_op d v (cv mu) g (cv a) steps_max Fv Fm Fg Fa R1 R2) as (F & L).
  { rewrite Rabs_mult, (Rabs_right (real (cv mu))) by lra. apply Rle_trans with ((M + / 2 ^ 120) * 1); [apply Rmult_le_compat; lra|lra]. }
  { rewrite Rabs_mult, (Rabs_right (real (cv a))) by lra. lra. }
  split; [exact F|]. unfold v', avg. eapply Rle_trans; [exact L|]. rewrite (Rabs_right (real (cv mu))), (Rabs_right (real (cv a))) by lra.
  destruct Hmu as (_ & Hm). set (t := 1 - real mu) in *. assert (Ht : / 2 ^ 10 <= t <= 1) by (unfold t; lra).
  assert (B1 : (1 + U) ^ 2 * real (cv mu) * Rabs (real v) <= (1 - t * (1 - / 2 ^ 10)) * (M + / 2 ^ 120)). { apply Rmult_le_compat; try lra. apply Rmult_le_pos; [apply pow2_ge_0|lra]. }
  assert (B2 : (1 + U) ^ 2 * (real (cv a) * Rabs (real g)) <= (1 + U) ^ 2 * (A * P * (1 + 2 * U))). { apply Rmult_le_compat_l; [apply pow2_ge_0|]. rewrite Rmult_comm. exact T. }
  assert (B3 : A * P * ((1 + U) ^ 2 * (1 + 2 * U)) <= A * P * (1 + / 2 ^ 20)). { apply Rmult_le_compat_l; [exact AP|]. clear - HU. set (uu := U) in *. clearbody uu. assert ((1 + uu) ^ 2 <= 1 + 3 * uu) by nra. assert ((1 + uu) ^ 2 * (1 + 2 * uu) <= (1 + 3 * uu) * (1 + 2 * uu)) by (apply Rmult_le_compat_r; lra). nra. }
  set (x1 := (1 + U) ^ 2 * real (cv mu) * Rabs (real v)) in *. set (x2 := (1 + U) ^ 2 * (real (cv a) * Rabs (real g))) in *.
  replace ((1 + U) ^ 2 * (real (cv mu) * Rabs (real v) + real (cv a) * Rabs (real g)) + 3 * h) with (x1 + x2 + 3 * h) by (unfold x1, x2; ring).
  clearbody x1 x2 t. set (hh := h) in *. clearbody hh. set (ap := A * P) in *. clearbody ap. set (uu := U) in *. clearbody uu. clear - B1 B2 B3 Ht HM Hh AP.
  assert (/ 2 ^ 10 * / 2 ^ 120 <= t * / 2 ^ 120) by (apply Rmult_le_compat_r; lra). nra.
Qed.
Lemma velocity_full : finite v' /\ Rabs (real v') <= full (M + 0).
Proof. destruct velocity_op as (F & L). split; [exact F|]. destruct M_pos as (_ & M0 & _). unfold full. lra. Qed.
Lemma nesterov_op : let dl := fsub (fmul v' (cv (fadd fone mu))) (fmul v (cv mu)) in finite dl /\ Rabs (real dl) <= full (3 * M).
Proof.
  cbv zeta. destruct velocity_op as (F & L). destruct M_pos as (AP & M0 & AM). destruct (conv_momentum mu Hmu) as (Fm & Pm & _). destruct steps_max_facts as (S1 & R1 & R2 & R4 & _).
  pose proof (u_small d) as HU. pose proof (tiny_small d) as Hh. destruct Hmu as (Fmu & Hm). destruct (one_eq F64) as (F1 & E1).
  destruct (add_in F64 fone mu 0 2 F1 Fmu (rep_0 F64) (rep_int F64 2 ltac:(reflexivity))) as (F2 & P2 & _); [rewrite E1; lra|].
  destruct (conv_in F64 d (fadd fone mu) 0 2 F2 (rep_0 d) (rep_int d 2 ltac:(reflexivity)) P2) as (F3 & P3 & _).
  pose proof (Rabs_pos (real v)) as Pv. pose proof (Rabs_pos (real v')) as Pv'.
  assert (T1 : Rabs (real v' * real (cv (fadd fone mu))) <= (M + / 2 ^ 120) * 2). { rewrite Rabs_mult, (Rabs_right (real (cv (fadd fone mu)))) by lra. apply Rmult_le_compat; lra. }
  assert (T2 : Rabs (real v * real (cv mu)) <= (M + / 2 ^ 120) * 1). { rewrite Rabs_mult, (Rabs_right (real (cv mu))) by lra. apply Rmult_le_compat; lra. }
  destruct (mul_op v' (cv (fadd fone mu)) steps_max F F3 R1) as (Fa & _ & Na); [lra|]. destruct (mul_op v (cv mu) steps_max Fv Fm R1) as (Fb & _ & Nb); [lra|].
  apply near_le in Na. apply near_le in Nb. set (x := fmul v' (cv (fadd fone mu))) in *. set (y := fmul v (cv mu)) in *.
  assert (X : Rabs (real x - real y) <= (1 + U) * (3 * (M + / 2 ^ 120)) + 2 * h).
  { pose proof (Rabs_triang (real x) (- real y)) as T. rewrite Rabs_Ropp in T. unfold Rminus. eapply Rle_trans; [exact T|].
    assert ((1 + U) * Rabs (real v' * real (cv (fadd fone mu))) <= (1 + U) * ((M + / 2 ^ 120) * 2)) by (apply Rmult_le_compat_l; lra).
    assert ((1 + U) * Rabs (real v * real (cv mu)) <= (1 + U) * ((M + / 2 ^ 120) * 1)) by (apply Rmult_le_compat_l; lra). lra. }
  assert (UM : U * M <= / 2 ^ 24 * M) by (apply Rmult_le_compat_r; lra).
  destruct (sub_op x y steps_max Fa Fb R1) as (Fd & _ & N & _).
  { eapply Rle_trans; [exact X|]. assert (U * / 2 ^ 120 <= 1 * / 2 ^ 120) by (apply Rmult_le_compat_r; lra). lra. }
  split; [exact Fd|]. assert (near_to d (real (fsub x y)) (real x - real y)) by (unfold near_to; lra). assert (N' := near_le _ _ H). eapply Rle_trans; [exact N'|].
  assert ((1 + U) * Rabs (real x - real y) <= (1 + U) * ((1 + U) * (3 * (M + / 2 ^ 120)) + 2 * h)) by (apply Rmult_le_compat_l; lra). unfold full.
  set (uu := U) in *. set (hh := h) in *. clearbody uu hh. clear - H0 HU Hh M0. assert (E : (1 + uu) ^ 2 <= 1 + 3 * uu) by nra. assert ((1 + uu) ^ 2 * (3 * (M + / 2 ^ 120)) <= (1 + 3 * uu) * (3 * (M + / 2 ^ 120))) by (apply Rmult_le_compat_r; lra).
  assert (uu * (M + / 2 ^ 120) <= / 2 ^ 24 * (M + / 2 ^ 120)) by (apply Rmult_le_compat_r; lra). assert (uu * hh <= 1 * hh) by (apply Rmult_le_compat_r; lra). lra.
Qed.
End Velocity.

(** ** Histories *)
Section History.
Variables (A P B : R) (alpha : nat -> val F64) (mu : val F64) (r c : nat) (g : nat -> mat) (x0 : mat).
Hypothesis Ha : forall n, rate A (alpha n).
Hypothesis La : forall n, / 2 ^ 100 <= real (alpha n).
Hypothesis HA : 0 <= A <= 2 ^ 19.
Hypothesis HP : 0 <= P.
Hypothesis Hx : within d B r c x0.
Hypothesis Hg : forall n, within d P r c (g n).
Lemma triangle_step x y s : Rabs y <= s -> Rabs (x - y) <= Rabs x + s.
Proof. intros H. pose proof (Rabs_triang x (- y)) as T. rewrite Rabs_Ropp in T. unfold Rminus. lra. Qed.
Lemma sgd_bounded nest : is0 mu = true -> room d (P * A) B -> forall n, exists x x', successive d (fun n => sgd_optimize d (alpha n) mu nest) g x0 n x x' /\
  within d (2 * B) r c x /\ within d (2 * B) r c x' /\ moved_at_most d (P * real (alpha n)) r c x x'.
Proof.
  intros Z HB n.
  destruct (bounded_steps d (sgd_state d) (fun s => match s with SgdState _ s => Some s | _ => None end) (SgdState d) (sgd_fresh d mu nest)
    (fun n => sgd_update d (alpha n) mu nest) (fun s => eq_refl) g x0 r c (P * A) B (fun n => P * real (alpha n)) (fun _ => 0) (fun s => sgd_shaped mu nest s r c)) with (n := n) as (x & x' & S & W & W' & M).
  - apply Rmult_le_pos; lra.
  - exact HB.
  - intros m. destruct (Ha m) as (_ & ?). split; [apply Rmult_le_pos; lra|apply Rmult_le_compat_l; lra].
  - exact Hx.
  - apply sgd_fresh_shaped. eapply within_shaped; exact Hx.
  - clear n. intros n s x HI Wx. destruct (sgd_plain_elems (alpha n) mu nest (g n) s x r c Z HI (within_shaped _ _ _ _ _ (Hg n))) as (delta & s' & E & Ss' & Sd & H).
    exists delta, s'. split; [exact E|]. split; [exact Ss'|]. split; [exact Sd|]. intros i j Hi Hj. rewrite (H i j Hi Hj). destruct (Hg n) as (_ & _ & _ & HG). destruct (HG i j Hi Hj) as (Fg & Lg).
    destruct (plain_op A P _ (alpha n) (Ha n) (La n) ltac:(lra) Fg Lg (room_steps _ _ HB)) as (F & L). split; [exact F|]. rewrite Rmult_0_l, Rplus_0_r. split; [exact L|]. now apply triangle_step.
  - exists x, x'. split; [exact S|]. split; [exact W|]. split; [exact W'|]. apply moved_plain; [apply Rmult_le_pos; [lra|apply Ha]|exact M].
Qed.
Lemma momentum_bounded M (nest : bool) : is0 mu = false -> momentum mu -> (1 - real mu) * M = 2 * (A * P) -> room d (3 * M) B ->
  forall n, exists x x', successive d (fun n => sgd_optimize d (alpha n) mu nest) g x0 n x x' /\
  within d (2 * B) r c x /\ within d (2 * B) r c x' /\ moved_at_most d (if nest then 3 * M else M) r c x x'.
Proof.
  intros Z Hmu HM HB n. assert (PA : 0 <= A * P) by (apply Rmult_le_pos; lra).
  assert (M0 : 0 <= M). { destruct (Rle_or_lt 0 M) as [?|N]; auto. destruct Hmu as (_ & Hm). assert (/ 2 ^ 10 * - M <= (1 - real mu) * - M) by (apply Rmult_le_compat_r; lra). lra. }
  pose proof (room_steps _ _ HB) as Hs.
  destruct (bounded_steps d (sgd_state d) (fun s => match s with SgdState _ s => Some s | _ => None end) (SgdState d) (sgd_fresh d mu nest)
    (fun n => sgd_update d (alpha n) mu nest) (fun s => eq_refl) g x0 r c (3 * M) B (fun n => if nest then 3 * M else M) (fun _ => 0)
    (fun s => sgd_shaped mu nest s r c /\ forall i j, (i < r)%nat -> (j < c)%nat -> finite (get (sg_v d s) i j) /\ Rabs (real (get (sg_v d s) i j)) <= M + / 2 ^ 120)) with (n := n) as (x & x' & S & W & W' & V).
  - lra.
  - exact HB.
  - intros m. destruct nest; lra.
  - exact Hx.
  - destruct (sgd_fresh_shaped mu nest x0 r c (within_shaped _ _ _ _ _ Hx)) as (S & E). split; [exact S|]. intros i j Hi Hj. rewrite E by assumption. split; [reflexivity|]. cbn. rewrite Rabs_R0. lra.
  - clear n. intros n s x (HI & HV) Wx. destruct (sgd_momentum_elems (alpha n) mu nest (g n) s x r c Z HI (within_shaped _ _ _ _ _ (Hg n))) as (delta & s' & E & Ss' & Sd & H).
    exists delta, s'. split; [exact E|]. split; [split; [exact Ss'|]|split; [exact Sd|]].
    + intros i j Hi Hj. destruct (H i j Hi Hj) as (E1 & _). rewrite E1. destruct (Hg n) as (_ & _ & _ & HG). destruct (HG i j Hi Hj) as (Fg & Lg). destruct (HV i j Hi Hj) as (Fv & Lv).
      apply (velocity_op A P M); auto; lra.
    + intros i j Hi Hj. destruct (H i j Hi Hj) as (_ & E2). rewrite E2. destruct (Hg n) as (_ & _ & _ & HG). destruct (HG i j Hi Hj) as (Fg & Lg). destruct (HV i j Hi Hj) as (Fv & Lv).
      rewrite Rmult_0_l, Rplus_0_r. destruct nest.
      * destruct (nesterov_op A P M mu (alpha n) _ _ Hmu HM ltac:(lra) (Ha n) (La n) ltac:(lra) Fv Lv Fg Lg) as (F & L). split; [exact F|]. split; [exact L|]. now apply triangle_step.
      * destruct (velocity_full A P M mu (alpha n) _ _ Hmu HM ltac:(lra) (Ha n) (La n) ltac:(lra) Fv Lv Fg Lg) as (F & L). rewrite Rplus_0_r in L. split; [exact F|]. split; [exact L|]. now apply triangle_step.
  - exists x, x'. split; [exact S|]. split; [exact W|]. split; [exact W'|]. apply moved_plain; [destruct nest; lra|exact V].
Qed.
End History.
End Sgd.
