(** * Learning rate decay and gradient clipping *)
From Coq Require Import Reals List Arith ZArith Bool Lia Lra Psatz.
From Coquelicot Require Import Coquelicot.
From Verif Require Import DenseModel DenseSpec DenseLemmas ArithModel ArithSpec ArithProofs GradModel GradSpec GradLemmas GradProofs GradProofs9 OptModel OptSpec OptProofs OptProofs2.
Import ListNotations.
Open Scope R_scope.

(** ** Exponential decay *)
(** the rate at time n: on the straight line between ln init and ln final *)
Definition exp_rate (init final : R) (times : Z) (n : nat) : R :=
  exp (ln final + (ln init - ln final) * (IZR (times - Z.max 1 (Z.min times (Z.of_nat n))) / IZR (times - 1))).
Lemma exp_rate_closed init final times n : 0 < final <= init -> (1 < times)%Z -> rates (exp_decay final times) init n = Some (exp_rate init final times n).
Proof.
  intros Hf Ht. assert (T1 : IZR (times - 1) <> 0) by (intros E; apply eq_IZR in E; lia).
  assert (L : ln final <= ln init) by (destruct Hf as [? [?| ->]]; [left; apply ln_increasing; lra|lra]).
  induction n as [|n IH].
  - cbn [rates]. unfold exp_rate. replace (Z.max 1 (Z.min times (Z.of_nat 0))) with 1%Z by lia. f_equal. unfold Rdiv. rewrite Rinv_r by auto.
    replace (ln final + (ln init - ln final) * 1) with (ln init) by ring. rewrite exp_ln; lra.
  - cbn [rates]. rewrite IH. unfold exp_decay. destruct (Z.ltb_spec 1 (Z.of_nat (S n))) as [Hn|Hn].
    + unfold Rltb. destruct (Rlt_dec final (exp_rate init final times n)) as [Hlt|Hge]; cbn [andb].
      * assert (HT : (Z.of_nat n < times)%Z).
        { destruct (Z.lt_ge_cases (Z.of_nat n) times); [assumption|]. exfalso. revert Hlt. unfold exp_rate.
          replace (Z.max 1 (Z.min times (Z.of_nat n))) with times by lia. replace (times - times)%Z with 0%Z by lia.
          replace (ln final + (ln init - ln final) * (0 / IZR (times - 1))) with (ln final) by (unfold Rdiv; ring). rewrite exp_ln by lra. lra. }
        destruct (Z.eqb_spec (times - Z.of_nat (S n) + 1) 0); [lia|]. f_equal. unfold exp_rate at 2. unfold exp_rate. rewrite ln_exp. f_equal.
        replace (Z.max 1 (Z.min times (Z.of_nat n))) with (Z.of_nat n) by lia. replace (Z.max 1 (Z.min times (Z.of_nat (S n)))) with (Z.of_nat (S n)) by lia.
        replace (times - Z.of_nat n)%Z with (times - Z.of_nat (S n) + 1)%Z by lia. rewrite plus_IZR. field. split; auto. intros E. assert (E' : IZR (times - Z.of_nat (S n) + 1) = 0) by (rewrite plus_IZR; lra). apply eq_IZR in E'. lia.
      * f_equal. (* the rate equals final already *)
        assert (H0 : 0 <= (ln init - ln final) * (IZR (times - Z.max 1 (Z.min times (Z.of_nat n))) / IZR (times - 1))).
        { apply Rmult_le_pos; [lra|]. apply Rmult_le_pos; [apply IZR_le; lia|]. left. apply Rinv_0_lt_compat. apply IZR_lt. lia. }
        assert (HE : (ln init - ln final) * (IZR (times - Z.max 1 (Z.min times (Z.of_nat n))) / IZR (times - 1)) = 0).
        { destruct (Rle_lt_or_eq_dec _ _ H0) as [P|P]; [|auto]. exfalso. apply Hge. unfold exp_rate. rewrite <- (exp_ln final) at 1 by lra. apply exp_increasing. lra. }
        unfold exp_rate. rewrite HE. apply Rmult_integral in HE. destruct HE as [HE|HE].
        -- rewrite HE, Rmult_0_l. reflexivity.
        -- apply Rmult_integral in HE. destruct HE as [HE|HE]; [|exfalso; revert HE; apply Rinv_neq_0_compat; auto].
           apply eq_IZR in HE. replace (Z.max 1 (Z.min times (Z.of_nat (S n)))) with times by lia. replace (times - times)%Z with 0%Z by lia. f_equal. unfold Rdiv. ring.
    + cbn [andb]. f_equal. assert (n = 0)%nat by lia. subst n. unfold exp_rate. now replace (Z.max 1 (Z.min times (Z.of_nat 0))) with (Z.max 1 (Z.min times (Z.of_nat 1))) by lia.
Qed.
Lemma exp_rate_facts init final times : 0 < final <= init -> (1 < times)%Z ->
  exp_rate init final times 0 = init /\ exp_rate init final times 1 = init /\ (forall n, final <= exp_rate init final times n) /\ (forall n, exp_rate init final times (S n) <= exp_rate init final times n) /\
  (forall n, (times <= Z.of_nat n)%Z -> exp_rate init final times n = final) /\
  (final < init -> forall n, (1 <= n)%nat -> (Z.of_nat n < times)%Z -> exp_rate init final times (S n) < exp_rate init final times n).
Proof.
  intros Hf Ht. assert (T1 : IZR (times - 1) <> 0) by (intros E; apply eq_IZR in E; lia). assert (T0 : 0 < / IZR (times - 1)) by (apply Rinv_0_lt_compat, IZR_lt; lia).
  assert (L : ln final <= ln init) by (destruct Hf as [? [?| ->]]; [left; apply ln_increasing; lra|lra]). 
  assert (M : forall x y, x <= y -> exp x <= exp y) by (intros x y [?| ->]; [left; now apply exp_increasing|lra]).
  assert (I1 : exp_rate init final times 1 = init).
  { unfold exp_rate. replace (Z.max 1 (Z.min times (Z.of_nat 1))) with 1%Z by lia. unfold Rdiv. rewrite Rinv_r by auto.
    replace (ln final + (ln init - ln final) * 1) with (ln init) by ring. rewrite exp_ln; lra. }
  split; [|split; [exact I1|]].
  { rewrite <- I1 at 2. unfold exp_rate. now replace (Z.max 1 (Z.min times (Z.of_nat 0))) with (Z.max 1 (Z.min times (Z.of_nat 1))) by lia. }
  split; [|split; [|split]].
  - intros n. rewrite <- (exp_ln final) at 1 by lra. apply M. apply Rle_trans with (ln final + 0); [lra|]. apply Rplus_le_compat_l. apply Rmult_le_pos; [lra|]. apply Rmult_le_pos; [apply IZR_le; lia|lra].
  - intros n. apply M. apply Rplus_le_compat_l. apply Rmult_le_compat_l; [lra|]. apply Rmult_le_compat_r; [lra|]. apply IZR_le. lia.
  - intros n Hn. unfold exp_rate. replace (Z.max 1 (Z.min times (Z.of_nat n))) with times by lia. replace (times - times)%Z with 0%Z by lia.
    replace (ln final + (ln init - ln final) * (0 / IZR (times - 1))) with (ln final) by (unfold Rdiv; ring). rewrite exp_ln; lra.
  - intros Hlt n H1 Hn. apply exp_increasing. apply Rplus_lt_compat_l. assert (ln final < ln init) by (apply ln_increasing; lra). apply Rmult_lt_compat_l; [lra|]. apply Rmult_lt_compat_r; [lra|]. apply IZR_lt. lia.
Qed.

(** ** Hyperbolic decay *)
Lemma hyp_facts init final rate : 0 < final <= init -> 0 < rate -> forall n, exists lr lr',
  rates (fun lr t => Some (hyp_decay init final rate lr t)) init n = Some lr /\
  rates (fun lr t => Some (hyp_decay init final rate lr t)) init (S n) = Some lr' /\
  lr' <= lr /\ ((n <= 1)%nat -> lr = init) /\ (lr <= final -> lr' = lr) /\
  (final < lr -> (1 <= n)%nat -> lr' = init / (1 + rate * INR (S n))) /\ final / (1 + 2 * rate) <= lr.
Proof.
  intros Hf Hr. set (d := fun lr t => Some (hyp_decay init final rate lr t)).
  assert (Pos : forall k, 0 < 1 + rate * INR k) by (intros k; pose proof (pos_INR k); nra).
  assert (Inv : forall n, exists lr, rates d init n = Some lr /\ ((n <= 1)%nat -> lr = init) /\
    ((2 <= n)%nat -> final < lr -> lr = init / (1 + rate * INR n)) /\ final / (1 + 2 * rate) <= lr).
  { induction n as [|n (lr & E & S0 & C & O)].
    - exists init. cbn [rates]. repeat split; auto; try (intros; lia). apply (Rmult_le_reg_r (1 + 2 * rate)); [lra|]. unfold Rdiv. rewrite Rmult_assoc, Rinv_l by lra. nra.
    - cbn [rates]. rewrite E. unfold d at 1. unfold hyp_decay. eexists. split; [reflexivity|]. unfold Rltb. destruct (Rlt_dec 0 rate); [|contradiction].
      destruct (Z.ltb_spec 1 (Z.of_nat (S n))) as [Hn|Hn]; cbn [andb].
      + destruct (Rlt_dec final lr) as [Hlt|Hge].
        * rewrite <- INR_IZR_INZ. split; [intros; lia|]. split; [auto|].
          assert (HL : final * (1 + rate * INR (S n)) <= init * (1 + 2 * rate)).
          { destruct (Nat.eq_dec n 1) as [->|Hn1]; [cbn [INR]; nra|]. rewrite (C ltac:(lia) Hlt) in Hlt.
            apply (Rmult_lt_compat_r (1 + rate * INR n)) in Hlt; [|apply Pos]. unfold Rdiv in Hlt. rewrite Rmult_assoc, Rinv_l in Hlt by (specialize (Pos n); lra).
            rewrite S_INR. pose proof (pos_INR n). assert (1 <= INR n) by (change 1 with (INR 1); apply le_INR; lia). nra. }
          pose proof (Pos (S n)). apply (Rmult_le_reg_r ((1 + 2 * rate) * (1 + rate * INR (S n)))); [nra|].
          replace (final / (1 + 2 * rate) * ((1 + 2 * rate) * (1 + rate * INR (S n)))) with (final * (1 + rate * INR (S n))) by (field; lra).
          replace (init / (1 + rate * INR (S n)) * ((1 + 2 * rate) * (1 + rate * INR (S n)))) with (init * (1 + 2 * rate)) by (field; lra). exact HL.
        * split; [intros; lia|]. split; [intros; lra|exact O].
      + split; [intros; apply S0; lia|]. split; [intros; lia|exact O]. }
  intros n. destruct (Inv n) as (lr & E & S0 & C & O). exists lr. cbn [rates]. rewrite E. unfold d. eexists. split; [reflexivity|]. split; [reflexivity|].
  unfold hyp_decay, Rltb. destruct (Rlt_dec 0 rate); [|contradiction]. destruct (Z.ltb_spec 1 (Z.of_nat (S n))) as [Hn|Hn]; cbn [andb].
  - destruct (Rlt_dec final lr) as [Hlt|Hge].
    + rewrite <- INR_IZR_INZ. split; [|repeat split; auto; intros; lra].
      assert (L : init / (1 + rate * INR (S n)) <= init / (1 + rate * INR n)).
      { apply Rmult_le_compat_l; [lra|]. apply Rinv_le_contravar; [apply Pos|]. rewrite S_INR. nra. }
      destruct (Nat.eq_dec n 1) as [->|Hn1]; [|now rewrite (C ltac:(lia) Hlt)]. rewrite S0 by lia. apply (Rmult_le_reg_r (1 + rate * INR 2)); [apply Pos|].
      unfold Rdiv. rewrite Rmult_assoc, Rinv_l by (specialize (Pos 2%nat); lra). pose proof (Pos 2%nat). cbn [INR] in *. nra.
    + split; [lra|]. repeat split; auto. intros; lra.
  - split; [lra|]. repeat split; auto. intros; lia.
Qed.

(** ** Clipping *)
Lemma map_seq_self {A} (f : R -> A) (l : list R) : map (fun p => f (nth p l 0)) (seq 0 (length l)) = map f l.
Proof. rewrite <- map_map. f_equal. apply (List.nth_ext _ _ 0 0); rewrite map_length, seq_length; [auto|]. intros n Hn. now rewrite nth_map_seq. Qed.
Lemma unary_data f m : data (m_unary f m) = map f (data m).
Proof. unfold m_unary, mat_unary. cbn [data]. rewrite (loop_all 0 (fun i _ => f (nth i (data m) 0))); [apply map_seq_self|reflexivity|now rewrite repeat_length]. Qed.
Lemma prods_data m k : data (m_prods_in m k) = map (fun v => v * k) (data m).
Proof. unfold m_prods_in, mat_const_in_place, const_kernel_in_place. cbn [data]. rewrite (loop_all 0 (fun i v => v * k)); [|reflexivity|reflexivity]. apply (map_seq_self (fun v => v * k)). Qed.
Lemma mat_sum_data m : mat_sum 0 Rplus m = fold_right Rplus 0 (data m).
Proof.
  unfold mat_sum, sum_kernel. assert (G : forall l a, fold_left Rplus l a = a + fold_right Rplus 0 l).
  { induction l as [|x l IH]; intros a; cbn [fold_left fold_right]; [ring|]. rewrite IH. ring. }
  rewrite G. ring.
Qed.
Definition bounded_by (v x : R) : R := if Rlt_dec x (- v) then - v else if Rlt_dec v x then v else x.
Lemma clip_data m v : 0 <= v -> m_clip m (- v) v = Some (mkDense (rows m) (cols m) (map (bounded_by v) (data m))).
Proof.
  intros Hv. unfold m_clip, clip_in_place. unfold Rltb at 1. destruct (Rlt_dec v (- v)); [lra|]. do 2 f_equal.
  rewrite (loop_all 0 (fun _ x => bounded_by v x)); [|intros i st Hi|reflexivity].
  - apply (map_seq_self (bounded_by v)).
  - cbv zeta. unfold bounded_by, Rltb. destruct (Rlt_dec _ _); [reflexivity|]. destruct (Rlt_dec _ _); [reflexivity|].
    apply (List.nth_ext _ _ 0 0); [now rewrite put_length|]. intros p Hp. rewrite put_nth by assumption. destruct (Nat.eqb_spec i p); subst; auto.
Qed.
Lemma collect_all ps : List.Forall has_grad ps -> exists gs, all_some (collect ps) = Some gs /\ length gs = length ps /\
  (forall p g, In (p, g) (combine ps gs) -> p_grad p = Some g /\ wf g) /\ gradients ps = flat_map (@data R) gs.
Proof.
  unfold collect. induction ps as [|p ps IH]; intros H; [exists []; cbn; repeat split; auto; contradiction|].
  apply List.Forall_cons_iff in H. destruct H as ((g & Hg & Hw) & H). destruct (IH H) as (gs & E & L & C & G). exists (g :: gs). cbn [map all_some]. rewrite Hg. cbn [bind]. rewrite E. cbn [bind].
  split; [reflexivity|]. split; [cbn; auto|]. split; [|unfold gradients in *; cbn [flat_map]; now rewrite Hg, G]. intros q h [Hq|Hq]; [injection Hq as <- <-; auto|auto].
Qed.
Lemma put_graded ps : forall gs gs' (f : R -> R), length gs = length ps -> (forall p g, In (p, g) (combine ps gs) -> p_grad p = Some g /\ wf g) ->
  List.Forall2 (fun g g' => same_shape g g' /\ data g' = map f (data g)) gs gs' -> List.Forall2 (graded f) ps (put_grads ps gs').
Proof.
  unfold put_grads. induction ps as [|p ps IH]; intros [|g gs] gs' f L C H; cbn in *; try discriminate; [constructor|].
  inversion H as [|a b la lb (Hs & Hd) H' e1 e2]; subst. cbn. constructor.
  - destruct (C p g (or_introl eq_refl)) as (Hg & Hw). unfold graded. cbn. split; [auto|]. split; [auto|]. exists g, b. auto.
  - apply (IH gs lb f); auto.
Qed.
Lemma value_clip_spec v ps : 0 <= v -> List.Forall has_grad ps -> exists ps', value_clip v ps = Some ps' /\ List.Forall2 (graded (bounded_by v)) ps ps'.
Proof.
  intros Hv H. destruct (collect_all ps H) as (gs & E & L & C & _). unfold value_clip. rewrite E. cbn [bind].
  assert (M : forall gs, exists gs', map_opt (fun g => m_clip g (- v) v) gs = Some gs' /\ List.Forall2 (fun g g' => same_shape g g' /\ data g' = map (bounded_by v) (data g)) gs gs').
  { clear - Hv. induction gs as [|g gs (gs' & E & F)]; [exists []; split; [reflexivity|constructor]|]. cbn. rewrite clip_data by auto. cbn [bind]. rewrite E. cbn [bind].
    eexists. split; [reflexivity|]. constructor; [|exact F]. split; [split; reflexivity|reflexivity]. }
  destruct (M gs) as (gs' & EM & FM). rewrite EM. cbn [bind]. eexists. split; [reflexivity|]. apply (put_graded ps gs gs'); auto.
Qed.
Lemma bounded_by_abs v x : 0 <= v -> Rabs (bounded_by v x) <= v /\ (Rabs x <= v -> bounded_by v x = x) /\ (v < Rabs x -> Rabs (bounded_by v x) = v /\ 0 <= bounded_by v x * x).
Proof.
  intros Hv. unfold bounded_by. destruct (Rlt_dec x (- v)); [|destruct (Rlt_dec v x)].
  - rewrite Rabs_Ropp, (Rabs_right v) by lra. rewrite (Rabs_left x) by lra. repeat split; intros; try lra. nra.
  - rewrite (Rabs_right v), (Rabs_right x) by lra. repeat split; intros; try lra. nra.
  - assert (Rabs x <= v) by (apply Rabs_le; lra). repeat split; intros; auto; lra.
Qed.

(** *** norms *)
Lemma pow_abspow x q : 0 <= x -> OptModel.pow x q = abspow x q.
Proof. intros H. unfold OptModel.pow, abspow, Ris0. destruct (Req_EM_T x 0); [reflexivity|]. now rewrite Rabs_right by lra. Qed.
Lemma abspow_nonneg x q : 0 <= abspow x q.
Proof. unfold abspow. destruct (Req_EM_T x 0); [lra|]. unfold Rpower. left. apply exp_pos. Qed.
Lemma abspow_abs x q : abspow (Rabs x) q = abspow x q.
Proof. unfold abspow. destruct (Req_EM_T x 0) as [->|H]; [rewrite Rabs_R0; now destruct (Req_EM_T 0 0)|]. destruct (Req_EM_T (Rabs x) 0) as [E|E]; [apply Rabs_no_R0 in H; contradiction|]. now rewrite Rabs_Rabsolu. Qed.
Lemma abspow_mult k x q : abspow (k * x) q = abspow k q * abspow x q.
Proof.
  unfold abspow. destruct (Req_EM_T k 0) as [->|Hk]; [rewrite Rmult_0_l; destruct (Req_EM_T 0 0); [ring|contradiction]|].
  destruct (Req_EM_T x 0) as [->|Hx]; [rewrite Rmult_0_r; destruct (Req_EM_T 0 0); [ring|contradiction]|].
  destruct (Req_EM_T (k * x) 0) as [E|E]; [apply Rmult_integral in E; tauto|]. rewrite Rabs_mult. symmetry. apply Rpower_mult_distr; now apply Rabs_pos_lt.
Qed.
Lemma abspow_inv k q : q <> 0 -> 0 <= k -> abspow (abspow k q) (1 / q) = k.
Proof.
  intros Hq Hk. unfold abspow. destruct (Req_EM_T k 0) as [->|H0]; [now destruct (Req_EM_T 0 0)|]. destruct (Req_EM_T (Rpower (Rabs k) q) 0) as [E|E].
  - unfold Rpower in E. pose proof (exp_pos (q * ln (Rabs k))). lra.
  - rewrite (Rabs_right (Rpower _ _)) by (left; apply exp_pos). rewrite Rpower_mult. replace (q * (1 / q)) with 1 by (field; auto). rewrite Rpower_1 by now apply Rabs_pos_lt. apply Rabs_right. lra.
Qed.
Lemma sum_nonneg l : (forall x, In x l -> 0 <= x) -> 0 <= fold_right Rplus 0 l.
Proof. induction l as [|x l IH]; intros H; cbn; [lra|]. pose proof (H x (or_introl eq_refl)). assert (0 <= fold_right Rplus 0 l) by (apply IH; intros; apply H; now right). lra. Qed.
Lemma qnorm_scale q k xs : q <> 0 -> 0 <= k -> qnorm q (map (fun x => x * k) xs) = k * qnorm q xs.
Proof.
  intros Hq Hk. unfold qnorm. rewrite map_map.
  assert (E : fold_right Rplus 0 (map (fun x => abspow (x * k) q) xs) = abspow k q * fold_right Rplus 0 (map (fun x => abspow x q) xs)).
  { induction xs as [|x xs IH]; cbn; [ring|]. rewrite IH, abspow_mult. ring. }
  rewrite E, abspow_mult, abspow_inv by auto. reflexivity.
Qed.
Lemma total_norm_some q gs : 1 < q -> total_norm (Some q) gs = Some (qnorm q (flat_map (@data R) gs)).
Proof.
  intros Hq. unfold total_norm, qnorm. f_equal.
  assert (E : forall gs a, fold_left (fun s g => s + mat_sum 0 Rplus (m_unary (fun v => OptModel.pow v q) (m_unary Rabs g))) gs a = a + fold_right Rplus 0 (map (fun x => abspow x q) (flat_map (@data R) gs))).
  { clear gs. induction gs as [|g gs IH]; intros a; cbn [fold_left flat_map]; [cbn; ring|]. rewrite IH, map_app, fold_right_app, mat_sum_data, !unary_data, map_map.
    assert (G : forall l b, fold_right Rplus b (map (fun x => abspow x q) l) = fold_right Rplus 0 (map (fun x => OptModel.pow (Rabs x) q) l) + b).
    { induction l as [|x l IHl]; intros b; cbn; [ring|]. rewrite IHl, pow_abspow, abspow_abs by apply Rabs_pos. ring. }
    rewrite (G (data g)). ring. }
  rewrite E, Rplus_0_l. apply pow_abspow. apply sum_nonneg. intros x Hx. apply in_map_iff in Hx. destruct Hx as (y & <- & _). apply abspow_nonneg.
Qed.
Lemma total_norm_none gs : (forall g, In g gs -> data g <> []) -> exists n, total_norm None gs = Some n /\ 0 <= n /\ maxnorm n (flat_map (@data R) gs).
Proof.
  intros Hne. unfold total_norm.
  assert (E : forall gs a l, (forall g, In g gs -> data g <> []) -> 0 <= a -> maxnorm a l -> exists n, fold_left (fun acc g => bind acc (fun acc => bind (mat_max Rltb (m_unary Rabs g)) (fun mx => Some (Rmax mx acc)))) gs (Some a) = Some n /\
    0 <= n /\ maxnorm n (l ++ flat_map (@data R) gs)).
  { clear gs Hne. induction gs as [|g gs IH]; intros a l Hne Ha M; cbn [fold_left flat_map].
    - exists a. rewrite app_nil_r. auto.
    - cbn [bind]. destruct (mat_max Rltb (m_unary Rabs g)) as [mx|] eqn:Em.
      + cbn [bind]. rewrite app_assoc. apply IH; [intros; apply Hne; now right|unfold Rmax; destruct (Rle_dec mx a); lra|].
        destruct (max_min_spec Rltb R_order (m_unary Rabs g)) as (Hm & _). destruct (Hm mx Em) as (Hin & Hle). rewrite unary_data in Hin, Hle.
        assert (Hle' : forall x, In x (data g) -> Rabs x <= mx).
        { intros x Hx. specialize (Hle (Rabs x) (in_map Rabs _ _ Hx)). unfold Rltb in Hle. destruct (Rlt_dec mx (Rabs x)); [discriminate|lra]. }
        destruct M as (M1 & M2). split.
        * intros x Hx. apply in_app_iff in Hx. destruct Hx as [Hx|Hx]; [specialize (M1 x Hx)|specialize (Hle' x Hx)]; unfold Rmax; destruct (Rle_dec mx a); lra.
        * apply in_map_iff in Hin. destruct Hin as (y & Hy & Hin). unfold Rmax. destruct (Rle_dec mx a).
          -- destruct M2 as [M2|(x & Hx & M2)]; [auto|]. right. exists x. split; [apply in_app_iff; auto|auto].
          -- right. exists y. split; [apply in_app_iff; auto|auto].
      + exfalso. destruct (max_min_spec Rltb R_order (m_unary Rabs g)) as (_ & _ & Hn & _). apply Hn in Em. rewrite unary_data in Em. apply map_eq_nil in Em. apply (Hne g); [now left|auto]. }
  destruct (E gs 0 [] Hne ltac:(lra)) as (n & H1 & H2 & H3); [split; [intros x []|auto]|]. exists n. auto.
Qed.
Lemma maxnorm_scale n k xs : 0 <= k -> maxnorm n xs -> maxnorm (k * n) (map (fun x => x * k) xs).
Proof.
  intros Hk (M1 & M2). split.
  - intros y Hy. apply in_map_iff in Hy. destruct Hy as (x & <- & Hx). rewrite Rabs_mult, (Rabs_right k) by lra. specialize (M1 x Hx). pose proof (Rabs_pos x). nra.
  - destruct M2 as [->|(x & Hx & M2)]; [left; ring|]. right. exists (x * k). split; [now apply (in_map (fun x => x * k))|]. rewrite Rabs_mult, (Rabs_right k), M2 by lra. ring.
Qed.
Lemma is_norm_scale t n k xs : (forall q, t = Some q -> 1 < q) -> 0 <= k -> is_norm t n xs -> is_norm t (k * n) (map (fun x => x * k) xs).
Proof.
  intros Ht Hk. destruct t as [q|]; cbn.
  - intros ->. rewrite qnorm_scale; auto. specialize (Ht q eq_refl). lra.
  - intros (H0 & M). split; [nra|now apply maxnorm_scale].
Qed.
Lemma gradients_graded f ps ps' : List.Forall2 (graded f) ps ps' -> gradients ps' = map f (gradients ps).
Proof.
  unfold gradients. induction 1 as [|p p' ps ps' (_ & _ & g & g' & H1 & H2 & _ & H3) F IH]; [reflexivity|]. cbn. now rewrite H1, H2, H3, map_app, IH.
Qed.
Lemma norm_exists t ps gs : (forall q, t = Some q -> 1 < q) -> gradients ps = flat_map (@data R) gs -> (t = None -> forall g, In g gs -> data g <> []) ->
  exists n, total_norm t gs = Some n /\ 0 <= n /\ is_norm t n (gradients ps).
Proof.
  intros Ht G Hne. rewrite G. destruct t as [q|].
  - exists (qnorm q (flat_map (@data R) gs)). rewrite total_norm_some by now apply Ht. split; [reflexivity|]. split; [apply abspow_nonneg|reflexivity].
  - destruct (total_norm_none gs (Hne eq_refl)) as (n & H1 & H2 & H3). exists n. cbn. auto.
Qed.
Lemma norm_clip_spec M t ps : 0 <= M -> (forall q, t = Some q -> 1 < q) -> List.Forall has_grad ps ->
  (forall p g, In p ps -> p_grad p = Some g -> data g <> []) -> exists ps' n n' k,
  norm_clip M t ps = Some ps' /\ is_norm t n (gradients ps) /\ is_norm t n' (gradients ps') /\ n' <= M /\ n' = k * n /\
  0 <= k <= 1 /\ List.Forall2 (graded (fun x => x * k)) ps ps' /\ (n + 1e-7 <= M -> ps' = ps) /\ (M < n + 1e-7 -> k = M / (n + 1e-7)).
Proof.
  intros HM Ht H Hne. destruct (collect_all ps H) as (gs & E & L & C & G).
  assert (Hne' : forall g, In g gs -> data g <> []).
  { intros g Hg. destruct (In_nth gs g g Hg) as (i & Hi & <-). assert (exists p, In (p, nth i gs g) (combine ps gs)) as (p & Hp).
    { exists (nth i ps (mkParam g None None)). rewrite <- combine_nth by auto. apply nth_In. rewrite combine_length. lia. }
    apply (Hne p); [now apply in_combine_l in Hp|]. now apply C. }
  destruct (norm_exists t ps gs Ht G (fun _ => Hne')) as (n & En & N0 & N).
  unfold norm_clip. replace (match t with None => true | Some q => negb (Rleb q 1) end) with true.
  2:{ destruct t as [q|]; [|reflexivity]. specialize (Ht q eq_refl). unfold Rleb. destruct (Rle_dec q 1); [lra|reflexivity]. }
  cbn [guard]. rewrite E. cbn [bind]. rewrite En. cbn [bind]. cbv zeta.
  assert (FI : List.Forall2 (graded (fun x => x * 1)) ps ps).
  { clear - H. induction H as [|p ps (g & Hg & Hw) F IH]; constructor; auto. split; [auto|]. split; [auto|]. exists g, g. repeat split; auto.
    rewrite <- (map_id (data g)) at 1. apply map_ext. intros. ring. }
  assert (HP : forall k, List.Forall2 (graded (fun x => x * k)) ps (put_grads ps (map (fun g => m_prods_in g k) gs))).
  { intros k. apply (put_graded ps gs); auto. clear. induction gs as [|g gs IH]; cbn; constructor; auto. split; [split; reflexivity|apply prods_data]. }
  unfold Rltb. destruct (Rlt_dec (M / (n + 1e-7)) 1) as [Hlt|Hge].
  - set (k := M / (n + 1e-7)) in *. assert (K0 : 0 <= k) by (apply Rmult_le_pos; [lra|left; apply Rinv_0_lt_compat; lra]).
    assert (KM : k * (n + 1e-7) = M) by (unfold k; field; lra).
    eexists. exists n, (k * n), k. split; [reflexivity|]. split; [exact N|]. split; [|split; [nra|split; [reflexivity|split; [lra|split; [apply HP|split; [intros; exfalso; nra|auto]]]]]].
    rewrite (gradients_graded _ _ _ (HP k)). now apply is_norm_scale.
  - assert (n + 1e-7 <= M).
    { apply Rnot_lt_le. intros Hl. apply Hge. apply (Rmult_lt_reg_r (n + 1e-7)); [lra|]. unfold Rdiv. rewrite Rmult_assoc, Rinv_l by lra. lra. }
    exists ps, n, n, 1. split; [reflexivity|]. split; [exact N|]. split; [exact N|]. split; [lra|]. split; [ring|]. split; [lra|]. split; [exact FI|]. split; [auto|intros; lra].
Qed.
Lemma clip_nil ps p : In p ps -> p_grad p = None -> all_some (collect ps) = None.
Proof.
  unfold collect. induction ps as [|q ps IH]; [intros []|]. intros [->|Hin] E; cbn; [now rewrite E|]. destruct (p_grad q); cbn [bind]; [|reflexivity]. now rewrite IH.
Qed.
