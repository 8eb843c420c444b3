(** * Proofs about random floating point numbers and weighted choice *)
From Coq Require Import List ZArith Reals Lia Lra.
From Flocq Require Import Core.
From Verif Require Import RandModel RandSpec RandPeriod RandProofs RandFloatModel.
Import ListNotations.
Open Scope R_scope.

Lemma exact64 k e : (0 <= k < 2 ^ 53)%Z -> (-1074 <= e)%Z -> round64 (IZR k * bpow radix2 e) = IZR k * bpow radix2 e.
Proof.
  intros Hk He. unfold round64. apply round_generic; [apply valid_rnd_N|].
  apply generic_format_FLT. exists (Float radix2 k e); [reflexivity| |assumption].
  cbn [Fnum]. rewrite Z.abs_eq by lia. change (Zpower radix2 53) with (2 ^ 53)%Z. lia.
Qed.

Lemma float64_value_exact k : (0 <= k < 2 ^ 53)%Z -> float64_value k = IZR k / IZR (2 ^ 53).
Proof.
  intros Hk. unfold float64_value. 
  assert (E0 : round64 (IZR k) = IZR k).
  { rewrite <- (Rmult_1_r (IZR k)). change 1 with (bpow radix2 0). apply exact64; lia. }
  rewrite E0. replace (IZR k / IZR (2 ^ 53)) with (IZR k * bpow radix2 (-53)).
  - apply exact64; lia.
  - unfold Rdiv. f_equal.
Qed.

Lemma float64_value_range k : (0 <= k < 2 ^ 53)%Z -> 0 <= float64_value k < 1.
Proof.
  intros Hk. rewrite float64_value_exact by assumption.
  assert (0 <= IZR k) by (apply IZR_le; lia). assert (IZR k < IZR (2 ^ 53)) by (apply IZR_lt; lia).
  assert (0 < IZR (2 ^ 53)) by (apply IZR_lt; lia). split.
  - apply Rmult_le_pos; [assumption|]. left. now apply Rinv_0_lt_compat.
  - apply (Rmult_lt_reg_r (IZR (2 ^ 53))); [assumption|]. unfold Rdiv. rewrite Rmult_assoc, Rinv_l, Rmult_1_l, Rmult_1_r; lra.
Qed.

Lemma float64_got ws x rest : Forall is_word ws -> float64 ws = Got x rest ->
  Forall is_word rest /\ 0 <= x < 1 /\ exists w, In w ws /\ x = IZR (w mod 2 ^ 53) / IZR (2 ^ 53).
Proof.
  unfold float64. intros Hws. assert (Hr : (0 < 2 ^ 53 < W)%Z) by (split; reflexivity).
  destruct ws as [|w ws]; [discriminate|]. cbn [length float64_loop].
  rewrite uint64n_is_spec by assumption. cbn [uint64n_spec].
  change (accepted_below (2 ^ 53)) with W. inversion Hws as [|? ? Hw Hws']; subst.
  destruct (Z.ltb_spec w W) as [_|H]; [|destruct Hw; unfold W in *; lia].
  assert (Hk : (0 <= w mod 2 ^ 53 < 2 ^ 53)%Z) by (apply Z.mod_pos_bound; lia).
  pose proof (float64_value_range _ Hk). 
  destruct (Req_EM_T (float64_value (w mod 2 ^ 53)) 1) as [E|E]; [lra|].
  intros Eq. injection Eq as <- <-. split; [assumption|]. split; [assumption|].
  exists w. split; [now left|]. now apply float64_value_exact.
Qed.

Lemma float64_always ws : Forall is_word ws -> ws <> [] -> exists x rest, float64 ws = Got x rest /\ ws = hd 0%Z ws :: rest.
Proof.
  unfold float64. intros Hws. assert (Hr : (0 < 2 ^ 53 < W)%Z) by (split; reflexivity).
  destruct ws as [|w ws]; [congruence|]. intros _. cbn [length float64_loop].
  rewrite uint64n_is_spec by assumption. cbn [uint64n_spec].
  change (accepted_below (2 ^ 53)) with W. inversion Hws as [|? ? Hw Hws']; subst.
  destruct (Z.ltb_spec w W) as [_|H]; [|destruct Hw; unfold W in *; lia].
  assert (Hk : (0 <= w mod 2 ^ 53 < 2 ^ 53)%Z) by (apply Z.mod_pos_bound; lia).
  pose proof (float64_value_range _ Hk). 
  destruct (Req_EM_T (float64_value (w mod 2 ^ 53)) 1) as [E|E]; [lra|]. eauto.
Qed.

Lemma round32_range x : 0 <= x < 1 -> 0 <= round32 x <= 1.
Proof.
  intros [H0 H1]. unfold round32. 
  assert (V : Valid_exp (FLT_exp (-149) 24)) by (apply FLT_exp_valid; reflexivity).
  split.
  - apply round_ge_generic; [assumption|apply valid_rnd_N|apply generic_format_0|assumption].
  - apply round_le_generic; [assumption|apply valid_rnd_N| |lra].
    change 1 with (bpow radix2 0). apply generic_format_bpow. unfold FLT_exp. lia.
Qed.

Lemma float32_got ws x rest : Forall is_word ws -> float32 ws = Got x rest -> 0 <= x < 1.
Proof.
  unfold float32. generalize (length ws). intros fuel. revert ws. induction fuel as [|fuel IH]; intros ws Hws; cbn [float32_loop]; [discriminate|].
  destruct (float64 ws) as [y r| |] eqn:E; try discriminate.
  destruct (float64_got _ _ _ Hws E) as (Hr & Hy & _).
  pose proof (round32_range y Hy) as H. destruct (Req_EM_T (round32 y) 1) as [E1|E1].
  - now apply IH.
  - intros Eq. injection Eq as <- <-. lra.
Qed.

(** Some 53-bit fractions round to 1 as float32: the resampling is needed. *)
Lemma float32_resamples : round32 (float64_value (2 ^ 53 - 1)) = 1.
Proof.
  rewrite float64_value_exact by lia. unfold round32.
  change (2 ^ 53 - 1)%Z with 9007199254740991%Z. change (2 ^ 53)%Z with 9007199254740992%Z.
  assert (V : Valid_exp (FLT_exp (-149) 24)) by (apply FLT_exp_valid; reflexivity).
  assert (Hle : round radix2 (FLT_exp (-149) 24) ZnearestE (IZR 9007199254740991 / IZR 9007199254740992) <= 1).
  { apply round_le_generic; [assumption|apply valid_rnd_N| |lra].
    change 1 with (bpow radix2 0). apply generic_format_bpow. unfold FLT_exp. lia. }
  set (x := IZR 9007199254740991 / IZR 9007199254740992) in *.
  assert (Hm : mag radix2 x = 0%Z :> Z).
  { apply mag_unique. rewrite Rabs_pos_eq by (unfold x; lra).
    change (bpow radix2 (0 - 1)) with (/ 2). change (bpow radix2 0) with 1. unfold x. lra. }
  assert (Hc : cexp radix2 (FLT_exp (-149) 24) x = (-24)%Z) by (unfold cexp; rewrite Hm; reflexivity).
  unfold round, scaled_mantissa, F2R. rewrite Hc. cbn [Fnum Fexp].
  change (bpow radix2 (- -24)) with (IZR 16777216). change (bpow radix2 (-24)) with (/ IZR 16777216).
  assert (Hn : ZnearestE (x * IZR 16777216) = 16777216%Z).
  { apply Znearest_imp. unfold x. rewrite Rabs_left; lra. }
  rewrite Hn. field.
Qed.

(** ** Weighted choice *)
Fixpoint total (l : list R) : R := match l with [] => 0 | x :: l => x + total l end.

Lemma total_nonneg l : Forall (fun p => 0 <= p) l -> 0 <= total l.
Proof. induction 1; cbn; lra. Qed.

Lemma weighted_loop_spec k c rnd dist i : Forall (fun p => 0 <= p) dist -> c <= rnd < c + total dist ->
  (weighted_loop k c rnd dist = (k + i)%nat <->
   (i < length dist)%nat /\ c + total (firstn i dist) <= rnd < c + total (firstn (S i) dist)).
Proof.
  revert k c i. induction dist as [|p dist IH]; intros k c i Hp Hr; cbn in Hr; [lra|].
  inversion Hp as [|? ? Hp0 Hp']; subst. cbn [weighted_loop].
  destruct (Rlt_dec rnd (c + p)) as [H|H].
  - destruct i as [|i].
    + split; [intros _|lia]. cbn. split; [lia|lra].
    + split; [intros; lia|]. intros [_ [Hlo _]]. cbn in Hlo.
      assert (0 <= total (firstn i dist)) by (apply total_nonneg; apply Forall_forall; intros x Hx; rewrite Forall_forall in Hp'; apply Hp'; rewrite <- (firstn_skipn i dist); apply in_or_app; now left). lra.
  - destruct i as [|i].
    + split.
      * intros E. exfalso. rewrite Nat.add_0_r in E.
        assert (G : forall d k' c', c' <= rnd < c' + total d -> (k' <= weighted_loop k' c' rnd d)%nat).
        { clear. induction d as [|q d IHd]; intros k' c' Hc; cbn in *; [lra|]. destruct (Rlt_dec rnd (c' + q)); [lia|].
          specialize (IHd (S k') (c' + q)). lapply IHd; [lia|lra]. }
        specialize (G dist (S k) (c + p)). lapply G; [lia|lra].
      * cbn. intros [_ Hx]. lra.
    + replace (k + S i)%nat with (S k + i)%nat by lia. rewrite (IH (S k) (c + p) i Hp') by lra.
      cbn [length firstn total]. split; intros [Ha Hb]; split; try lia; cbn in *; lra.
Qed.

Lemma weighted_choice_spec dist rnd i : Forall (fun p => 0 <= p) dist -> 0 <= rnd < total dist ->
  (weighted_choice dist rnd = i <->
   (i < length dist)%nat /\ total (firstn i dist) <= rnd < total (firstn i dist) + nth i dist 0).
Proof.
  intros Hp Hr. unfold weighted_choice. pose proof (weighted_loop_spec 0 0 rnd dist i Hp) as H.
  cbn [Nat.add] in H. rewrite H by lra.
  assert (E : (i < length dist)%nat -> total (firstn (S i) dist) = total (firstn i dist) + nth i dist 0).
  { clear. revert i. induction dist as [|p d IH]; intros [|i] Hi; cbn [length] in Hi; try lia; cbn in *; [lra|]. rewrite IH by lia. lra. }
  split; intros [Ha Hb]; specialize (E Ha); split; auto; lra.
Qed.

Lemma weighted_choice_beyond dist rnd : Forall (fun p => 0 <= p) dist -> total dist <= rnd -> weighted_choice dist rnd = 0%nat.
Proof.
  unfold weighted_choice. intros Hp Hr. assert (G : forall k c, c + total dist <= rnd -> weighted_loop k c rnd dist = 0%nat).
  { clear Hr. induction dist as [|p d IH]; intros k c H; cbn in *; [reflexivity|].
    inversion Hp as [|? ? Hp0 Hp']; subst. pose proof (total_nonneg d Hp'). destruct (Rlt_dec rnd (c + p)); [lra|]. apply IH; [assumption|lra]. }
  apply G. lra.
Qed.
