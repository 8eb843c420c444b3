(** * The PCG source: exact 128-bit arithmetic and full period *)
From Coq Require Import List ZArith Bool Lia Znumtheory.
From Verif Require Import RandModel RandSpec.
Import ListNotations.
Open Scope Z_scope.

(** ** Exactness *)
Definition value (s : pcg) : Z := high s * W + low s.

Lemma W_pos : 0 < W. Proof. reflexivity. Qed.
Lemma mul_split : multiplier = mul_high * W + mul_low. Proof. reflexivity. Qed.
Lemma inc_split : increment = inc_high * W + inc_low. Proof. reflexivity. Qed.
Lemma WW : 2 ^ 128 = W * W. Proof. reflexivity. Qed.

Lemma word_range z : 0 <= word z < W.
Proof. apply Z.mod_pos_bound, W_pos. Qed.

Lemma join_mod h l : 0 <= l < W -> (h * W + l) mod (W * W) = (h mod W) * W + l.
Proof.
  intros Hl. pose proof W_pos as Hw.
  assert (E : h * W + l = (h / W) * (W * W) + ((h mod W) * W + l)).
  { rewrite (Z.div_mod h W) at 1 by lia. ring. }
  rewrite E. rewrite Z.add_comm, Z.mod_add by nia. apply Z.mod_small.
  pose proof (Z.mod_pos_bound h W Hw). nia.
Qed.

Lemma multiply_valid s : valid_state (multiply s).
Proof. split; cbn; apply word_range || apply Z.mod_pos_bound, W_pos. Qed.

Lemma multiply_exact s : valid_state s -> value (multiply s) = (multiplier * value s) mod 2 ^ 128.
Proof.
  intros [Hl Hh]. unfold value, multiply, mul64. cbn [low high].
  rewrite WW, mul_split. pose proof W_pos as Hw.
  set (p := low s * mul_low).
  assert (E : (mul_high * W + mul_low) * (high s * W + low s) =
     (p / W + high s * mul_low + low s * mul_high) * W + p mod W + (mul_high * high s) * (W * W)).
  { rewrite (Z.add_comm _ (p mod W)) at 1.
    assert (Hp : p = W * (p / W) + p mod W) by (apply Z.div_mod; lia).
    transitivity ((high s * mul_low + low s * mul_high) * W + p + (mul_high * high s) * (W * W)); [unfold p; ring|].
    rewrite Hp at 1. ring. }
  rewrite E, Z.mod_add by nia.
  rewrite join_mod by (apply Z.mod_pos_bound; lia). f_equal. f_equal.
  unfold word.
  rewrite (Zplus_mod_idemp_r (high s * mul_low) (p / W) W).
  rewrite (Zplus_mod_idemp_r (low s * mul_high)). rewrite (Zplus_mod_idemp_l (p / W + high s * mul_low)).
  reflexivity.
Qed.

Lemma add_valid s : valid_state (add s).
Proof. split; cbn; apply Z.mod_pos_bound, W_pos. Qed.

Lemma add_exact s : valid_state s -> value (add s) = (value s + increment) mod 2 ^ 128.
Proof.
  intros [Hl Hh]. unfold value, add, add64. cbn [low high].
  rewrite WW, inc_split. pose proof W_pos as Hw. rewrite Z.add_0_r.
  set (q := low s + inc_low).
  assert (Hq : q = W * (q / W) + q mod W) by (apply Z.div_mod; lia).
  replace (high s * W + low s + (inc_high * W + inc_low)) with ((high s + inc_high + q / W) * W + q mod W)
    by (replace (high s * W + low s + (inc_high * W + inc_low)) with ((high s + inc_high) * W + q) by (unfold q; ring);
        rewrite Hq at 3; ring).
  rewrite join_mod by (apply Z.mod_pos_bound; lia). reflexivity.
Qed.

Lemma next_valid s : valid_state (next s).
Proof. apply add_valid. Qed.

Lemma next_exact s : valid_state s -> value (next s) = (multiplier * value s + increment) mod 2 ^ 128.
Proof.
  intros H. unfold next. rewrite add_exact by apply multiply_valid.
  rewrite multiply_exact by assumption. now rewrite Zplus_mod_idemp_l.
Qed.

Lemma value_inj s t : valid_state s -> valid_state t -> value s = value t -> s = t.
Proof.
  intros [Hl Hh] [Hl' Hh'] E. unfold value in E. destruct s as [a b], t as [c d]; cbn in *.
  assert (b = d) by nia. subst. f_equal. lia.
Qed.

Lemma value_range s : valid_state s -> 0 <= value s < 2 ^ 128.
Proof. intros [Hl Hh]. rewrite WW. unfold value. nia. Qed.

Definition of_value (z : Z) : pcg := mkPcg (z mod W) (z / W).
Lemma of_value_valid z : 0 <= z < 2 ^ 128 -> valid_state (of_value z) /\ value (of_value z) = z.
Proof.
  intros H. rewrite WW in H. pose proof W_pos as Hw. unfold of_value, valid_state, value; cbn [low high].
  split; [split|].
  - apply Z.mod_pos_bound; lia.
  - split; [apply Z.div_pos; lia|apply Z.div_lt_upper_bound; [exact Hw|apply H]].
  - pose proof (Z.div_mod z W). lia.
Qed.

(** ** Full period of a linear congruential generator modulo a power of two *)
Section LCG.
Variables a c : Z.
Hypothesis Ha : a mod 4 = 1.
Hypothesis Hc : c mod 2 = 1.

Fixpoint geo (n : nat) : Z := match n with O => 0 | S n => geo n + a ^ Z.of_nat n end.

Lemma geo_rec n : geo (S n) = a * geo n + 1.
Proof.
  induction n as [|n IH]; [cbn; lia|].
  change (geo (S (S n))) with (geo (S n) + a ^ Z.of_nat (S n)). rewrite IH at 1.
  change (geo (S n)) with (geo n + a ^ Z.of_nat n).
  rewrite Nat2Z.inj_succ, Z.pow_succ_r by lia. ring.
Qed.

Lemma geo_mult n : (a - 1) * geo n = a ^ Z.of_nat n - 1.
Proof.
  induction n as [|n IH]; [cbn; lia|].
  change (geo (S n)) with (geo n + a ^ Z.of_nat n).
  rewrite Nat2Z.inj_succ, Z.pow_succ_r by lia. rewrite Z.mul_add_distr_l, IH. ring.
Qed.

Lemma geo_add n m : geo (n + m) = geo n + a ^ Z.of_nat n * geo m.
Proof.
  induction m as [|m IH]; [rewrite Nat.add_0_r; cbn; lia|].
  rewrite Nat.add_succ_r. cbn [geo]. rewrite IH, Nat2Z.inj_add, Z.pow_add_r by lia. ring.
Qed.

Lemma pow_mod4 n : a ^ Z.of_nat n mod 4 = 1.
Proof.
  induction n as [|n IH]; [reflexivity|].
  rewrite Nat2Z.inj_succ, Z.pow_succ_r by lia. rewrite Z.mul_mod, IH, Ha by lia. reflexivity.
Qed.

Lemma geo_parity n : geo n mod 2 = Z.of_nat n mod 2.
Proof.
  induction n as [|n IH]; [reflexivity|]. rewrite geo_rec.
  assert (Ha2 : a mod 2 = 1).
  { rewrite (Z.div_mod a 4) by lia. rewrite Ha. replace (4 * (a / 4) + 1) with (1 + (2 * (a / 4)) * 2) by ring. now rewrite Z.mod_add by lia. }
  rewrite Z.add_mod, Z.mul_mod, Ha2, IH by lia.
  rewrite Nat2Z.inj_succ, <- Z.add_1_r.
  rewrite (Z.add_mod (Z.of_nat n) 1) by lia.
  destruct (Z.mod_pos_bound (Z.of_nat n) 2); [lia|].
  assert (Z.of_nat n mod 2 = 0 \/ Z.of_nat n mod 2 = 1) as [-> | ->] by lia; reflexivity.
Qed.

Lemma odd_rel_prime x k : x mod 2 = 1 -> rel_prime (2 ^ Z.of_nat k) x.
Proof.
  intros Hx. apply rel_prime_sym. induction k as [|k IH]; [apply rel_prime_sym, rel_prime_1|].
  rewrite Nat2Z.inj_succ, Z.pow_succ_r by lia. apply rel_prime_mult; [|assumption].
  apply rel_prime_sym, prime_rel_prime; [apply prime_2|].
  intros Hd. apply Z.mod_divide in Hd; lia.
Qed.

Lemma odd_cancel x y k : x mod 2 = 1 -> (2 ^ Z.of_nat k | x * y) <-> (2 ^ Z.of_nat k | y).
Proof.
  intros Hx. split; [|apply Z.divide_mul_r].
  intros H. eapply Gauss; [exact H|]. now apply odd_rel_prime.
Qed.

(** [geo n] and [n] have the same 2-adic valuation. *)
Lemma geo_divide k n : (2 ^ Z.of_nat k | geo n) <-> (2 ^ Z.of_nat k | Z.of_nat n).
Proof.
  revert n. induction k as [|k IH]; intros n.
  - cbn. split; intros _; apply Z.divide_1_l.
  - destruct (Nat.even n) eqn:En.
    + apply Nat.even_spec in En. destruct En as [m ->].
      replace (2 * m)%nat with (m + m)%nat by lia. rewrite geo_add.
      replace (geo m + a ^ Z.of_nat m * geo m) with ((1 + a ^ Z.of_nat m) * geo m) by ring.
      pose proof (pow_mod4 m) as Hp.
      set (p := a ^ Z.of_nat m) in *.
      assert (E : 1 + p = 2 * (1 + 2 * (p / 4))) by (rewrite (Z.div_mod p 4) at 1 by lia; lia).
      rewrite E, Nat2Z.inj_succ, Z.pow_succ_r by lia. rewrite <- Z.mul_assoc.
      replace (Z.of_nat (m + m)) with (2 * Z.of_nat m) by lia.
      assert (Hdiv : forall u v : Z, (2 * u | 2 * v) <-> (u | v)).
      { intros u v. split; intros [q Hq]; exists q; lia. }
      rewrite !Hdiv, odd_cancel; [apply IH|].
      rewrite Z.add_comm, Z.mul_comm, Z.add_comm. now rewrite Z.mod_add by lia.
    + assert (Ho : Z.of_nat n mod 2 = 1).
      { assert (Nat.odd n = true) by (unfold Nat.odd; now rewrite En). apply Nat.odd_spec in H. destruct H as [m ->].
        replace (Z.of_nat (2 * m + 1)) with (1 + Z.of_nat m * 2) by lia. now rewrite Z.mod_add by lia. }
      assert (Hno : forall z, z mod 2 = 1 -> ~ (2 ^ Z.of_nat (S k) | z)).
      { intros z Hz Hd. rewrite Nat2Z.inj_succ, Z.pow_succ_r in Hd by lia.
        assert (Hd2 : (2 | z)) by (eapply Z.divide_trans; [apply Z.divide_factor_l|exact Hd]).
        apply Z.mod_divide in Hd2; lia. }
      split; intros H; exfalso; [apply (Hno (geo n)); [now rewrite geo_parity|assumption]|now apply (Hno (Z.of_nat n))].
Qed.

(** The generator over the integers. *)
Definition lcg (x : Z) : Z := a * x + c.
Definition iter (n : nat) (x : Z) : Z := Nat.iter n lcg x.

Lemma iter_closed n x : iter n x = a ^ Z.of_nat n * x + c * geo n.
Proof.
  induction n as [|n IH]; [unfold iter; cbn [Nat.iter nat_rect geo]; rewrite Z.pow_0_r; ring|].
  change (iter (S n) x) with (lcg (iter n x)). rewrite IH. unfold lcg.
  rewrite geo_rec, Nat2Z.inj_succ, Z.pow_succ_r by lia. ring.
Qed.

Lemma iter_diff n x : iter n x - x = ((a - 1) * x + c) * geo n.
Proof. rewrite iter_closed. pose proof (geo_mult n) as H. 
  replace (a ^ Z.of_nat n) with ((a - 1) * geo n + 1) by lia. ring. Qed.

Lemma step_odd x : ((a - 1) * x + c) mod 2 = 1.
Proof.
  rewrite Z.add_mod, Hc by lia.
  assert (E : a - 1 = 2 * (2 * (a / 4))) by (rewrite (Z.div_mod a 4) at 1 by lia; lia).
  rewrite E. replace (2 * (2 * (a / 4)) * x) with ((2 * (a / 4)) * x * 2) by ring. rewrite Z.mod_mul by lia. reflexivity.
Qed.

Lemma iter_return k n x : (2 ^ Z.of_nat k | iter n x - x) <-> (2 ^ Z.of_nat k | Z.of_nat n).
Proof. rewrite iter_diff, odd_cancel by apply step_odd. apply geo_divide. Qed.

Lemma iter_add n m x : iter (n + m) x = iter n (iter m x).
Proof. unfold iter. induction n as [|n IH]; [reflexivity|]. cbn [Nat.add]. unfold Nat.iter in *. cbn [nat_rect]. now rewrite IH. Qed.

(** Every residue is visited. *)
Lemma iter_reaches k x y : exists n, Z.of_nat n < 2 ^ Z.of_nat k /\ (2 ^ Z.of_nat k | iter n x - y).
Proof.
  induction k as [|k (n & Hn & q & Hq)]; [exists 0%nat; split; [cbn; lia|apply Z.divide_1_l]|].
  rewrite Nat2Z.inj_succ, Z.pow_succ_r by lia.
  set (P := 2 ^ Z.of_nat k) in *. assert (HP : 0 < P) by (apply Z.pow_pos_nonneg; lia).
  destruct (Z.Even_or_Odd q) as [[t Ht]|[t Ht]].
  - exists n. split; [lia|]. exists t. rewrite Hq, Ht. ring.
  - exists (n + Z.to_nat P)%nat. split; [lia|].
    replace (n + Z.to_nat P)%nat with (Z.to_nat P + n)%nat by lia. rewrite iter_add.
    set (z := iter n x) in *.
    assert (H1 : (P | iter (Z.to_nat P) z - z)).
    { apply iter_return. rewrite Z2Nat.id by lia. apply Z.divide_refl. }
    destruct H1 as [u Hu].
    assert (Ho : u mod 2 = 1).
    { assert (0 <= u mod 2 < 2) by (apply Z.mod_pos_bound; lia).
      assert (u mod 2 <> 0); [|lia]. intros E0. 
      assert (Hd : (2 ^ Z.of_nat (S k) | iter (Z.to_nat P) z - z)).
      { rewrite Nat2Z.inj_succ, Z.pow_succ_r by lia. fold P. apply Z.mod_divide in E0; [|lia].
        destruct E0 as [w Hw]. exists w. rewrite Hu, Hw. ring. }
      apply iter_return in Hd. rewrite Nat2Z.inj_succ, Z.pow_succ_r in Hd by lia. fold P in Hd.
      rewrite Z2Nat.id in Hd by lia. destruct Hd as [w Hw].
      assert (Hz : P * (2 * w - 1) = 0) by lia. apply Z.mul_eq_0 in Hz. lia. }
    exists ((u + q) / 2).
    assert (Hs : u + q = 2 * ((u + q) / 2)).
    { rewrite (Z.div_mod (u + q) 2) at 1 by lia.
      assert (E : (u + q) mod 2 = 0). { rewrite Z.add_mod, Ho, Ht by lia. replace (2 * t + 1) with (1 + t * 2) by ring. now rewrite Z.mod_add by lia. }
      lia. }
    replace (iter (Z.to_nat P) z - y) with ((iter (Z.to_nat P) z - z) + (z - y)) by ring. rewrite Hu, Hq.
    replace (u * P + q * P) with ((u + q) * P) by ring. rewrite Hs at 1. ring.
Qed.
End LCG.

(** ** The generator *)

Lemma draws_valid n s : valid_state s -> valid_state (draws n s).
Proof. intros H. destruct n; [assumption|apply next_valid]. Qed.

Lemma draws_value n s : valid_state s -> value (draws n s) = iter multiplier increment n (value s) mod 2 ^ 128.
Proof.
  intros H. induction n as [|n IH].
  - cbn. rewrite Z.mod_small; [reflexivity|]. now apply value_range.
  - change (draws (S n) s) with (next (draws n s)). rewrite next_exact by now apply draws_valid.
    rewrite IH. change (iter multiplier increment (S n) (value s)) with (multiplier * iter multiplier increment n (value s) + increment).
    rewrite Zplus_mod, Zmult_mod_idemp_r, <- Zplus_mod. reflexivity.
Qed.

Lemma mod_eq_divide x y m : 0 < m -> 0 <= y < m -> (x mod m = y <-> (m | x - y)).
Proof.
  intros Hm Hy. split.
  - intros E. exists (x / m). rewrite (Z.div_mod x m) at 1 by lia. lia.
  - intros [q Hq]. replace x with (y + q * m) by lia. rewrite Z.mod_add by lia. now apply Z.mod_small.
Qed.

Lemma pcg_period n s : valid_state s -> (draws n s = s <-> (2 ^ 128 | Z.of_nat n)).
Proof.
  intros H.
  transitivity (value (draws n s) = value s).
  { split; [now intros ->|]. apply value_inj; [now apply draws_valid|assumption]. }
  rewrite draws_value by assumption.
  rewrite mod_eq_divide; [|reflexivity|now apply value_range].
  change (2 ^ 128) with (2 ^ Z.of_nat 128). apply iter_return; reflexivity.
Qed.

Lemma pcg_reaches s t : valid_state s -> valid_state t ->
  exists n, Z.of_nat n < 2 ^ 128 /\ draws n s = t.
Proof.
  intros Hs Ht. destruct (iter_reaches multiplier increment eq_refl eq_refl 128 (value s) (value t)) as (n & Hn & Hd).
  exists n. split; [exact Hn|]. apply value_inj; [now apply draws_valid|assumption|].
  rewrite draws_value by assumption. apply mod_eq_divide; [reflexivity|now apply value_range|exact Hd].
Qed.

Lemma draws_add n m s : draws (n + m) s = draws n (draws m s).
Proof. unfold draws. induction n as [|n IH]; [reflexivity|]. cbn [Nat.add]. unfold Nat.iter in *. cbn [nat_rect]. now rewrite IH. Qed.

Lemma next_inj s t : valid_state s -> valid_state t -> next s = next t -> s = t.
Proof.
  intros Hs Ht E. 
  assert (draws (Z.to_nat (2 ^ 128) - 1) (next s) = s).
  { change (next s) with (draws 1 s). rewrite <- draws_add.
    apply pcg_period; [assumption|]. rewrite Nat2Z.inj_add, Nat2Z.inj_sub by lia.
    rewrite Z2Nat.id by lia. replace (2 ^ 128 - Z.of_nat 1 + Z.of_nat 1) with (2 ^ 128) by lia. apply Z.divide_refl. }
  assert (draws (Z.to_nat (2 ^ 128) - 1) (next t) = t).
  { change (next t) with (draws 1 t). rewrite <- draws_add.
    apply pcg_period; [assumption|]. rewrite Nat2Z.inj_add, Nat2Z.inj_sub by lia.
    rewrite Z2Nat.id by lia. replace (2 ^ 128 - Z.of_nat 1 + Z.of_nat 1) with (2 ^ 128) by lia. apply Z.divide_refl. }
  congruence.
Qed.
