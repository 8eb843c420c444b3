(** * Proofs about the random number functions *)
From Coq Require Import List ZArith Bool Lia Permutation Arith.
From Verif Require Import RandModel RandSpec RandPeriod.
Import ListNotations.
Open Scope Z_scope.

(** ** Saving and restoring the state *)
Lemma get_step v k : 0 <= v -> 0 <= k -> (v / 2 ^ (k + 8)) * 256 + (v / 2 ^ k) mod 256 = v / 2 ^ k.
Proof.
  intros Hv Hk. rewrite Z.pow_add_r, <- Zdiv_Zdiv by (try apply Z.pow_nonneg; lia).
  change (2 ^ 8) with 256. pose proof (Z.div_mod (v / 2 ^ k) 256). lia.
Qed.

Lemma put_get v : 0 <= v < W -> get_uint64 (put_uint64 v) = v.
Proof.
  intros Hv. unfold get_uint64, put_uint64.
  cbn [map firstn fold_left].
  replace (56 - 8 * 0) with 56 by lia. replace (56 - 8 * 1) with 48 by lia. replace (56 - 8 * 2) with 40 by lia.
  replace (56 - 8 * 3) with 32 by lia. replace (56 - 8 * 4) with 24 by lia. replace (56 - 8 * 5) with 16 by lia.
  replace (56 - 8 * 6) with 8 by lia. replace (56 - 8 * 7) with 0 by lia.
  rewrite !Z.shiftr_div_pow2 by lia.
  assert (E : (v / 2 ^ 56) mod 256 = v / 2 ^ 56).
  { apply Z.mod_small. split; [apply Z.div_pos; lia|]. apply Z.div_lt_upper_bound; [lia|]. unfold W in Hv. lia. }
  rewrite E. rewrite Z.mul_0_l, Z.add_0_l.
  change 56 with (48 + 8). rewrite get_step by lia. change 48 with (40 + 8) at 1. rewrite get_step by lia.
  change 40 with (32 + 8) at 1. rewrite get_step by lia. change 32 with (24 + 8) at 1. rewrite get_step by lia.
  change 24 with (16 + 8) at 1. rewrite get_step by lia. change 16 with (8 + 8) at 1. rewrite get_step by lia.
  change 8 with (0 + 8) at 1. rewrite get_step by lia. rewrite Z.pow_0_r. apply Z.div_1_r.
Qed.

Lemma put_length v : length (put_uint64 v) = 8%nat. Proof. reflexivity. Qed.

Lemma get_app a b : length a = 8%nat -> get_uint64 (a ++ b) = get_uint64 a.
Proof.
  intros H. unfold get_uint64. rewrite firstn_app, H, Nat.sub_diag. cbn [firstn]. now rewrite app_nil_r.
Qed.

Lemma skipn_exact {A} (a b : list A) n : length a = n -> skipn n (a ++ b) = b.
Proof. intros <-. rewrite skipn_app, skipn_all, Nat.sub_diag. reflexivity. Qed.

Lemma unmarshal_marshal s extra : valid_state s -> unmarshal (marshal s ++ extra) = Some s.
Proof.
  intros [Hl Hh]. unfold unmarshal, marshal. rewrite !app_length, !put_length.
  destruct (Nat.ltb_spec (8 + 8 + length extra) 16); [lia|].
  rewrite <- app_assoc, get_app, put_get by (assumption || reflexivity).
  rewrite skipn_exact by reflexivity. rewrite get_app, put_get by (assumption || reflexivity).
  now destruct s.
Qed.

(** ** Bounded integers *)
Lemma pow2_of_land n : 0 < n -> Z.land n (n - 1) = 0 -> exists k, 0 <= k /\ n = 2 ^ k.
Proof.
  intros Hn Hl. exists (Z.log2 n). split; [apply Z.log2_nonneg|].
  destruct (Z.log2_spec n Hn) as [H1 H2].
  destruct (Z.eq_dec n (2 ^ Z.log2 n)) as [|Hne]; [assumption|exfalso].
  assert (Hb : forall m, 2 ^ Z.log2 n <= m < 2 ^ Z.succ (Z.log2 n) -> Z.testbit m (Z.log2 n) = true).
  { intros m Hm. assert (E : Z.log2 m = Z.log2 n) by (apply Z.log2_unique; [apply Z.log2_nonneg|assumption]).
    rewrite <- E. apply Z.bit_log2. assert (0 < 2 ^ Z.log2 n) by (apply Z.pow_pos_nonneg; [lia|apply Z.log2_nonneg]). lia. }
  assert (T : Z.testbit (Z.land n (n - 1)) (Z.log2 n) = true).
  { rewrite Z.land_spec, (Hb n), (Hb (n - 1)) by lia. reflexivity. }
  rewrite Hl, Z.bits_0 in T. discriminate.
Qed.

Lemma land_mask v k : 0 <= k -> Z.land v (2 ^ k - 1) = v mod 2 ^ k.
Proof. intros Hk. rewrite <- Z.land_ones by assumption. f_equal. rewrite Z.ones_equiv. lia. Qed.

Lemma land_of_pow2 k : 0 <= k -> Z.land (2 ^ k) (2 ^ k - 1) = 0.
Proof. intros Hk. rewrite land_mask by assumption. apply Z.mod_same. apply Z.pow_nonzero; lia. Qed.

(** The number of source words that yield each value. *)
Definition accepted_below (n : Z) : Z :=
  if Z.land n (n - 1) =? 0 then W else max_uint64 - max_uint64 mod n.

Definition uint64n_spec (n : Z) (ws : list Z) : draw Z :=
  (fix go ws := match ws with
                | [] => Exhausted
                | w :: ws => if w <? accepted_below n then Got (w mod n) ws else go ws
                end) ws.


Lemma word_pred n : 0 < n < W -> word (n - 1) = n - 1.
Proof. intros H. unfold word. apply Z.mod_small. lia. Qed.

Lemma reject_spec n v ws : Z.land n (n - 1) <> 0 ->
  reject n (max_uint64 - max_uint64 mod n) v ws = uint64n_spec n (v :: ws).
Proof.
  intros Hn. assert (E : accepted_below n = max_uint64 - max_uint64 mod n).
  { unfold accepted_below. apply Z.eqb_neq in Hn. now rewrite Hn. }
  revert v. induction ws as [|w ws IH]; intros v; cbn [reject uint64n_spec]; rewrite E, Z.geb_leb.
  - destruct (Z.leb_spec (max_uint64 - max_uint64 mod n) v), (Z.ltb_spec v (max_uint64 - max_uint64 mod n)); try lia; reflexivity.
  - destruct (Z.leb_spec (max_uint64 - max_uint64 mod n) v), (Z.ltb_spec v (max_uint64 - max_uint64 mod n)); try lia; [|reflexivity].
    rewrite IH. cbn [uint64n_spec]. rewrite E. reflexivity.
Qed.

Lemma uint64n_is_spec n ws : 0 < n < W -> Forall is_word ws -> uint64n n ws = uint64n_spec n ws.
Proof.
  intros Hn Hws. unfold uint64n. rewrite word_pred by assumption.
  destruct (Z.eqb_spec (Z.land n (n - 1)) 0) as [E|E].
  - destruct (Z.eqb_spec n 0); [lia|]. destruct ws as [|v ws]; [reflexivity|].
    inversion Hws as [|? ? Hv _]; subst. cbn [uint64n_spec]. unfold accepted_below. rewrite E. cbn [Z.eqb].
    destruct (Z.ltb_spec v W); [|unfold is_word in Hv; unfold W in *; lia].
    destruct (pow2_of_land n (proj1 Hn) E) as (k & Hk & ->). now rewrite land_mask.
  - destruct ws as [|v ws]; [reflexivity|]. rewrite Z.gtb_ltb.
    destruct (Z.ltb_spec (max_uint64 - n) v) as [H|H]; [now apply reject_spec|].
    cbn [uint64n_spec]. assert (E' : accepted_below n = max_uint64 - max_uint64 mod n).
    { unfold accepted_below. apply Z.eqb_neq in E. now rewrite E. }
    rewrite E'. pose proof (Z.mod_pos_bound max_uint64 n (proj1 Hn)).
    destruct (Z.ltb_spec v (max_uint64 - max_uint64 mod n)); [reflexivity|lia].
Qed.

Lemma uint64n_zero ws : uint64n 0 ws = Panics.
Proof. reflexivity. Qed.

Lemma accepted_multiple n : 0 < n < W -> (n | accepted_below n) /\ W <= 2 * accepted_below n /\ accepted_below n <= W.
Proof.
  intros Hn. unfold accepted_below. destruct (Z.eqb_spec (Z.land n (n - 1)) 0) as [E|E].
  - split; [|unfold W; lia].
    destruct (pow2_of_land n (proj1 Hn) E) as (k & Hk & ->). unfold W.
    assert (k < 64) by (apply (Z.pow_lt_mono_r_iff 2); unfold W in Hn; lia).
    exists (2 ^ (64 - k)). rewrite <- Z.pow_add_r by lia. f_equal. lia.
  - pose proof (Z.mod_pos_bound max_uint64 n (proj1 Hn)) as Hm.
    pose proof (Z.div_mod max_uint64 n ltac:(lia)) as Hd. split; [exists (max_uint64 / n); lia|].
    split; [|unfold max_uint64 in *; lia].
    destruct (Z_le_gt_dec n (2 ^ 63)) as [Hs|Hs].
    + destruct (Z.eq_dec n (2 ^ 63)) as [->|]; [elim E; reflexivity|].
      unfold max_uint64, W in *. lia.
    + assert (Hq : max_uint64 / n = 1).
      { symmetry. apply Z.div_unique with (r := max_uint64 - n); unfold max_uint64, W in *; lia. }
      rewrite Hq in Hd. unfold max_uint64, W in *. lia.
Qed.

Lemma spec_got n ws v rest : 0 < n -> uint64n_spec n ws = Got v rest ->
  0 <= v < n /\ exists rejected w, ws = rejected ++ w :: rest /\ Forall (fun u => accepted_below n <= u) rejected /\
    w < accepted_below n /\ v = w mod n.
Proof.
  intros Hn. induction ws as [|w ws IH]; cbn [uint64n_spec]; [discriminate|].
  destruct (Z.ltb_spec w (accepted_below n)) as [H|H].
  - intros E. injection E as <- <-. split; [now apply Z.mod_pos_bound|]. exists [], w. auto.
  - intros E. destruct (IH E) as (Hv & rej & w' & -> & Hr & Hw & ->). split; [assumption|].
    exists (w :: rej), w'. cbn. auto.
Qed.

Lemma spec_no_panic n ws : uint64n_spec n ws <> Panics.
Proof. induction ws as [|w ws IH]; cbn [uint64n_spec]; [discriminate|]. destruct (w <? accepted_below n); [discriminate|exact IH]. Qed.

Lemma spec_terminates n ws : (exists w, In w ws /\ w < accepted_below n) -> exists v rest, uint64n_spec n ws = Got v rest.
Proof.
  induction ws as [|w ws IH]; cbn [uint64n_spec]; intros (x & Hx & Hlt); [destruct Hx|].
  destruct (Z.ltb_spec w (accepted_below n)) as [H|H]; [eauto|].
  apply IH. destruct Hx as [->|Hx]; [lia|]. eauto.
Qed.

Lemma to_signed_small bits v : 0 < bits -> 0 <= v < 2 ^ (bits - 1) -> to_signed bits v = v.
Proof.
  intros Hb Hv. unfold to_signed.
  assert (2 ^ bits = 2 * 2 ^ (bits - 1)) by (rewrite <- Z.pow_succ_r by lia; f_equal; lia).
  rewrite Z.mod_small by lia. destruct (Z.ltb_spec v (2 ^ (bits - 1))); lia.
Qed.

Lemma spec_app n w ws : (uint64n_spec n [w] = Exhausted -> uint64n_spec n (w :: ws) = uint64n_spec n ws) /\
  (forall r, uint64n_spec n [w] = Got r [] -> uint64n_spec n (w :: ws) = Got r ws).
Proof.
  cbn [uint64n_spec]. destruct (w <? accepted_below n); split; intros; try discriminate; try reflexivity; congruence.
Qed.

Lemma uint64n_fair n : 0 < n < W -> exists K, 0 < K /\ W <= 2 * (n * K) /\
  forall w ws, is_word w -> Forall is_word ws ->
    (forall r, 0 <= r < n -> (uint64n n [w] = Got r [] <-> exists q, 0 <= q < K /\ w = r + n * q)) /\
    (forall r, uint64n n [w] = Got r [] -> uint64n n (w :: ws) = Got r ws) /\
    (uint64n n [w] = Exhausted -> uint64n n (w :: ws) = uint64n n ws).
Proof.
  intros Hn. destruct (accepted_multiple n Hn) as ([K HK] & H2 & _).
  rewrite HK in H2. assert (HK0 : 0 < K).
  { destruct (Z_le_gt_dec K 0) as [Hle|]; [|lia]. assert (K * n <= 0) by (apply Z.mul_nonpos_nonneg; lia). unfold W in H2. lia. }
  exists K. split; [assumption|]. split; [rewrite (Z.mul_comm n); assumption|].
  intros w ws Hw Hws. rewrite !uint64n_is_spec by (assumption || (constructor; (assumption || constructor))).
  destruct (spec_app n w ws) as [H3 H4]. split; [|split; assumption].
  intros r Hr. cbn [uint64n_spec]. rewrite HK. destruct Hw as [Hw0 _]. split.
  - destruct (Z.ltb_spec w (K * n)); [|discriminate]. intros E. injection E as E.
    exists (w / n). pose proof (Z.div_mod w n ltac:(lia)).
    split; [|lia]. split; [apply Z.div_pos; lia|]. apply Z.div_lt_upper_bound; lia.
  - intros (q & Hq & ->). destruct (Z.ltb_spec (r + n * q) (K * n)) as [|H]; [|nia].
    f_equal. rewrite Z.mul_comm, Z.mod_add by lia. now apply Z.mod_small.
Qed.

Lemma int63n_got n ws v rest : n < 2 ^ 63 -> Forall is_word ws -> int63n n ws = Got v rest ->
  0 < n /\ 0 <= v < n /\ uint64n_spec n ws = Got v rest.
Proof.
  intros Hn Hws. unfold int63n. destruct (Z.leb_spec n 0) as [H|H]; [discriminate|].
  assert (Hr : 0 < n < W) by (unfold W; lia).
  assert (Hw : word n = n) by (unfold word; apply Z.mod_small; lia).
  rewrite Hw, uint64n_is_spec by assumption.
  destruct (uint64n_spec n ws) as [u r| |] eqn:E; cbn [map_draw]; try discriminate.
  intros Eq. injection Eq as <- <-. destruct (spec_got n ws u r H E) as [Hu _].
  rewrite to_signed_small by lia. auto.
Qed.

Lemma int31n_got n ws v rest : n < 2 ^ 31 -> Forall is_word ws -> int31n n ws = Got v rest ->
  0 < n /\ 0 <= v < n /\ uint64n_spec n ws = Got v rest.
Proof.
  intros Hn Hws. unfold int31n. destruct (Z.leb_spec n 0) as [H|H]; [discriminate|].
  assert (Hr : 0 < n < W) by (unfold W; lia).
  assert (Hw : word n = n) by (unfold word; apply Z.mod_small; lia).
  rewrite Hw, uint64n_is_spec by assumption.
  destruct (uint64n_spec n ws) as [u r| |] eqn:E; cbn [map_draw]; try discriminate.
  intros Eq. injection Eq as <- <-. destruct (spec_got n ws u r H E) as [Hu _].
  rewrite to_signed_small by lia. auto.
Qed.

Lemma int_panics n ws : Forall is_word ws -> (n < 2 ^ 63 -> (int63n n ws = Panics <-> n <= 0)) /\
  (n < 2 ^ 31 -> (int31n n ws = Panics <-> n <= 0)).
Proof.
  intros Hws. split; intros Hn; unfold int63n, int31n; destruct (Z.leb_spec n 0) as [H|H];
    try (split; [intros _; lia|reflexivity]);
    assert (Hr : 0 < n < W) by (unfold W; lia);
    assert (Hw : word n = n) by (unfold word; apply Z.mod_small; lia);
    rewrite Hw, uint64n_is_spec by assumption;
    pose proof (spec_no_panic n ws) as Hp; destruct (uint64n_spec n ws); cbn; split; intros; try congruence; lia.
Qed.

(** ** set_nth and swap *)
Lemma set_nth_length {A} (l : list A) i v : length (set_nth l i v) = length l.
Proof. revert i. induction l as [|x l IH]; intros [|i]; cbn; auto. Qed.

Lemma set_nth_app1 {A} (l1 l2 : list A) i v : (i < length l1)%nat -> set_nth (l1 ++ l2) i v = set_nth l1 i v ++ l2.
Proof.
  revert i. induction l1 as [|x l1 IH]; intros [|i] H; cbn in *; try lia; [reflexivity|]. now rewrite IH by lia.
Qed.
Lemma set_nth_app2 {A} (l1 l2 : list A) i v : (length l1 <= i)%nat -> set_nth (l1 ++ l2) i v = l1 ++ set_nth l2 (i - length l1) v.
Proof.
  revert i. induction l1 as [|x l1 IH]; intros i H; cbn in *; [now rewrite Nat.sub_0_r|].
  destruct i as [|i]; [lia|]. cbn. now rewrite IH by lia.
Qed.
Lemma set_nth_nth {A} (l : list A) i j v : nth_error (set_nth l i v) j =
  if Nat.eqb i j then (if Nat.ltb j (length l) then Some v else None) else nth_error l j.
Proof.
  revert i j. induction l as [|x l IH]; intros [|i] [|j]; cbn [set_nth nth_error Nat.eqb length]; try reflexivity.
  - destruct (Nat.eqb i j); reflexivity.
  - rewrite IH. destruct (Nat.eqb i j); reflexivity.
Qed.
Lemma set_nth_self {A} (l : list A) i x : nth_error l i = Some x -> set_nth l i x = l.
Proof. revert i. induction l as [|y l IH]; intros [|i] H; cbn in *; try congruence. f_equal. auto. Qed.
Lemma set_nth_twice {A} (l : list A) i x y : set_nth (set_nth l i x) i y = set_nth l i y.
Proof. revert i. induction l as [|z l IH]; intros [|i]; cbn; auto. f_equal. auto. Qed.

Lemma set_nth_perm {A} (l : list A) i x y : nth_error l i = Some x -> Permutation (x :: set_nth l i y) (y :: l).
Proof.
  revert i. induction l as [|z l IH]; intros [|i] H; cbn in *; try discriminate.
  - injection H as ->. apply perm_swap.
  - specialize (IH i H). rewrite perm_swap. rewrite IH. apply perm_swap.
Qed.

Lemma swap_app {A} (l s : list A) i j : (i < length l)%nat -> (j < length l)%nat -> swap (l ++ s) i j = swap l i j ++ s.
Proof.
  intros Hi Hj. unfold swap. rewrite !nth_error_app1 by assumption.
  destruct (nth_error l i) as [x|] eqn:Ei; [|apply nth_error_None in Ei; lia].
  destruct (nth_error l j) as [y|] eqn:Ej; [|apply nth_error_None in Ej; lia].
  rewrite !set_nth_app1; rewrite ?set_nth_length; auto.
Qed.

Lemma swap_length {A} (l : list A) i j : length (swap l i j) = length l.
Proof. unfold swap. destruct (nth_error l i), (nth_error l j); rewrite ?set_nth_length; reflexivity. Qed.

Lemma swap_last {A} (l : list A) i j : length l = S i -> (j <= i)%nat ->
  exists p y, swap l i j = p ++ [y] /\ nth_error l j = Some y /\ Permutation (p ++ [y]) l.
Proof.
  intros Hl Hj. destruct (nth_error l j) as [y|] eqn:Ej; [|apply nth_error_None in Ej; lia].
  destruct (nth_error l i) as [x|] eqn:Ei; [|apply nth_error_None in Ei; lia].
  exists (firstn i (swap l i j)), y. 
  assert (Hy : nth_error (swap l i j) i = Some y).
  { unfold swap. rewrite Ei, Ej. rewrite set_nth_nth, set_nth_length.
    destruct (Nat.eqb_spec j i) as [->|Hne].
    - destruct (Nat.ltb_spec i (length l)); [congruence|lia].
    - rewrite set_nth_nth, Nat.eqb_refl. destruct (Nat.ltb_spec i (length l)); [reflexivity|lia]. }
  assert (E : swap l i j = firstn i (swap l i j) ++ [y]).
  { rewrite <- (firstn_skipn i (swap l i j)) at 1. f_equal.
    assert (Hlen : length (skipn i (swap l i j)) = 1%nat) by (rewrite skipn_length, swap_length; lia).
    destruct (skipn i (swap l i j)) as [|z [|? ?]] eqn:Es; cbn in Hlen; try lia.
    rewrite <- (firstn_skipn i (swap l i j)), Es in Hy. rewrite nth_error_app2 in Hy; rewrite firstn_length, swap_length in *; [|lia].
    replace (i - Nat.min i (length l))%nat with 0%nat in Hy by lia. cbn in Hy. congruence. }
  split; [assumption|]. split; [reflexivity|]. rewrite <- E.
  unfold swap. rewrite Ei, Ej.
  destruct (Nat.eq_dec j i) as [->|Hne].
  - assert (x = y) by congruence. subst. rewrite set_nth_self; [now rewrite set_nth_self|]. now rewrite set_nth_self.
  - apply (Permutation_cons_inv (a := y)).
    assert (H1 : nth_error (set_nth l i y) j = Some y).
    { rewrite set_nth_nth. destruct (Nat.eqb_spec i j); [congruence|assumption]. }
    rewrite (set_nth_perm (set_nth l i y) j y x H1). apply set_nth_perm. assumption.
Qed.

Lemma swap_permutation {A} (l : list A) i j : (i < length l)%nat -> (j <= i)%nat -> Permutation l (swap l i j).
Proof.
  intros Hi Hj. rewrite <- (firstn_skipn (S i) l) at 1 2.
  assert (Hlen : length (firstn (S i) l) = S i) by (rewrite firstn_length; lia).
  rewrite swap_app by lia. apply Permutation_app_tail.
  destruct (swap_last (firstn (S i) l) i j Hlen Hj) as (p & y & -> & _ & H). now apply Permutation_sym.
Qed.

(** ** Shuffle *)

Lemma shuffle_with_app {A} i (l s : list A) js : (i < length l)%nat -> valid_choices i js ->
  shuffle_with i (l ++ s) js = shuffle_with i l js ++ s.
Proof.
  revert l js. induction i as [|i IH]; intros l [|j js] Hl Hv; cbn in *; try tauto.
  destruct Hv as [Hj Hv]. rewrite swap_app by lia. apply IH; [rewrite swap_length; lia|assumption].
Qed.

Lemma shuffle_with_permutation {A} i (l : list A) js : (i < length l)%nat -> valid_choices i js ->
  Permutation l (shuffle_with i l js).
Proof.
  revert l js. induction i as [|i IH]; intros l [|j js] Hl Hv; cbn in *; try tauto; try reflexivity.
  destruct Hv as [Hj Hv]. etransitivity; [apply (swap_permutation l (S i) j); lia|].
  apply IH; [rewrite swap_length; lia|assumption].
Qed.

Lemma NoDup_nth_unique {A} (l : list A) i j x : NoDup l -> nth_error l i = Some x -> nth_error l j = Some x -> i = j.
Proof.
  intros Hn Hi Hj. assert (Hl : (i < length l)%nat) by (apply nth_error_Some; congruence).
  apply (proj1 (NoDup_nth_error l) Hn i j Hl). congruence.
Qed.

Lemma snoc_inj {A} (p q : list A) x y : p ++ [x] = q ++ [y] -> p = q /\ x = y.
Proof. apply app_inj_tail. Qed.

Lemma shuffle_bijection {A} i (l l' : list A) : length l = S i -> NoDup l -> Permutation l l' ->
  exists! js, valid_choices i js /\ shuffle_with i l js = l'.
Proof.
  revert l l'. induction i as [|i IH]; intros l l' Hl Hn Hp.
  - exists []. split.
    + split; [exact I|]. cbn. destruct l as [|x [|? ?]]; cbn in Hl; try lia.
      apply Permutation_length_1_inv in Hp. now symmetry.
    + intros [|j js] [Hv _]; cbn in Hv; tauto.
  - assert (Hl' : length l' = S (S i)) by (rewrite <- (Permutation_length Hp); assumption).
    destruct (exists_last (l := l')) as (q & y & ->); [destruct l'; [discriminate|congruence]|].
    rewrite app_length in Hl'. cbn in Hl'.
    assert (Hy : In y l) by (apply (Permutation_in _ (Permutation_sym Hp)); apply in_or_app; right; now left).
    destruct (In_nth_error _ _ Hy) as (j & Hj).
    assert (Hjl : (j < length l)%nat) by (apply nth_error_Some; congruence).
    destruct (swap_last l (S i) j Hl ltac:(lia)) as (p & y' & Es & Hj' & Hp').
    assert (y' = y) by congruence. subst y'.
    assert (Hpl : length p = S i).
    { pose proof (Permutation_length Hp') as E. rewrite app_length in E. cbn in E. lia. }
    assert (Hpq : Permutation p q).
    { apply (Permutation_app_inv_r [y]). now rewrite Hp'. }
    assert (Hpn : NoDup p).
    { apply (Permutation_NoDup (l' := p ++ [y])) in Hn; [|now apply Permutation_sym].
      apply (NoDup_remove_1 p [] y) in Hn. now rewrite app_nil_r in Hn. }
    destruct (IH p q Hpl Hpn Hpq) as (js & [Hv Hs] & Hu).
    exists (j :: js). split.
    + split; [cbn; split; [lia|assumption]|]. cbn [shuffle_with]. rewrite Es, shuffle_with_app by (lia || assumption).
      now rewrite Hs.
    + intros [|k ks] [Hvk Hsk]; cbn in Hvk; [tauto|]. destruct Hvk as [Hk Hvk]. cbn [shuffle_with] in Hsk.
      destruct (swap_last l (S i) k Hl ltac:(lia)) as (p' & z & Es' & Hk' & Hp'').
      assert (Hpl' : length p' = S i).
      { pose proof (Permutation_length Hp'') as E. rewrite app_length in E. cbn in E. lia. }
      rewrite Es', shuffle_with_app in Hsk by (lia || assumption). apply snoc_inj in Hsk. destruct Hsk as [Hsk ->].
      assert (k = j) by (apply (NoDup_nth_unique l k j y); assumption). subst k.
      f_equal. apply Hu. split; [assumption|]. assert (p' = p) by (rewrite Es in Es'; apply snoc_inj in Es'; now destruct Es'). now subst.
Qed.

Lemma forall_suffix (P : Z -> Prop) a b : Forall P (a ++ b) -> Forall P b.
Proof. rewrite Forall_app. tauto. Qed.

Lemma draw_choice i ws j rest : Z.of_nat i < 2 ^ 62 -> Forall is_word ws ->
  (if Z.of_nat i >? 2 ^ 31 - 1 - 1 then int63n (Z.of_nat i + 1) ws else int31n (Z.of_nat i + 1) ws) = Got j rest ->
  (Z.to_nat j <= i)%nat /\ Forall is_word rest /\ uint64n_spec (Z.of_nat i + 1) ws = Got j rest.
Proof.
  intros Hi Hws H.
  assert (Hr : 0 <= j < Z.of_nat i + 1 /\ uint64n_spec (Z.of_nat i + 1) ws = Got j rest).
  { rewrite Z.gtb_ltb in H. destruct (Z.ltb_spec (2 ^ 31 - 1 - 1) (Z.of_nat i)) as [Hb|Hb].
    - apply int63n_got in H; [tauto|lia|assumption].
    - apply int31n_got in H; [tauto|lia|assumption]. }
  destruct Hr as [Hr Hs]. split; [lia|]. split; [|assumption].
  destruct (spec_got (Z.of_nat i + 1) ws j rest ltac:(lia) Hs) as (_ & rej & w & E & _). rewrite E in Hws.
  apply (forall_suffix _ (rej ++ [w])). now rewrite <- app_assoc.
Qed.

Lemma shuffle_loop_choices {A} i (l : list A) ws l' rest : (i < length l)%nat -> Z.of_nat i < 2 ^ 62 ->
  Forall is_word ws -> shuffle_loop i l ws = Got l' rest ->
  exists js, valid_choices i js /\ l' = shuffle_with i l js.
Proof.
  revert l ws. induction i as [|i IH]; intros l ws Hi Hz Hws H; cbn [shuffle_loop] in H.
  - injection H as <- <-. exists []. cbn. auto.
  - destruct (if Z.of_nat (S i) >? 2 ^ 31 - 1 - 1 then int63n (Z.of_nat (S i) + 1) ws else int31n (Z.of_nat (S i) + 1) ws) as [j ws'| |] eqn:E; try discriminate.
    destruct (draw_choice (S i) ws j ws' Hz Hws E) as (Hj & Hws' & _).
    destruct (IH (swap l (S i) (Z.to_nat j)) ws') as (js & Hv & ->).
    + rewrite swap_length. lia.
    + lia.
    + assumption.
    + assumption.
    + exists (Z.to_nat j :: js). cbn. auto.
Qed.

Lemma shuffle_permutation {A} (l : list A) ws l' rest : Z.of_nat (length l) < 2 ^ 62 -> Forall is_word ws ->
  shuffle l ws = Got l' rest -> Permutation l l'.
Proof.
  intros Hl Hws H. unfold shuffle in H. destruct l as [|x l].
  - cbn in H. injection H as <- <-. constructor.
  - destruct (shuffle_loop_choices (pred (length (x :: l))) (x :: l) ws l' rest ltac:(cbn; lia) ltac:(cbn [length pred]; cbn [length] in Hl; lia) Hws H) as (js & Hv & ->).
    apply shuffle_with_permutation; [cbn; lia|assumption].
Qed.

Lemma shuffle_never_panics {A} (l : list A) ws : Z.of_nat (length l) < 2 ^ 62 -> Forall is_word ws -> shuffle l ws <> Panics.
Proof.
  intros Hl Hws. unfold shuffle. assert (Hi : Z.of_nat (pred (length l)) < 2 ^ 62) by lia.
  generalize dependent (pred (length l)). intros i Hi. clear Hl. revert l ws Hws. 
  induction i as [|i IH]; intros l ws Hws; cbn [shuffle_loop]; [discriminate|].
  destruct (if Z.of_nat (S i) >? 2 ^ 31 - 1 - 1 then int63n (Z.of_nat (S i) + 1) ws else int31n (Z.of_nat (S i) + 1) ws) as [j ws'| |] eqn:E; try discriminate.
  - apply (draw_choice (S i)) in E; auto. apply IH; [lia|apply E].
  - rewrite Z.gtb_ltb in E. exfalso. destruct (Z.ltb_spec (2 ^ 31 - 1 - 1) (Z.of_nat (S i))).
    + apply (proj1 (int_panics _ _ Hws)) in E; lia.
    + apply (proj2 (int_panics _ _ Hws)) in E; lia.
Qed.

(** ** Perm *)

Lemma vpc_snoc i js j : valid_perm_choices i (js ++ [j]) <-> valid_perm_choices i js /\ (j <= i + length js)%nat.
Proof.
  revert i. induction js as [|k js IH]; intros i; cbn; [rewrite Nat.add_0_r; tauto|].
  rewrite IH. replace (S i + length js)%nat with (i + S (length js))%nat by lia. tauto.
Qed.

Lemma perm_with_snoc i m js j : perm_with i m (js ++ [j]) = perm_step (perm_with i m js) (i + length js) j.
Proof.
  revert i m. induction js as [|k js IH]; intros i m; cbn [perm_with app length]; [now rewrite Nat.add_0_r|].
  rewrite IH. now rewrite Nat.add_succ_r.
Qed.

Lemma perm_with_length i m js : length (perm_with i m js) = length m.
Proof.
  revert i m. induction js as [|k js IH]; intros i m; cbn; [reflexivity|]. rewrite IH. unfold perm_step. now rewrite !set_nth_length.
Qed.

Lemma perm_step_inv p r i j : length p = i -> (j <= i)%nat ->
  perm_step (p ++ 0%nat :: r) i j =
  (if Nat.eqb j i then p ++ [i] else set_nth p j i ++ [nth j p 0%nat]) ++ r.
Proof.
  intros Hp Hj. unfold perm_step. rewrite set_nth_app2 by lia. rewrite Hp, Nat.sub_diag. cbn [set_nth].
  destruct (Nat.eqb_spec j i) as [->|Hne].
  - rewrite set_nth_app2 by lia. rewrite Hp, Nat.sub_diag. cbn [set_nth]. now rewrite <- app_assoc.
  - rewrite set_nth_app1 by lia. rewrite app_nth1 by lia. now rewrite <- app_assoc.
Qed.

(** The slice after processing the choices [js], restricted to its first part. *)
Lemma perm_prefix n js : valid_perm_choices 0 js -> (length js <= n)%nat ->
  exists p, perm_with 0 (repeat 0%nat n) js = p ++ repeat 0%nat (n - length js) /\
    length p = length js /\ Permutation (seq 0 (length js)) p.
Proof.
  induction js as [|j js IH] using rev_ind; intros Hv Hn.
  - exists []. cbn. rewrite Nat.sub_0_r. auto.
  - rewrite app_length in *. cbn [length] in *. apply vpc_snoc in Hv. destruct Hv as [Hv Hj].
    destruct (IH Hv ltac:(lia)) as (p & E & Hl & Hp).
    rewrite perm_with_snoc, E. cbn [Nat.add]. replace (n - length js)%nat with (S (n - (length js + 1))) by lia.
    cbn [repeat]. rewrite perm_step_inv by (lia || assumption).
    destruct (Nat.eqb_spec j (length js)) as [->|Hne].
    + exists (p ++ [length js]). split; [reflexivity|]. split; [rewrite app_length; cbn; lia|].
      rewrite Nat.add_1_r, seq_S. now apply Permutation_app_tail.
    + exists (set_nth p j (length js) ++ [nth j p 0%nat]). split; [reflexivity|].
      split; [rewrite app_length, set_nth_length; cbn; lia|].
      rewrite Nat.add_1_r, seq_S. cbn [Nat.add].
      rewrite <- Permutation_cons_append.
      assert (Hnth : nth_error p j = Some (nth j p 0%nat)) by (apply nth_error_nth'; lia).
      rewrite Hp. rewrite <- (set_nth_perm p j (nth j p 0%nat) (length js) Hnth). apply Permutation_cons_append.
Qed.

Lemma perm_permutation js : valid_perm_choices 0 js ->
  Permutation (seq 0 (length js)) (perm_with 0 (repeat 0%nat (length js)) js).
Proof.
  intros Hv. destruct (perm_prefix (length js) js Hv ltac:(lia)) as (p & -> & _ & Hp).
  rewrite Nat.sub_diag. cbn. now rewrite app_nil_r.
Qed.

(** What the loop has built after the choices [js]. *)
Definition perm_result (js : list nat) : list nat := perm_with 0 (repeat 0%nat (length js)) js.

Lemma perm_with_app js i m r : (i + length js <= length m)%nat -> valid_perm_choices i js ->
  perm_with i (m ++ r) js = perm_with i m js ++ r.
Proof.
  revert i m. induction js as [|j js IH]; intros i m Hm Hv; cbn in *; [reflexivity|].
  destruct Hv as [Hj Hv]. rewrite <- IH; [|unfold perm_step; rewrite !set_nth_length; lia|assumption].
  f_equal. unfold perm_step. rewrite set_nth_app1 by lia. rewrite set_nth_app1 by (rewrite set_nth_length; lia).
  now rewrite app_nth1 by lia.
Qed.

Lemma perm_result_length js : length (perm_result js) = length js.
Proof. unfold perm_result. now rewrite perm_with_length, repeat_length. Qed.

Lemma perm_result_snoc js j : valid_perm_choices 0 (js ++ [j]) ->
  perm_result (js ++ [j]) =
  (if Nat.eqb j (length js) then perm_result js ++ [length js]
   else set_nth (perm_result js) j (length js) ++ [nth j (perm_result js) 0%nat]).
Proof.
  intros Hv. apply vpc_snoc in Hv. destruct Hv as [Hv Hj]. unfold perm_result at 1.
  rewrite app_length. cbn [length]. rewrite repeat_app. cbn [repeat].
  rewrite perm_with_snoc, perm_with_app by (rewrite ?repeat_length; lia || assumption).
  fold (perm_result js). cbn [Nat.add]. rewrite perm_step_inv by (rewrite ?perm_result_length; lia).
  apply app_nil_r.
Qed.

Lemma perm_bijection n l : Permutation (seq 0 n) l ->
  exists! js, length js = n /\ valid_perm_choices 0 js /\ perm_result js = l.
Proof.
  revert l. induction n as [|n IH]; intros l Hl.
  - cbn in Hl. apply Permutation_nil in Hl. subst. exists []. split; [cbn; auto|].
    intros [|? ?] [Hlen _]; [reflexivity|discriminate].
  - assert (Hlen : length l = S n) by (rewrite <- (Permutation_length Hl), seq_length; reflexivity).
    assert (Hnd : NoDup l) by (apply (Permutation_NoDup Hl), seq_NoDup).
    destruct (exists_last (l := l)) as (q & z & ->); [destruct l; [discriminate|congruence]|].
    rewrite app_length in Hlen. cbn in Hlen.
    assert (Hin : In n (q ++ [z])) by (apply (Permutation_in _ Hl), in_seq; lia).
    destruct (In_nth_error _ _ Hin) as (j & Hj).
    assert (Hjl : (j <= n)%nat).
    { assert (j < length (q ++ [z]))%nat by (apply nth_error_Some; congruence). rewrite app_length in H. cbn in H. lia. }
    rewrite seq_S in Hl. cbn [Nat.add] in Hl.
    (* the slice before the last step *)
    set (p := if Nat.eqb j n then q else set_nth q j z).
    assert (Hp : Permutation (seq 0 n) p).
    { unfold p. destruct (Nat.eqb_spec j n) as [->|Hne].
      - rewrite nth_error_app2 in Hj by lia. replace (n - length q)%nat with 0%nat in Hj by lia. cbn in Hj.
        injection Hj as ->. now apply Permutation_app_inv_r in Hl.
      - rewrite nth_error_app1 in Hj by lia.
        apply (Permutation_cons_inv (a := n)). rewrite (set_nth_perm q j n z Hj).
        rewrite Permutation_cons_append, Hl. symmetry. apply Permutation_cons_append. }
    destruct (IH p Hp) as (js & (Hjs & Hv & Hr) & Hu).
    exists (js ++ [j]). split.
    + split; [rewrite app_length; cbn; lia|]. 
      assert (Hv' : valid_perm_choices 0 (js ++ [j])) by (apply vpc_snoc; split; [assumption|lia]).
      split; [assumption|]. rewrite perm_result_snoc by assumption. rewrite Hjs, Hr. unfold p.
      destruct (Nat.eqb_spec j n) as [->|Hne].
      * rewrite nth_error_app2 in Hj by lia. replace (n - length q)%nat with 0%nat in Hj by lia. cbn in Hj. congruence.
      * rewrite nth_error_app1 in Hj by lia. rewrite set_nth_twice, set_nth_self by assumption. f_equal. f_equal.
        apply nth_error_nth. rewrite set_nth_nth, Nat.eqb_refl.
        destruct (Nat.ltb_spec j (length q)); [reflexivity|lia].
    + intros ks (Hks & Hvk & Hrk).
      destruct (exists_last (l := ks)) as (ks' & k & ->); [destruct ks; [discriminate|congruence]|].
      rewrite app_length in Hks. cbn in Hks. assert (Hks' : length ks' = n) by lia. clear Hks.
      rewrite perm_result_snoc in Hrk by assumption. rewrite Hks' in Hrk.
      apply vpc_snoc in Hvk. destruct Hvk as [Hvk Hk]. rewrite Hks' in Hk. cbn in Hk.
      assert (Hkn : nth_error (q ++ [z]) k = Some n).
      { rewrite <- Hrk. destruct (Nat.eqb_spec k n) as [Ekn|Hne].
        - rewrite Ekn. rewrite nth_error_app2; rewrite perm_result_length; [|lia]. now replace (n - length ks')%nat with 0%nat by lia.
        - rewrite nth_error_app1; rewrite ?set_nth_length, ?perm_result_length; [|lia].
          rewrite set_nth_nth, Nat.eqb_refl, perm_result_length. destruct (Nat.ltb_spec k (length ks')); [reflexivity|lia]. }
      assert (k = j) by (apply (NoDup_nth_unique (q ++ [z]) k j n); assumption). subst k.
      f_equal. apply Hu. split; [assumption|]. split; [assumption|]. unfold p.
      destruct (Nat.eqb_spec j n) as [->|Hne].
      * apply snoc_inj in Hrk. tauto.
      * apply snoc_inj in Hrk. destruct Hrk as [<- <-]. rewrite set_nth_twice, set_nth_self; [reflexivity|].
        apply nth_error_nth'. rewrite perm_result_length. lia.
Qed.

Lemma perm_loop_choices fuel i m ws l' rest : Z.of_nat (i + fuel) < 2 ^ 62 ->
  Forall is_word ws -> perm_loop fuel i m ws = Got l' rest ->
  exists js, length js = fuel /\ valid_perm_choices i js /\ l' = perm_with i m js.
Proof.
  revert i m ws. induction fuel as [|fuel IH]; intros i m ws Hz Hws H; cbn [perm_loop] in H.
  - injection H as <- <-. exists []. cbn. auto.
  - destruct (intn (Z.of_nat i + 1) ws) as [j ws'| |] eqn:E; try discriminate.
    apply int63n_got in E; [|lia|assumption]. destruct E as (_ & Hj & Hs).
    destruct (spec_got (Z.of_nat i + 1) ws j ws' ltac:(lia) Hs) as (_ & rej & w & Ew & _).
    assert (Hws' : Forall is_word ws').
    { rewrite Ew in Hws. apply (forall_suffix _ (rej ++ [w])). now rewrite <- app_assoc. }
    destruct (IH (S i) (perm_step m i (Z.to_nat j)) ws') as (js & Hl & Hv & ->).
    + lia.
    + assumption.
    + assumption.
    + exists (Z.to_nat j :: js). cbn. repeat split; [lia|lia|assumption].
Qed.
