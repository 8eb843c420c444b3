(** * C24-C29: random numbers *)
From Coq Require Import List ZArith Reals Permutation Lia Lra.
From Verif Require Import RandModel RandSpec RandPeriod RandProofs RandProofs2 RandFloatModel RandFloatProofs.
Import ListNotations.
Open Scope Z_scope.

(** ** C24 *)
(** The state returns to itself exactly after multiples of 2^128 draws. *)
Theorem C24_period : forall s n, valid_state s -> (draws n s = s <-> (2 ^ 128 | Z.of_nat n)).
Proof. intros s n H. exact (pcg_period n s H). Qed.
Print Assumptions C24_period.

(** Every state is reached from every state within 2^128 draws. *)
Theorem C24_every_state : forall s t, valid_state s -> valid_state t ->
  exists n, Z.of_nat n < 2 ^ 128 /\ draws n s = t.
Proof. intros s t Hs Ht. exact (pcg_reaches s t Hs Ht). Qed.
Print Assumptions C24_every_state.

(** One draw advances the 128-bit state, high word first, by the affine map of
    the PCG paper, with no word lost. *)
Theorem C24_exact_arithmetic : forall s, valid_state s ->
  valid_state (next s) /\
  high (next s) * 2 ^ 64 + low (next s) =
    (47026247687942121848144207491837523525 * (high s * 2 ^ 64 + low s) + 117397592171526113268558934119004209487) mod 2 ^ 128.
Proof. intros s H. split; [exact (next_valid s)|]. exact (next_exact s H). Qed.
Print Assumptions C24_exact_arithmetic.

(** Saving the state and restoring it gives the same sequence. *)
Theorem C24_save_restore : forall s n extra, valid_state s ->
  exists s', unmarshal (marshal s ++ extra) = Some s' /\ words n s' = words n s.
Proof. exact pcg_restores. Qed.
Print Assumptions C24_save_restore.

Example C24_hypotheses_met : valid_state (pcg_seed 42) /\ valid_state (next (pcg_seed 42)) /\ next (pcg_seed 42) <> pcg_seed 42.
Proof. repeat split; try (vm_compute; congruence). Qed.

(** ** C25 *)
(** Each value of [0,n) is produced by exactly K source words, rejected words
    are skipped, and at least half the words are accepted. *)
Theorem C25_unbiased : forall n, 0 < n < 2 ^ 64 -> exists K, 0 < K /\ 2 ^ 64 <= 2 * (n * K) /\
  forall w ws, is_word w -> Forall is_word ws ->
    (forall r, 0 <= r < n -> (uint64n n [w] = Got r [] <-> exists q, 0 <= q < K /\ w = r + n * q)) /\
    (forall r, uint64n n [w] = Got r [] -> uint64n n (w :: ws) = Got r ws) /\
    (uint64n n [w] = Exhausted -> uint64n n (w :: ws) = uint64n n ws).
Proof. exact uint64n_fair. Qed.
Print Assumptions C25_unbiased.

Theorem C25_range : forall n ws v rest, Forall is_word ws ->
  (0 < n < 2 ^ 64 -> uint64n n ws = Got v rest -> 0 <= v < n) /\
  (n < 2 ^ 63 -> int63n n ws = Got v rest -> 0 <= v < n /\ uint64n n ws = Got v rest) /\
  (n < 2 ^ 63 -> intn n ws = Got v rest -> 0 <= v < n /\ uint64n n ws = Got v rest) /\
  (n < 2 ^ 31 -> int31n n ws = Got v rest -> 0 <= v < n /\ uint64n n ws = Got v rest).
Proof.
  intros n ws v rest Hws. split; [intros Hn; exact (uint64n_range n ws v rest Hn Hws)|].
  assert (H63 : n < 2 ^ 63 -> int63n n ws = Got v rest -> 0 <= v < n /\ uint64n n ws = Got v rest).
  { intros Hn H. destruct (int63n_got n ws v rest Hn Hws H) as (H0 & Hv & Hs). split; [assumption|].
    rewrite uint64n_is_spec by (unfold W; (assumption || lia)). assumption. }
  split; [exact H63|]. split; [exact H63|].
  intros Hn H. destruct (int31n_got n ws v rest Hn Hws H) as (H0 & Hv & Hs). split; [assumption|].
  rewrite uint64n_is_spec by (unfold W; (assumption || lia)). assumption.
Qed.
Print Assumptions C25_range.

Theorem C25_panics : forall n ws, Forall is_word ws ->
  uint64n 0 ws = Panics /\
  (n < 2 ^ 63 -> (int63n n ws = Panics <-> n <= 0)) /\ (n < 2 ^ 63 -> (intn n ws = Panics <-> n <= 0)) /\
  (n < 2 ^ 31 -> (int31n n ws = Panics <-> n <= 0)).
Proof.
  intros n ws Hws. destruct (int_panics n ws Hws) as [H1 H2]. repeat split; try apply H1; try apply H2; assumption || reflexivity.
Qed.
Print Assumptions C25_panics.

(** Float64 uses one word and returns exactly one of the fractions k/2^53,
    k = word mod 2^53; Float32 is below 1 although the conversion rounds. *)
Theorem C25_float64 : forall ws x rest, Forall is_word ws -> float64 ws = Got x rest ->
  (0 <= x < 1)%R /\ exists w, In w ws /\ x = (IZR (w mod 2 ^ 53) / IZR (2 ^ 53))%R.
Proof. intros ws x rest H1 H2. destruct (float64_got ws x rest H1 H2) as (_ & H). exact H. Qed.
Print Assumptions C25_float64.

Theorem C25_float64_returns : forall w ws, Forall is_word (w :: ws) -> exists x, float64 (w :: ws) = Got x ws.
Proof.
  intros w ws H. destruct (float64_always (w :: ws) H ltac:(discriminate)) as (x & rest & E & Hr).
  injection Hr as <-. eauto.
Qed.
Print Assumptions C25_float64_returns.

Theorem C25_float32 : forall ws x rest, Forall is_word ws -> float32 ws = Got x rest -> (0 <= x < 1)%R.
Proof. exact float32_got. Qed.
Print Assumptions C25_float32.

Example C25_hypotheses_met : Forall is_word [2 ^ 64 - 1; 17] /\ uint64n 10 [2 ^ 64 - 1; 17] = Got 7 [] /\
  round32 (float64_value (2 ^ 53 - 1)) = 1%R.
Proof.
  split; [|split; [reflexivity|exact float32_resamples]].
  repeat apply Forall_cons; try apply Forall_nil; split; (discriminate || reflexivity).
Qed.

(** ** C26 *)
Theorem C26_shuffle_permutes : forall (A : Type) (l : list A) ws l' rest,
  Z.of_nat (length l) < 2 ^ 62 -> Forall is_word ws -> shuffle l ws = Got l' rest -> Permutation l l'.
Proof. exact @shuffle_permutation. Qed.
Print Assumptions C26_shuffle_permutes.

Theorem C26_shuffle_never_panics : forall (A : Type) (l : list A) ws,
  Z.of_nat (length l) < 2 ^ 62 -> Forall is_word ws -> shuffle l ws <> Panics.
Proof. exact @shuffle_never_panics. Qed.
Print Assumptions C26_shuffle_never_panics.

(** The result is the one given by some list of choices ... *)
Theorem C26_shuffle_choices : forall (A : Type) (x : A) l ws l' rest,
  Z.of_nat (length l) < 2 ^ 62 -> Forall is_word ws -> shuffle (x :: l) ws = Got l' rest ->
  exists js, valid_choices (length l) js /\ l' = shuffle_with (length l) (x :: l) js.
Proof. exact @shuffle_follows. Qed.
Print Assumptions C26_shuffle_choices.

(** ... and each permutation is given by exactly one list of choices. *)
Theorem C26_shuffle_bijection : forall (A : Type) (x : A) l l', NoDup (x :: l) -> Permutation (x :: l) l' ->
  exists! js, valid_choices (length l) js /\ shuffle_with (length l) (x :: l) js = l'.
Proof. intros A x l l' Hn Hp. exact (shuffle_bijection (length l) (x :: l) l' eq_refl Hn Hp). Qed.
Print Assumptions C26_shuffle_bijection.

Theorem C26_perm_permutes : forall n ws l rest,
  Z.of_nat n < 2 ^ 62 -> Forall is_word ws -> perm n ws = Got l rest -> Permutation (seq 0 n) l.
Proof. exact perm_is_permutation. Qed.
Print Assumptions C26_perm_permutes.

Theorem C26_perm_bijection : forall n l, Permutation (seq 0 n) l ->
  exists! js, length js = n /\ valid_perm_choices 0 js /\ perm_with 0 (repeat 0%nat (length js)) js = l.
Proof. exact perm_bijection. Qed.
Print Assumptions C26_perm_bijection.

Example C26_hypotheses_met : Forall is_word [5; 10; 7; 4] /\ shuffle [10; 20; 30; 40] [5; 10; 7; 4] = Got [10; 30; 40; 20] [4] /\
  perm 4 [5; 10; 7; 4] = Got [3; 2; 0; 1]%nat [].
Proof. split; [repeat apply Forall_cons; try apply Forall_nil; split; (discriminate || reflexivity)|split; reflexivity]. Qed.

(** ** C27 *)
(** Whatever happened before, the results after Seed are those of a new
    generator with that seed. *)
Theorem C27_seed_determines : forall seed0 before seed after,
  let r := snd (rop_run (rand_new seed0) before) in
  fst (rop_run (rand_seed r seed) after) = fst (rop_run (rand_new seed) after).
Proof. intros seed0 before seed after. exact (seed_determines _ seed after). Qed.
Print Assumptions C27_seed_determines.

Theorem C27_read_split : forall a b r, rand_read (a + b) r =
  let '(x, r1) := rand_read a r in let '(y, r2) := rand_read b r1 in (x ++ y, r2).
Proof. exact read_split. Qed.
Print Assumptions C27_read_split.

(** Read delivers the bytes of the successive 64-bit outputs, low byte first. *)
Theorem C27_read_bytes : forall n s rv, fst (rand_read n (mkRand s rv 0)) = firstn n (flat_map le_bytes (words n s)).
Proof. exact read_bytes. Qed.
Print Assumptions C27_read_bytes.

Example C27_hypotheses_met :
  let r := snd (rop_run (rand_new 7) [RUint64; RRead 3]) in
  read_pos r = 5 /\ fst (rop_run r [RRead 2]) <> fst (rop_run (rand_seed r 7) [RRead 2]).
Proof. split; [reflexivity|]. vm_compute. discriminate. Qed.

(** ** C28 *)
Theorem C28_distinct_valid : forall n valid rs a max, Forall (fun x => 0 <= x < max) rs ->
  get_unique n valid rs = Some a ->
  length a = n /\ NoDup a /\ forall x, In x a -> valid x = true /\ 0 <= x < max.
Proof.
  intros n valid rs a max Hr H. destruct (get_unique_spec n valid rs a H) as (H1 & H2 & H3).
  split; [assumption|]. split; [assumption|]. intros x Hx. destruct (H3 x Hx) as (Hv & Hi & _).
  rewrite Forall_forall in Hr. auto.
Qed.
Print Assumptions C28_distinct_valid.

(** Any distinct valid numbers other than 0 can be returned, and with enough of
    them the function returns if each keeps turning up in the source. *)
Theorem C28_any_choice_partial : forall valid a, NoDup a -> Forall (fun x => valid x = true /\ x <> 0) a ->
  get_unique (length a) valid a = Some a.
Proof. exact get_unique_any. Qed.
Print Assumptions C28_any_choice_partial.

Theorem C28_returns_partial : forall n valid (pool : list Z) (f : nat -> Z),
  NoDup pool -> (n <= length pool)%nat -> Forall (fun v => valid v = true /\ v <> 0) pool ->
  (forall v, In v pool -> forall k, exists k', (k <= k')%nat /\ f k' = v) ->
  exists k a, get_unique n valid (prefix f k) = Some a.
Proof. exact get_unique_returns. Qed.
Print Assumptions C28_returns_partial.

(** Missing: the number 0.  It is never returned, whatever the source ... *)
Theorem C28_zero_refuted : forall n valid rs a, get_unique n valid rs = Some a -> ~ In 0 a.
Proof. intros n valid rs a H Hi. destruct (get_unique_spec n valid rs a H) as (_ & _ & H3). now destruct (H3 0 Hi) as (_ & _ & H0). Qed.
Print Assumptions C28_zero_refuted.

(** ... and asking for all [max] numbers never returns. *)
Theorem C28_exact_fit_refuted : forall max valid rs, 0 < max -> Forall (fun x => 0 <= x < max) rs ->
  get_unique (Z.to_nat max) valid rs = None.
Proof.
  intros max valid rs Hm Hr. destruct (get_unique (Z.to_nat max) valid rs) as [a|] eqn:E; [|reflexivity].
  destruct (get_unique_bound _ _ _ _ _ Hr E); lia.
Qed.
Print Assumptions C28_exact_fit_refuted.

Example C28_hypotheses_met : get_unique 2 Z.even [0; 4; 3; 4; 0; 2] = Some [4; 2].
Proof. reflexivity. Qed.

(** ** C29 *)
(** Below the total weight, index i is chosen exactly on an interval of length dist[i]. *)
Theorem C29_interval : forall dist rnd i, Forall (fun p => (0 <= p)%R) dist -> (0 <= rnd < total dist)%R ->
  (weighted_choice dist rnd = i <->
   (i < length dist)%nat /\ (total (firstn i dist) <= rnd < total (firstn i dist) + nth i dist 0)%R).
Proof. exact weighted_choice_spec. Qed.
Print Assumptions C29_interval.

(** Weights summing to less than the number drawn give index 0, even with weight 0. *)
Theorem C29_short_total_refuted : exists dist rnd, Forall (fun p => (0 <= p)%R) dist /\ (0 <= rnd < 1)%R /\
  nth 0 dist 0%R = 0%R /\ weighted_choice dist rnd = 0%nat.
Proof.
  exists [0%R; (1 / 2)%R], (3 / 4)%R.
  assert (Forall (fun p => (0 <= p)%R) [0%R; (1 / 2)%R]) by (repeat constructor; lra).
  repeat split; try lra; try assumption. apply weighted_choice_beyond; [assumption|cbn; lra].
Qed.
Print Assumptions C29_short_total_refuted.

Example C29_hypotheses_met : Forall (fun p => (0 <= p)%R) [(1/4)%R; 0%R; (3/4)%R] /\ (0 <= 1/2 < total [(1/4)%R; 0%R; (3/4)%R])%R /\
  weighted_choice [(1/4)%R; 0%R; (3/4)%R] (1/2)%R = 2%nat.
Proof.
  assert (H : Forall (fun p => (0 <= p)%R) [(1/4)%R; 0%R; (3/4)%R]) by (repeat constructor; lra).
  assert (H' : (0 <= 1/2 < total [(1/4)%R; 0%R; (3/4)%R])%R) by (cbn; lra).
  split; [assumption|]. split; [assumption|]. apply weighted_choice_spec; [assumption|assumption|]. cbn. split; [lia|lra].
Qed.
