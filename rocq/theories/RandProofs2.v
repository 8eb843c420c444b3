(** * Proofs about Seed, Read and the unique random integers *)
From Coq Require Import List ZArith Bool Lia Permutation Arith.
From Verif Require Import RandModel RandSpec RandPeriod RandProofs.
Import ListNotations.
Open Scope Z_scope.

(** ** Read *)
Lemma read_split a b r : rand_read (a + b) r =
  let '(x, r1) := rand_read a r in let '(y, r2) := rand_read b r1 in (x ++ y, r2).
Proof.
  revert r. induction a as [|a IH]; intros r; cbn [rand_read Nat.add].
  - destruct (rand_read b r). reflexivity.
  - set (r1 := if read_pos r =? 0 then _ else _).
    rewrite IH. destruct (rand_read a _) as [x r2]. destruct (rand_read b r2). reflexivity.
Qed.


Lemma read_one n s v p : p <> 0 -> rand_read (S n) (mkRand s v p) =
  let '(bs, r) := rand_read n (mkRand s (Z.shiftr v 8) (p - 1)) in (v mod 256 :: bs, r).
Proof. intros Hp. cbn [rand_read read_pos]. apply Z.eqb_neq in Hp. rewrite Hp. reflexivity. Qed.

Lemma read_fill n s v s' rv : pcg_uint64 s = (v, s') -> rand_read (S n) (mkRand s rv 0) = rand_read (S n) (mkRand s' v 8).
Proof. intros E. rewrite (read_one n s' v 8) by lia. cbn [rand_read read_pos src Z.eqb]. rewrite E. reflexivity. Qed.

Lemma read_word_bytes s v s' : pcg_uint64 s = (v, s') -> forall rv,
  rand_read 8 (mkRand s rv 0) = (le_bytes v, mkRand s' (Z.shiftr v 64) 0).
Proof.
  intros E rv. rewrite (read_fill _ _ _ _ _ E). unfold le_bytes. cbn [map].
  rewrite !read_one by lia. cbn [rand_read]. rewrite !Z.shiftr_shiftr by lia. rewrite <- !Z.shiftr_div_pow2 by lia. rewrite Z.shiftr_0_r. reflexivity.
Qed.

Lemma read_words n s rv : exists rv', rand_read (8 * n) (mkRand s rv 0) = (flat_map le_bytes (words n s), mkRand (fst (nat_rect (fun _ => (pcg * unit)%type) (s, tt) (fun _ st => (snd (pcg_uint64 (fst st)), tt)) n)) rv' 0).
Proof.
  revert s rv. induction n as [|n IH]; intros s rv; [exists rv; reflexivity|].
  replace (8 * S n)%nat with (8 + 8 * n)%nat by lia. rewrite read_split.
  destruct (pcg_uint64 s) as [v s'] eqn:E. rewrite (read_word_bytes _ _ _ E).
  destruct (IH s' (Z.shiftr v 64)) as [rv' Hr]. rewrite Hr. exists rv'. cbn [words flat_map]. rewrite E.
  f_equal. f_equal. clear -E.
  assert (G : forall n s, fst (nat_rect (fun _ => (pcg * unit)%type) (s, tt) (fun _ st => (snd (pcg_uint64 (fst st)), tt)) (S n)) =
     fst (nat_rect (fun _ => (pcg * unit)%type) (snd (pcg_uint64 s), tt) (fun _ st => (snd (pcg_uint64 (fst st)), tt)) n)).
  { clear. induction n as [|n IH]; intros s; [reflexivity|]. cbn [nat_rect fst] in *. now rewrite IH. }
  rewrite G, E. reflexivity.
Qed.

(** The first [n] bytes read from a generator whose buffer is empty. *)
Lemma read_bytes n s rv : fst (rand_read n (mkRand s rv 0)) = firstn n (flat_map le_bytes (words n s)).
Proof.
  destruct (read_words n s rv) as [rv' H].
  replace (8 * n)%nat with (n + 7 * n)%nat in H by lia. rewrite read_split in H.
  assert (L : forall n r, length (fst (rand_read n r)) = n).
  { clear. induction n as [|n IH]; intros r; [reflexivity|]. cbn [rand_read]. set (r1 := if read_pos r =? 0 then _ else _).
    specialize (IH (mkRand (src r1) (Z.shiftr (read_val r1) 8) (read_pos r1 - 1))).
    destruct (rand_read n _). cbn in *. now f_equal. }
  specialize (L n (mkRand s rv 0)).
  destruct (rand_read n (mkRand s rv 0)) as [x r1]. destruct (rand_read (7 * n) r1) as [y r2].
  injection H as H _. cbn [fst] in *. rewrite <- H, firstn_app, L, Nat.sub_diag. cbn [firstn].
  rewrite app_nil_r. rewrite <- L at 1. now rewrite firstn_all.
Qed.

(** ** Outputs depend only on the seed *)
Definition same_outputs (r1 r2 : rand) : Prop :=
  src r1 = src r2 /\ read_pos r1 = read_pos r2 /\ (read_pos r1 = 0 \/ read_val r1 = read_val r2).

Lemma read_same n r1 r2 : same_outputs r1 r2 ->
  fst (rand_read n r1) = fst (rand_read n r2) /\ same_outputs (snd (rand_read n r1)) (snd (rand_read n r2)).
Proof.
  revert r1 r2. induction n as [|n IH]; intros r1 r2 H; [split; [reflexivity|assumption]|].
  cbn [rand_read].
  assert (E : (if read_pos r1 =? 0 then let '(v, s) := pcg_uint64 (src r1) in mkRand s v 8 else r1) =
     (if read_pos r2 =? 0 then let '(v, s) := pcg_uint64 (src r2) in mkRand s v 8 else r2)).
  { destruct H as (Hs & Hp & Hv). rewrite <- Hs, <- Hp. destruct (Z.eqb_spec (read_pos r1) 0) as [|Hne]; [reflexivity|].
    destruct Hv as [|Hv]; [contradiction|]. destruct r1, r2; cbn in *; congruence. }
  rewrite E. destruct (rand_read n _) as [bs r3]. split; [reflexivity|]. repeat split; auto.
Qed.

Lemma run_same os r1 r2 : same_outputs r1 r2 -> fst (rop_run r1 os) = fst (rop_run r2 os).
Proof.
  revert r1 r2. induction os as [|o os IH]; intros r1 r2 H; [reflexivity|]. cbn [rop_run].
  assert (E : fst (rop_step r1 o) = fst (rop_step r2 o) /\ same_outputs (snd (rop_step r1 o)) (snd (rop_step r2 o))).
  { destruct o as [|n|seed]; cbn [rop_step].
    - destruct H as (Hs & Hp & Hv). unfold rand_uint64. rewrite Hs. destruct (pcg_uint64 (src r2)).
      split; [reflexivity|]. repeat split; assumption.
    - now apply read_same.
    - split; [reflexivity|]. repeat split. now left. }
  destruct (rop_step r1 o) as [x r3], (rop_step r2 o) as [x' r4]. cbn [fst snd] in E. destruct E as [-> H'].
  specialize (IH r3 r4 H'). destruct (rop_run r3 os), (rop_run r4 os). cbn in *. now f_equal.
Qed.

Lemma seed_determines r seed os : fst (rop_run (rand_seed r seed) os) = fst (rop_run (rand_new seed) os).
Proof. apply run_same. repeat split. now left. Qed.

(** ** Unique random integers *)
Lemma contains_true a x : contains a x = true <-> In x a.
Proof.
  unfold contains. rewrite existsb_exists. split.
  - intros (y & Hy & E). apply Z.eqb_eq in E. congruence.
  - intros H. exists x. split; [assumption|apply Z.eqb_refl].
Qed.

Lemma contains_false a x : contains a x = false <-> ~ In x a.
Proof. rewrite <- contains_true. destruct (contains a x); split; congruence. Qed.

Lemma unique_one_some valid a rs r rest : unique_one valid a rs = Some (r, rest) ->
  valid r = true /\ ~ In r a /\ exists skipped, rs = skipped ++ r :: rest /\
    Forall (fun x => valid x = false \/ In x a) skipped.
Proof.
  induction rs as [|x rs IH]; cbn [unique_one]; [discriminate|].
  destruct (negb (valid x) || contains a x) eqn:E.
  - intros H. destruct (IH H) as (Hv & Hn & sk & -> & Hs). split; [assumption|]. split; [assumption|].
    exists (x :: sk). split; [reflexivity|]. constructor; [|assumption].
    apply orb_true_iff in E. destruct E as [E|E]; [left; now apply negb_true_iff in E|right; now apply contains_true].
  - intros H. injection H as -> ->. apply orb_false_iff in E. destruct E as [E1 E2].
    apply negb_false_iff in E1. apply contains_false in E2. split; [assumption|]. split; [assumption|].
    exists []. auto.
Qed.

Definition chosen_ok (valid : Z -> bool) (c : list Z) : Prop :=
  NoDup c /\ Forall (fun x => valid x = true /\ x <> 0) c.

Lemma set_first_zero c k r : set_nth (c ++ repeat 0 (S k)) (length c) r = (c ++ [r]) ++ repeat 0 k.
Proof. rewrite set_nth_app2 by lia. rewrite Nat.sub_diag. cbn. now rewrite <- app_assoc. Qed.

Lemma chosen_ok_snoc valid c r k : chosen_ok valid c -> valid r = true -> ~ In r (c ++ repeat 0 (S k)) -> chosen_ok valid (c ++ [r]).
Proof.
  intros [Hn Hf] Hv Hi. split.
  - apply (Permutation_NoDup (l := r :: c)); [apply Permutation_cons_append|]. constructor; [|assumption].
    intros H. apply Hi, in_or_app. now left.
  - apply Forall_app. split; [assumption|]. constructor; [|constructor]. split; [assumption|].
    intros ->. apply Hi, in_or_app. right. now left.
Qed.

Lemma unique_loop_spec valid k c rs a : chosen_ok valid c ->
  unique_loop valid k (length c) (c ++ repeat 0 k) rs = Some a ->
  chosen_ok valid a /\ length a = (length c + k)%nat /\ incl a (c ++ rs).
Proof.
  revert c rs. induction k as [|k IH]; intros c rs Hc H; cbn [unique_loop] in H.
  - injection H as <-. cbn. rewrite app_nil_r. split; [assumption|]. split; [lia|]. intros x Hx. apply in_or_app. now left.
  - destruct (unique_one valid (c ++ repeat 0 (S k)) rs) as [[r rest]|] eqn:E; [|discriminate].
    apply unique_one_some in E. destruct E as (Hv & Hi & sk & -> & _).
    rewrite set_first_zero in H.
    replace (S (length c)) with (length (c ++ [r])) in H by (rewrite app_length; cbn; lia).
    destruct (IH (c ++ [r]) rest) as (Ha & Hl & Hin); [eapply chosen_ok_snoc; eauto|assumption|].
    split; [assumption|]. rewrite app_length in Hl. cbn in Hl. split; [lia|].
    intros x Hx. specialize (Hin x Hx). rewrite <- app_assoc in Hin.
    apply in_app_or in Hin. destruct Hin as [Hin|Hin]; [apply in_or_app; now left|].
    apply in_or_app. right. apply in_or_app. right. cbn in *. tauto.
Qed.

Lemma get_unique_spec n valid rs a : get_unique n valid rs = Some a ->
  length a = n /\ NoDup a /\ (forall x, In x a -> valid x = true /\ In x rs /\ x <> 0).
Proof.
  intros H. destruct (unique_loop_spec valid n [] rs a) as ([Hn Hf] & Hl & Hi); [split; constructor|exact H|].
  split; [assumption|]. split; [assumption|]. intros x Hx. rewrite Forall_forall in Hf. destruct (Hf x Hx). specialize (Hi x Hx). auto.
Qed.

(** At most max-1 numbers can be chosen. *)
Lemma get_unique_bound n valid rs a max : Forall (fun x => 0 <= x < max) rs -> get_unique n valid rs = Some a ->
  n = 0%nat \/ Z.of_nat n <= max - 1.
Proof.
  intros Hr H. destruct (get_unique_spec _ _ _ _ H) as (Hl & Hn & Ha).
  destruct n as [|n]; [now left|right].
  assert (Hin : incl a (map Z.of_nat (seq 1 (Z.to_nat (max - 1))))).
  { intros x Hx. destruct (Ha x Hx) as (_ & Hi & Hz). rewrite Forall_forall in Hr. specialize (Hr x Hi).
    apply in_map_iff. exists (Z.to_nat x). split; [lia|]. apply in_seq. lia. }
  apply NoDup_incl_length in Hin; [|assumption]. rewrite map_length, seq_length in Hin. lia.
Qed.

(** The choice of any n distinct valid non-zero values is possible. *)
Lemma get_unique_any valid a : NoDup a -> Forall (fun x => valid x = true /\ x <> 0) a -> get_unique (length a) valid a = Some a.
Proof.
  intros Hn Hf. unfold get_unique.
  assert (G : forall b c, NoDup (c ++ b) -> Forall (fun x => valid x = true /\ x <> 0) b ->
     unique_loop valid (length b) (length c) (c ++ repeat 0 (length b)) b = Some (c ++ b)).
  { clear. induction b as [|x b IH]; intros c Hn Hf; cbn [unique_loop length].
    - reflexivity.
    - inversion Hf as [|? ? [Hv Hz] Hf']; subst. cbn [unique_one]. rewrite Hv. cbn [negb orb].
      assert (E : contains (c ++ repeat 0 (S (length b))) x = false).
      { apply contains_false. intros H. apply in_app_or in H. destruct H as [H|H].
        - apply NoDup_remove_2 in Hn. apply Hn, in_or_app. now left.
        - apply repeat_spec in H. congruence. }
      rewrite E, set_first_zero. replace (S (length c)) with (length (c ++ [x])) by (rewrite app_length; cbn; lia).
      rewrite IH; [now rewrite <- app_assoc|now rewrite <- app_assoc|assumption]. }
  exact (G a [] Hn Hf).
Qed.

(** With enough acceptable numbers and a source in which every number keeps
    turning up, the function returns. *)

Lemma unique_one_ends valid a (f : nat -> Z) start k v : f k = v -> (start <= k)%nat -> valid v = true -> ~ In v a ->
  exists r k', unique_one valid a (map f (seq start (S k - start))) = Some (r, map f (seq k' (S k - k'))) /\ (start < k' <= S k)%nat.
Proof.
  intros Hk Hs Hv Hi. remember (k - start)%nat as d eqn:Ed. revert start Hs Ed.
  induction d as [|d IH]; intros start Hs Ed.
  - assert (start = k) by lia. subst start. replace (S k - k)%nat with 1%nat by lia. cbn [seq map unique_one].
    rewrite Hk, Hv. apply contains_false in Hi. rewrite Hi. cbn. exists v, (S k). replace (k - k)%nat with 0%nat by lia.
    split; [f_equal; f_equal; now rewrite ?Nat.sub_diag|lia].
  - replace (S k - start)%nat with (S (S k - S start)) by lia. cbn [seq map unique_one].
    destruct (negb (valid (f start)) || contains a (f start)) eqn:E.
    + destruct (IH (S start)) as (r & k' & H & Hb); [lia|lia|]. exists r, k'. split; [exact H|lia].
    + exists (f start), (S start). split; [reflexivity|lia].
Qed.

Lemma unique_one_app valid a rs r rest more : unique_one valid a rs = Some (r, rest) ->
  unique_one valid a (rs ++ more) = Some (r, rest ++ more).
Proof.
  induction rs as [|x rs IH]; cbn [unique_one app]; [discriminate|].
  destruct (negb (valid x) || contains a x); [assumption|]. intros E. injection E as -> ->. reflexivity.
Qed.

Lemma unique_loop_app valid k i a rs more b : unique_loop valid k i a rs = Some b -> unique_loop valid k i a (rs ++ more) = Some b.
Proof.
  revert i a rs. induction k as [|k IH]; intros i a rs H; cbn [unique_loop] in *; [assumption|].
  destruct (unique_one valid a rs) as [[r rest]|] eqn:E; [|discriminate].
  rewrite (unique_one_app _ _ _ _ _ _ E). auto.
Qed.

Lemma fresh_value (pool c : list Z) : NoDup pool -> (length c < length pool)%nat -> exists v, In v pool /\ ~ In v c.
Proof.
  intros Hn Hl. destruct (Exists_dec (fun v => ~ In v c) pool) as [H|H].
  - intros v. destruct (in_dec Z.eq_dec v c); [right; tauto|now left].
  - apply Exists_exists in H. exact H.
  - exfalso. assert (incl pool c).
    { intros v Hv. destruct (in_dec Z.eq_dec v c); [assumption|]. exfalso. apply H, Exists_exists. eauto. }
    apply NoDup_incl_length in H0; [lia|assumption].
Qed.

Lemma get_unique_returns n valid (pool : list Z) (f : nat -> Z) :
  NoDup pool -> (n <= length pool)%nat -> Forall (fun v => valid v = true /\ v <> 0) pool ->
  (forall v, In v pool -> forall k, exists k', (k <= k')%nat /\ f k' = v) ->
  exists k a, get_unique n valid (prefix f k) = Some a.
Proof.
  intros Hn Hl Hp Hf.
  assert (G : forall m c start, (length c + m <= length pool)%nat ->
     exists len a, unique_loop valid m (length c) (c ++ repeat 0 m) (map f (seq start len)) = Some a).
  { induction m as [|m IH]; intros c start Hc; cbn [unique_loop].
    - exists 0%nat. eauto.
    - destruct (fresh_value pool c Hn ltac:(lia)) as (v & Hv & Hi).
      destruct (Hf v Hv start) as (k & Hk & Ek).
      rewrite Forall_forall in Hp. destruct (Hp v Hv) as [Hva Hz].
      destruct (unique_one_ends valid (c ++ repeat 0 (S m)) f start k v Ek Hk Hva) as (r & k' & E & Hb).
      { intros H. apply in_app_or in H. destruct H as [H|H]; [contradiction|]. apply repeat_spec in H. contradiction. }
      destruct (IH (c ++ [r]) k') as (len & a & Ha); [rewrite app_length; cbn; lia|].
      exists (S k - start + len)%nat, a.
      rewrite seq_app, map_app. rewrite (unique_one_app _ _ _ _ _ _ E).
      rewrite set_first_zero. replace (S (length c)) with (length (c ++ [r])) by (rewrite app_length; cbn; lia).
      rewrite <- map_app. replace (seq k' (S k - k') ++ seq (start + (S k - start)) len) with (seq k' (S k - k' + len)).
      + replace (S k - k' + len)%nat with (len + (S k - k'))%nat by lia. rewrite seq_app, map_app. now apply unique_loop_app.
      + rewrite seq_app. f_equal. f_equal. lia. }
  destruct (G n [] 0%nat ltac:(cbn; lia)) as (len & a & H). exists len, a. exact H.
Qed.

(** ** A panic inside a locked generator *)
Lemma locked_after_panic s n : lk s = false -> n <= 0 ->
  fst (locked_intn s n) = Panicked /\ forall m, fst (locked_intn (snd (locked_intn s n)) m) = Blocked.
Proof.
  intros Hs Hn. unfold locked_intn. rewrite Hs. unfold intn at 1 2, int63n at 1 2.
  apply Z.leb_le in Hn. rewrite Hn. split; reflexivity.
Qed.

(** ** Statements in the form used by the property theorems *)
Lemma uint64n_range n ws v rest : 0 < n < 2 ^ 64 -> Forall is_word ws -> uint64n n ws = Got v rest -> 0 <= v < n.
Proof.
  intros Hn Hws. rewrite uint64n_is_spec by assumption. intros H. exact (proj1 (spec_got n ws v rest (proj1 Hn) H)).
Qed.

Lemma pcg_restores s n extra : valid_state s -> exists s', unmarshal (marshal s ++ extra) = Some s' /\ words n s' = words n s.
Proof. intros H. exists s. split; [now apply unmarshal_marshal|reflexivity]. Qed.

Lemma perm_is_permutation n ws l rest : Z.of_nat n < 2 ^ 62 -> Forall is_word ws -> perm n ws = Got l rest -> Permutation (seq 0 n) l.
Proof.
  intros Hn Hws H. destruct (perm_loop_choices n 0 (repeat 0%nat n) ws l rest Hn Hws H) as (js & Hl & Hv & ->).
  subst n. now apply perm_permutation.
Qed.

(** Every draw produces the choices used by the loops. *)
Lemma shuffle_follows {A} (x : A) l ws l' rest : Z.of_nat (length l) < 2 ^ 62 -> Forall is_word ws ->
  shuffle (x :: l) ws = Got l' rest -> exists js, valid_choices (length l) js /\ l' = shuffle_with (length l) (x :: l) js.
Proof.
  intros Hl Hws H. exact (shuffle_loop_choices (length l) (x :: l) ws l' rest ltac:(cbn; lia) Hl Hws H).
Qed.
