(** * Following the cycles of a permutation in place *)
From Coq Require Import List Arith Bool Lia.
From Verif Require Import DenseModel DenseSpec DenseLemmas.
Import ListNotations.

Lemma iter_S {A} n (f : A -> A) x : Nat.iter (S n) f x = f (Nat.iter n f x). Proof. reflexivity. Qed.
Lemma iter_plus {A} n m (f : A -> A) x : Nat.iter (n + m) f x = Nat.iter n f (Nat.iter m f x).
Proof. induction n as [|n IH]; [reflexivity|]. cbn [Nat.add]. now rewrite !iter_S, IH. Qed.

Section Perm.
Variable n : nat.
Variable sigma : nat -> nat.
Hypothesis range : forall i, i < n -> sigma i < n.
Hypothesis inj : forall i j, i < n -> j < n -> sigma i = sigma j -> i = j.

Local Notation "'it' k i" := (Nat.iter k sigma i) (at level 10, k at level 9, i at level 9).

Lemma it_range k i : i < n -> it k i < n.
Proof. induction k as [|k IH]; intros H; cbn [Nat.iter]; [assumption|]. rewrite iter_S. auto. Qed.

Lemma it_cancel a k i : i < n -> it (a + k) i = it a i -> it k i = i.
Proof.
  intros Hi. induction a as [|a IH]; intros E; [exact E|]. apply IH.
  cbn [Nat.add] in E. rewrite !iter_S in E. apply inj; auto using it_range.
Qed.

Lemma returns i : i < n -> exists m, 1 <= m <= n /\ it m i = i.
Proof.
  intros Hi.
  destruct (Exists_dec (fun m => it m i = i) (seq 1 n)) as [H|H].
  - intros m. apply Nat.eq_dec.
  - apply Exists_exists in H. destruct H as (m & Hm & E). apply in_seq in Hm. exists m. split; [lia|assumption].
  - exfalso.
    assert (Hn : NoDup (map (fun k => it k i) (seq 0 (S n)))).
    { assert (G : forall a b, a < b <= n -> it a i <> it b i).
      { intros a b Hab E. apply H, Exists_exists. exists (b - a). split; [apply in_seq; lia|].
        apply (it_cancel a); [assumption|]. replace (a + (b - a)) with b by lia. now symmetry. }
      apply NoDup_nth_error. intros a b Ha E. rewrite map_length, seq_length in Ha.
      rewrite !nth_map, !nth_seq in E. destruct (Nat.ltb_spec a (S n)); [|lia].
      destruct (Nat.ltb_spec b (S n)); [|discriminate]. cbn [option_map] in E. injection E as E. cbn [Nat.add] in E.
      destruct (lt_eq_lt_dec a b) as [[Hl|He]|Hg]; [|assumption|]; exfalso.
      - apply (G a b); [lia|assumption].
      - apply (G b a); [lia|now symmetry]. }
    assert (Hin : incl (map (fun k => it k i) (seq 0 (S n))) (seq 0 n)).
    { intros x Hx. apply in_map_iff in Hx. destruct Hx as (k & <- & _). apply in_seq. pose proof (it_range k i Hi). cbn beta in *. lia. }
    apply NoDup_incl_length in Hin; [|assumption]. rewrite map_length, !seq_length in Hin. lia.
Qed.

(** Least period. *)
Lemma period i : i < n -> exists m, 1 <= m <= n /\ it m i = i /\ forall k, 0 < k < m -> it k i <> i.
Proof.
  intros Hi. destruct (returns i Hi) as (m & Hm & E).
  induction m as [m IH] using lt_wf_ind.
  destruct (Exists_dec (fun k => it k i = i) (seq 1 (m - 1))) as [H|H].
  - intros k. apply Nat.eq_dec.
  - apply Exists_exists in H. destruct H as (k & Hk & Ek). apply in_seq in Hk. apply (IH k); [lia|lia|assumption].
  - exists m. split; [assumption|]. split; [assumption|]. intros k Hk Ek. apply H, Exists_exists. exists k. split; [apply in_seq; lia|assumption].
Qed.

Lemma it_distinct i m a b : i < n -> it m i = i -> (forall k, 0 < k < m -> it k i <> i) -> a < m -> b < m -> it a i = it b i -> a = b.
Proof.
  intros Hi Hm Hk Ha Hb E. destruct (lt_eq_lt_dec a b) as [[H|H]|H]; [|assumption|]; exfalso.
  - apply (Hk (b - a)); [lia|]. apply (it_cancel a); [assumption|]. replace (a + (b - a)) with b by lia. now symmetry.
  - apply (Hk (a - b)); [lia|]. apply (it_cancel b); [assumption|]. replace (b + (a - b)) with a by lia. assumption.
Qed.

Lemma it_reduce i m k : it m i = i -> 0 < m -> it k i = it (k mod m) i.
Proof.
  intros Hm Hp. pose proof (Nat.div_mod k m ltac:(lia)) as E. replace (it k i) with (it (k mod m + m * (k / m)) i) by (f_equal; lia). rewrite iter_plus. clear E.
  f_equal. induction (k / m) as [|q IH]; [now rewrite Nat.mul_0_r|].
  rewrite Nat.mul_succ_r, iter_plus, Hm. assumption.
Qed.

Lemma leader_spec i m fuel a : i < n -> it m i = i -> (forall k, 0 < k < m -> it k i <> i) -> a < m -> m - a <= fuel ->
  exists b, is_leader sigma fuel i (it a i) = Some b /\
    (b = true -> forall k, a < k < m -> i < it k i) /\ (b = false -> exists k, it k i < i).
Proof.
  intros Hi Hm Hk. revert a. induction fuel as [|fuel IH]; intros a Ha Hf; [lia|]. cbn [is_leader]. rewrite <- iter_S.
  destruct (Nat.eqb_spec (it (S a) i) i) as [E|E].
  - exists true. split; [reflexivity|]. split; [|discriminate]. intros _ k Hka. exfalso.
    destruct (Nat.eq_dec (S a) m); [lia|]. apply (Hk (S a)); [lia|assumption].
  - assert (S a < m) by (destruct (Nat.eq_dec (S a) m) as [Eq|]; [exfalso; apply E; now rewrite Eq|lia]).
    destruct (Nat.ltb_spec (it (S a) i) i) as [L|L].
    + exists false. split; [reflexivity|]. split; [discriminate|]. intros _. eauto.
    + destruct (IH (S a)) as (b & Eb & H1 & H2); [assumption|lia|]. exists b. split; [assumption|]. split; [|assumption].
      intros -> k Hka. destruct (Nat.eq_dec k (S a)) as [->|]; [|apply H1; [reflexivity|lia]]. cbn beta in *. lia.
Qed.

Context {T : Type}.

Lemma rotate_spec i m fuel a (vi : T) l : i < n -> it m i = i -> (forall k, 0 < k < m -> it k i <> i) ->
  (forall k, 0 < k < m -> i < it k i) -> a < m -> m - a <= fuel -> length l = n ->
  exists l', rotate sigma fuel i (it a i) vi l = Some l' /\ length l' = n /\
    (forall k, a <= k -> S k < m -> nth_error l' (it k i) = nth_error l (it (S k) i)) /\
    nth_error l' (it (m - 1) i) = Some vi /\
    (forall p, (forall k, a <= k < m -> p <> it k i) -> nth_error l' p = nth_error l p).
Proof.
  intros Hi Hm Hk Hlead. revert a l. induction fuel as [|fuel IH]; intros a l Ha Hf Hl; [lia|].
  cbn [rotate]. rewrite <- iter_S.
  destruct (Nat.eqb_spec (it (S a) i) i) as [E|E].
  - assert (S a = m). { destruct (Nat.eq_dec (S a) m); [assumption|]. exfalso. apply (Hk (S a)); [lia|assumption]. }
    destruct (Nat.leb_spec (it (S a) i) i) as [_|L]; [|cbn beta in *; lia].
    exists (put l (it a i) vi). split; [reflexivity|]. split; [now rewrite put_length|].
    split; [intros; lia|]. split.
    + replace (m - 1) with a by lia. rewrite nth_put, Nat.eqb_refl, Hl. pose proof (it_range a i Hi). destruct (Nat.ltb_spec (it a i) n); [reflexivity|cbn beta in *; lia].
    + intros p Hp. rewrite nth_put. destruct (Nat.eqb_spec (it a i) p) as [E'|]; [|reflexivity]. exfalso. apply (Hp a); [lia|now symmetry].
  - assert (Sa : S a < m) by (destruct (Nat.eq_dec (S a) m) as [Eq|]; [exfalso; apply E; now rewrite Eq|lia]).
    destruct (nth_some l (it (S a) i)) as [v Ev]; [rewrite Hl; now apply it_range|]. rewrite Ev.
    destruct (Nat.leb_spec (it (S a) i) i) as [L|_]; [pose proof (Hlead (S a)); cbn beta in *; lia|].
    destruct (IH (S a) (put l (it a i) v)) as (l' & El & Hl' & H1 & H2 & H3); [assumption|lia|now rewrite put_length|].
    exists l'. split; [exact El|]. split; [assumption|].
    assert (Hd : forall k, k < m -> k <> a -> it a i <> it k i).
    { intros k Hkm Hne Eq. apply Hne. symmetry. eapply it_distinct; eauto. }
    split; [|split; [assumption|]].
    + intros k Hak Hkm. destruct (Nat.eq_dec k a) as [->|Hne].
      * rewrite H3. { rewrite nth_put, Nat.eqb_refl, Hl. pose proof (it_range a i Hi). destruct (Nat.ltb_spec (it a i) n); [now symmetry|cbn beta in *; lia]. }
        intros k Hk2. apply Hd; lia.
      * rewrite H1 by lia. rewrite nth_put. destruct (Nat.eqb_spec (it a i) (it (S k) i)) as [Eq|]; [|reflexivity].
        exfalso. apply (Hd (S k)); [lia|lia|assumption].
    + intros p Hp. rewrite H3 by (intros k Hk2; apply Hp; lia). rewrite nth_put.
      destruct (Nat.eqb_spec (it a i) p) as [Eq|]; [|reflexivity]. exfalso. apply (Hp a); [lia|now symmetry].
Qed.

Definition done (i p : nat) : Prop := exists k, it k p < i.

Lemma orbit_back i p k : p < n -> it k p = i -> exists k', it k' i = p.
Proof.
  intros Hp E. destruct (period p Hp) as (m & Hm & Em & _).
  exists (m - k mod m). rewrite <- E. rewrite (it_reduce p m k Em) by lia. rewrite <- iter_plus.
  pose proof (Nat.mod_upper_bound k m ltac:(lia)). replace (m - k mod m + k mod m) with m by lia. assumption.
Qed.

Lemma done_same i p q k : p < n -> it k p = q -> (done i p <-> done i q).
Proof.
  intros Hp E. split.
  - intros (a & Ha). destruct (orbit_back q p k Hp E) as (b & Hb). exists (a + b). now rewrite iter_plus, Hb.
  - intros (a & Ha). exists (a + k). now rewrite iter_plus, E.
Qed.

Lemma done_dec i p : p < n -> {done i p} + {~ done i p}.
Proof.
  intros Hp. destruct (Exists_dec (fun k => it k p < i) (seq 0 n)) as [H|H].
  - intros k. apply lt_dec.
  - left. apply Exists_exists in H. destruct H as (k & _ & H). now exists k.
  - right. intros (k & Hk). apply H, Exists_exists. destruct (period p Hp) as (m & Hm & Em & _).
    exists (k mod m). split; [apply in_seq; pose proof (Nat.mod_upper_bound k m); lia|]. now rewrite <- it_reduce by (assumption || lia).
Qed.

Lemma cycles_spec (old : list T) fuel : length old = n -> forall i l, i + fuel = n -> length l = n ->
  (forall p, p < n -> (done i p -> nth_error l p = nth_error old (sigma p)) /\ (~ done i p -> nth_error l p = nth_error old p)) ->
  exists l', cycles sigma n i fuel l = Some l' /\ length l' = n /\ forall p, p < n -> nth_error l' p = nth_error old (sigma p).
Proof.
  intros Hold. induction fuel as [|fuel IH]; intros i l Hif Hl Hinv; cbn [cycles].
  - exists l. split; [reflexivity|]. split; [assumption|]. intros p Hp. apply Hinv; [assumption|]. exists 0. cbn. lia.
  - assert (Hi : i < n) by lia. destruct (period i Hi) as (m & Hm & Em & Hmin).
    destruct (leader_spec i m (S n) 0 Hi Em Hmin) as (b & Eb & Htrue & Hfalse); [lia|lia|]. change (it 0 i) with i in Eb.
    rewrite Eb. destruct b.
    + specialize (Htrue eq_refl). destruct (nth_some l i) as [vi Evi]; [lia|]. rewrite Evi.
      destruct (rotate_spec i m (S n) 0 vi l Hi Em Hmin) as (l' & El & Hl' & H1 & H2 & H3); [intros; apply Htrue; lia|lia|lia|assumption|].
      change (it 0 i) with i in El. rewrite El. apply IH; [lia|assumption|].
      assert (Hnot : forall k, ~ done i (it k i)).
      { intros k (a & Ha). rewrite <- iter_plus in Ha. rewrite (it_reduce i m _ Em) in Ha by lia.
        pose proof (Nat.mod_upper_bound (a + k) m ltac:(lia)). destruct ((a + k) mod m) as [|q] eqn:Eq; [cbn in Ha; lia|].
        specialize (Htrue (S q)). cbn beta in *. lia. }
      assert (Hrot : forall k, k < m -> nth_error l' (it k i) = nth_error l (it (S k) i)).
      { intros k Hkm. destruct (Nat.eq_dec (S k) m) as [E|].
        - rewrite E, Em, Evi. rewrite <- H2. f_equal. f_equal. lia.
        - apply H1; lia. }
      intros p Hp. 
      destruct (Exists_dec (fun k => p = it k i) (seq 0 m)) as [Hx|Hx]; [intros k; apply Nat.eq_dec| |].
      * apply Exists_exists in Hx. destruct Hx as (k & Hk & ->). apply in_seq in Hk. split.
        -- intros _. rewrite Hrot by lia. cbn beta. rewrite <- iter_S. apply Hinv; [now apply it_range|apply Hnot].
        -- intros Hn. exfalso. apply Hn. destruct (orbit_back (it k i) i k Hi eq_refl) as (k' & E). exists k'. cbn beta in *. lia.
      * rewrite (H3 p). 2:{ intros k Hk E. apply Hx, Exists_exists. exists k. split; [apply in_seq; lia|assumption]. }
        assert (Hsame : done (S i) p <-> done i p).
        { split; intros (k & Hk).
          - destruct (Nat.eq_dec (it k p) i) as [E|]; [|exists k; cbn beta in *; lia].
            exfalso. destruct (orbit_back i p k Hp E) as (k' & E'). apply Hx, Exists_exists. exists (k' mod m).
            split; [apply in_seq; pose proof (Nat.mod_upper_bound k' m); lia|]. rewrite <- it_reduce by (assumption || lia). now symmetry.
          - exists k. cbn beta in *. lia. }
        rewrite Hsame. now apply Hinv.
    + apply IH; [lia|assumption|]. intros p Hp. destruct (Hfalse eq_refl) as (k0 & Hk0).
      assert (Hsame : done (S i) p <-> done i p).
      { split; intros (k & Hk).
        - destruct (Nat.eq_dec (it k p) i) as [E|]; [|exists k; cbn beta in *; lia].
          exists (k0 + k). rewrite iter_plus. cbn beta in *. now rewrite E.
        - exists k. cbn beta in *. lia. }
      rewrite Hsame. now apply Hinv.
Qed.

Lemma cycles_correct (old : list T) : sigma 0 = 0 -> length old = n -> 1 <= n ->
  exists l', cycles sigma n 1 (n - 1) old = Some l' /\ length l' = n /\ forall p, p < n -> nth_error l' p = nth_error old (sigma p).
Proof.
  intros H0 Hl Hn. apply (cycles_spec old (n - 1) Hl); [lia|assumption|]. intros p Hp.
  assert (Z : forall k, it k 0 = 0). { induction k as [|k IH]; [reflexivity|]. now rewrite iter_S, IH. }
  split.
  - intros (k & Hk). assert (E : it k p = 0) by (cbn beta in *; lia).
    destruct (orbit_back 0 p k Hp E) as (k' & E'). rewrite Z in E'. subst p. now rewrite H0.
  - reflexivity.
Qed.
End Perm.
