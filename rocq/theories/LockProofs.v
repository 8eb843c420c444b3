(** * Proofs about shared generators *)
From Coq Require Import List ZArith Reals Bool Arith Lia.
From Verif Require Import RandModel RandSpec RandFloatModel LockModel LockSpec.
Import ListNotations.
Open Scope Z_scope.

(** ** Programs over the words they draw *)
Definition frob {A} (p : prog A) : prog A := match p with Return v => Return v | Word k => Word k | Panic => Panic end.
Lemma frob_eq {A} (p : prog A) : p = frob p. Proof. now destruct p. Qed.

Inductive yields {A} : prog A -> list Z -> option A -> Prop :=
| y_return v : yields (Return v) [] (Some v)
| y_panic : yields Panic [] None
| y_word k w ws o : yields (k w) ws o -> yields (Word k) (w :: ws) o.

Lemma yields_word {A} (k : Z -> prog A) ws o : yields (Word k) ws o -> exists w ws', ws = w :: ws' /\ yields (k w) ws' o.
Proof. intros H. inversion H; subst. eauto. Qed.

Lemma then_eq {A B} (p : prog A) (f : A -> prog B) : then_ p f =
  match p with Return v => f v | Word k => Word (fun w => then_ (k w) f) | Panic => Panic end.
Proof. rewrite (frob_eq (then_ p f)). destruct p as [v|k|]; [|reflexivity|reflexivity]. transitivity (frob (f v)); [reflexivity|symmetry; apply frob_eq]. Qed.

Lemma yields_then {A B} (f : A -> prog B) ws : forall p o, yields (then_ p f) ws o ->
  (exists ws1 ws2 v, ws = ws1 ++ ws2 /\ yields p ws1 (Some v) /\ yields (f v) ws2 o) \/ (o = None /\ yields p ws None).
Proof.
  induction ws as [|w ws IH]; intros p o H; rewrite then_eq in H; destruct p as [v|k|].
  - left. exists [], [], v. repeat split; [constructor|assumption].
  - inversion H.
  - right. inversion H; subst. split; constructor.
  - left. exists [], (w :: ws), v. repeat split; [constructor|assumption].
  - inversion H as [| |? ? ? ? Hk]; subst. destruct (IH _ _ Hk) as [(w1 & w2 & v & -> & H1 & H2)|(-> & H1)].
    + left. exists (w :: w1), w2, v. repeat split; [now constructor|assumption].
    + right. split; [reflexivity|now constructor].
  - inversion H.
Qed.

(** [p] computes the function [f] of the list of words *)
Definition computes {A} (p : prog A) (f : list Z -> draw A) : Prop :=
  forall ws o, yields p ws o -> forall x, f (ws ++ x) = match o with Some v => Got v x | None => Panics end.

Lemma computes_then {A B} (p : prog A) f (q : A -> prog B) (g : A -> list Z -> draw B) h :
  computes p f -> (forall v, computes (q v) (g v)) ->
  (forall ws, h ws = match f ws with Got v ws => g v ws | Panics => Panics | Exhausted => Exhausted end) ->
  computes (then_ p q) h.
Proof.
  intros Hp Hq Hh ws o H x. rewrite Hh. destruct (yields_then _ _ _ _ H) as [(w1 & w2 & v & -> & H1 & H2)|(-> & H1)].
  - rewrite <- app_assoc, (Hp _ _ H1). apply (Hq v _ _ H2).
  - now rewrite (Hp _ _ H1).
Qed.

Lemma computes_map {A B} (p : prog A) f (g : A -> B) : computes p f -> computes (then_ p (fun v => Return (g v))) (fun ws => map_draw g (f ws)).
Proof.
  intros Hp. apply (computes_then p f _ (fun v ws => Got (g v) ws)); [exact Hp| |reflexivity].
  intros v ws o H x. inversion H; subst. reflexivity.
Qed.

Lemma p_reject_eq n ceiling v : p_reject n ceiling v = if v >=? ceiling then Word (fun w => p_reject n ceiling w) else Return (v mod n).
Proof. rewrite (frob_eq (p_reject n ceiling v)). unfold frob, p_reject. destruct (v >=? ceiling); reflexivity. Qed.

Lemma computes_reject n ceiling v : computes (p_reject n ceiling v) (reject n ceiling v).
Proof.
  intros ws. revert v. induction ws as [|w ws IH]; intros v o H x; rewrite p_reject_eq in H; cbn [app].
  - destruct (v >=? ceiling) eqn:E; inversion H; subst. destruct x; cbn [reject]; now rewrite E.
  - destruct (v >=? ceiling) eqn:E; inversion H as [| |? ? ? ? Hk]; subst. cbn [reject]. rewrite E. now apply IH.
Qed.

Lemma computes_uint64n n : computes (p_uint64n n) (uint64n n).
Proof.
  intros ws o H x. unfold p_uint64n in H. unfold uint64n.
  destruct (Z.land n (word (n - 1)) =? 0).
  - destruct (n =? 0); [now inversion H|]. inversion H as [| |? ? ? ? Hk]; subst. now inversion Hk.
  - apply yields_word in H. destruct H as (w & ws' & -> & Hk). cbn [app]. destruct (w >? max_uint64 - n).
    + now apply computes_reject.
    + now inversion Hk.
Qed.

Lemma computes_int63n n : computes (p_int63n n) (int63n n).
Proof.
  unfold p_int63n, int63n. destruct (n <=? 0).
  - intros ws o H x. now inversion H.
  - apply computes_map, computes_uint64n.
Qed.
Lemma computes_int31n n : computes (p_int31n n) (int31n n).
Proof.
  unfold p_int31n, int31n. destruct (n <=? 0).
  - intros ws o H x. now inversion H.
  - apply computes_map, computes_uint64n.
Qed.

Lemma p_float64_eq : p_float64 = Word (fun v => let f := float64_value (Z.land v (2 ^ 53 - 1)) in
                 if Req_EM_T f 1 then p_float64 else Return f).
Proof. rewrite (frob_eq p_float64) at 1. reflexivity. Qed.
Lemma p_float32_eq : p_float32 = Word (fun v => let x := float64_value (Z.land v (2 ^ 53 - 1)) in
                 if Req_EM_T x 1 then p_float32
                 else let f := round32 x in if Req_EM_T f 1 then p_float32 else Return f).
Proof. rewrite (frob_eq p_float32) at 1. reflexivity. Qed.

Lemma uint64n_53 w ws : uint64n (2 ^ 53) (w :: ws) = Got (Z.land w (2 ^ 53 - 1)) ws.
Proof. reflexivity. Qed.

Lemma float64_loop_yields ws : forall o, yields p_float64 ws o -> forall x fuel, (length ws <= fuel)%nat ->
  float64_loop fuel (ws ++ x) = match o with Some v => Got v x | None => Panics end.
Proof.
  induction ws as [|w ws IH]; intros o H x fuel L; rewrite p_float64_eq in H; apply yields_word in H; destruct H as (w' & ws' & E & Hk); [discriminate|injection E as <- <-].
  destruct fuel as [|fuel]; [cbn in L; lia|]. cbn [app float64_loop]. rewrite uint64n_53. cbv zeta in Hk |- *.
  destruct (Req_EM_T (float64_value (Z.land w (2 ^ 53 - 1))) 1).
  - apply IH; [assumption|cbn in L; lia].
  - now inversion Hk.
Qed.
Lemma computes_float64 : computes p_float64 float64.
Proof. intros ws o H x. apply float64_loop_yields; [assumption|rewrite app_length; lia]. Qed.

Lemma length_app_le {A} (a b : list A) : (length a <= length (a ++ b))%nat.
Proof. rewrite app_length. lia. Qed.

(** the words of one Float64 inside a Float32 *)
Lemma float32_split ws : forall o, yields p_float32 ws o -> exists w1 w2 y, ws = w1 ++ w2 /\ w1 <> [] /\ yields p_float64 w1 (Some y) /\
  ((round32 y = 1%R /\ yields p_float32 w2 o) \/ (round32 y <> 1%R /\ w2 = [] /\ o = Some (round32 y))).
Proof.
  induction ws as [|w ws IH]; intros o H; rewrite p_float32_eq in H; apply yields_word in H; destruct H as (w' & ws' & E & Hk); [discriminate|injection E as <- <-]. cbv zeta in Hk.
  destruct (Req_EM_T (float64_value (Z.land w (2 ^ 53 - 1))) 1) as [E|E].
  - destruct (IH _ Hk) as (w1 & w2 & y & -> & N & H1 & H2). exists (w :: w1), w2, y. repeat split; [discriminate| |assumption].
    rewrite p_float64_eq. constructor. cbv beta zeta. destruct (Req_EM_T _ 1); [assumption|congruence].
  - assert (Y : yields p_float64 [w] (Some (float64_value (Z.land w (2 ^ 53 - 1))))).
    { rewrite p_float64_eq. constructor. cbv beta zeta. destruct (Req_EM_T (float64_value (Z.land w (2 ^ 53 - 1))) 1) as [E1|E1]; [now elim E|constructor]. }
    exists [w], ws, (float64_value (Z.land w (2 ^ 53 - 1))). repeat split; [discriminate|exact Y|].
    destruct (Req_EM_T (round32 (float64_value (Z.land w (2 ^ 53 - 1)))) 1) as [E2|E2]; [now left|right].
    inversion Hk; subst. auto.
Qed.

Lemma float32_loop_yields n : forall ws o, (length ws <= n)%nat -> yields p_float32 ws o -> forall x fuel, (length ws <= fuel)%nat ->
  float32_loop fuel (ws ++ x) = match o with Some v => Got v x | None => Panics end.
Proof.
  induction n as [|n IH]; intros ws o L H x fuel F; destruct (float32_split ws o H) as (w1 & w2 & y & -> & N & H1 & H2);
    (destruct w1 as [|w w1]; [congruence|]); cbn [app length] in *; rewrite app_length in *; [lia|].
  destruct fuel as [|fuel]; [lia|]. cbn [float32_loop].
  assert (E : float64 (w :: (w1 ++ w2) ++ x) = Got y (w2 ++ x)).
  { rewrite <- app_assoc. exact (computes_float64 (w :: w1) (Some y) H1 (w2 ++ x)). }
  rewrite E. cbv zeta. destruct H2 as [(R & H2)|(R & -> & ->)].
  - destruct (Req_EM_T (round32 y) 1); [|congruence]. apply IH; [lia|assumption|lia].
  - destruct (Req_EM_T (round32 y) 1); [congruence|reflexivity].
Qed.
Lemma computes_float32 : computes p_float32 float32.
Proof. intros ws o H x. apply (float32_loop_yields (length ws)); [lia|assumption|apply length_app_le]. Qed.

Lemma computes_return {A} (v : A) : computes (Return v) (fun ws => Got v ws).
Proof. intros ws o H x. inversion H; subst. reflexivity. Qed.

Lemma computes_shuffle i : forall l, computes (p_shuffle i l) (shuffle_loop i l).
Proof.
  induction i as [|i IH]; intros l; [apply (computes_return l)|]. cbn [p_shuffle].
  apply (computes_then _ (fun ws => if Z.of_nat (S i) >? 2 ^ 31 - 1 - 1 then int63n (Z.of_nat (S i) + 1) ws else int31n (Z.of_nat (S i) + 1) ws)
           _ (fun j => shuffle_loop i (swap l (S i) (Z.to_nat j)))).
  - destruct (Z.of_nat (S i) >? 2 ^ 31 - 1 - 1); [apply computes_int63n|apply computes_int31n].
  - intros j. apply IH.
  - reflexivity.
Qed.
Lemma computes_perm n : forall i m, computes (p_perm n i m) (perm_loop n i m).
Proof.
  induction n as [|n IH]; intros i m; [apply (computes_return m)|]. cbn [p_perm].
  apply (computes_then _ (intn (Z.of_nat i + 1)) _ (fun j => perm_loop n (S i) (perm_step m i (Z.to_nat j)))).
  - apply computes_int63n.
  - intros j. apply IH.
  - reflexivity.
Qed.

Lemma wrap_reply {A} (p : prog A) f (wrap : A -> answer) ws o : computes p f -> yields (then_ p (fun v => Return (wrap v))) ws o ->
  reply (f ws) wrap (match o with Some a => a | None => Panicked end).
Proof.
  intros C H. pose proof (computes_map p f wrap C ws o H []) as E. rewrite app_nil_r in E.
  destruct (yields_then _ _ _ _ H) as [(w1 & w2 & v & -> & H1 & H2)|(-> & H1)].
  - left. exists v. inversion H2; subst. rewrite !app_nil_r in *. split; [|reflexivity]. pose proof (C _ _ H1 []) as E1. now rewrite app_nil_r in E1.
  - right. split; [|reflexivity]. pose proof (C _ _ H1 []) as E1. now rewrite app_nil_r in E1.
Qed.

Ltac inv_y H := inversion H as [| |? ? ? ? H']; subst; clear H.

Lemma p_call_on_words c ws o : word_call c -> yields (p_call c) ws o -> on_words c ws (match o with Some a => a | None => Panicked end).
Proof.
  intros Hc H. destruct c; try easy; cbn [p_call on_words] in *; unfold one in *.
  - inversion H as [| |? v ? ? H1]; subst. inversion H1 as [| |? w ? ? H2]; subst. inversion H2; subst. exists v, w. auto.
  - inversion H as [| |? v ? ? H1]; subst. inversion H1; subst. exists v. auto.
  - inversion H as [| |? v ? ? H1]; subst. inversion H1; subst. exists v. auto.
  - inversion H as [| |? v ? ? H1]; subst. inversion H1; subst. exists v. auto.
  - exact (wrap_reply _ _ int ws o (computes_uint64n n) H).
  - inversion H as [| |? v ? ? H1]; subst. inversion H1; subst. exists v. auto.
  - inversion H as [| |? v ? ? H1]; subst. inversion H1; subst. exists v. auto.
  - exact (wrap_reply _ _ int ws o (computes_int63n n) H).
  - exact (wrap_reply _ _ int ws o (computes_int31n n) H).
  - exact (wrap_reply _ _ int ws o (computes_int63n n) H).
  - exact (wrap_reply _ _ Real ws o computes_float32 H).
  - exact (wrap_reply _ _ Real ws o computes_float64 H).
  - destruct (n <? 0); [inversion H; subst; auto|].
    exact (wrap_reply _ _ (fun m => Ints (map Z.of_nat m)) ws o (computes_perm _ _ _) H).
  - destruct (n <? 0); [inversion H; subst; auto|].
    replace (shuffle (indexes (Z.to_nat n)) ws) with (shuffle_loop (pred (Z.to_nat n)) (indexes (Z.to_nat n)) ws).
    + exact (wrap_reply _ _ Ints ws o (computes_shuffle _ _) H).
    + unfold shuffle, indexes. now rewrite map_length, seq_length.
Qed.

(** ** The code inside the mutex *)
Inductive goes : nat -> code -> rand -> code -> rand -> Prop :=
| g_here c r : goes 0 c r c r
| g_get n f r c' r' : goes n (f r) r c' r' -> goes (S n) (Get f) r c' r'
| g_put n r1 c r c' r' : goes n c r1 c' r' -> goes (S n) (Put r1 c) r c' r'.

Lemma goes_get n c0 r0 f r : goes n c0 r0 (Get f) r -> goes (S n) c0 r0 (f r) r.
Proof. intros H. remember (Get f) as g. revert f Heqg. induction H; intros; subst; [constructor; constructor|constructor; auto|constructor; auto]. Qed.
Lemma goes_put n c0 r0 r1 c r : goes n c0 r0 (Put r1 c) r -> goes (S n) c0 r0 c r1.
Proof. intros H. remember (Put r1 c) as g. revert r1 c Heqg. induction H; intros; subst; [constructor; constructor|constructor; auto|constructor; auto]. Qed.

(** the end of a call *)
Definition ended (c : code) (a : answer) : Prop := (c = Answer a) \/ (c = Fail /\ a = Panicked).

Lemma ended_get n f r c a r' : goes n (Get f) r c r' -> ended c a -> exists m, n = S m /\ goes m (f r) r c r'.
Proof. intros H E. inversion H; subst; [now destruct E as [E|(E & _)]|]. eauto. Qed.
Lemma ended_put n r1 q r c a r' : goes n (Put r1 q) r c r' -> ended c a -> exists m, n = S m /\ goes m q r1 c r'.
Proof. intros H E. inversion H; subst; [now destruct E as [E|(E & _)]|]. eauto. Qed.

Definition frobc (c : code) : code := match c with Answer a => Answer a | Get k => Get k | Put r c => Put r c | Fail => Fail end.
Lemma frobc_eq c : c = frobc c. Proof. now destruct c. Qed.
Lemma inside_eq p : inside p = match p with
  | Return a => Answer a
  | Word k => Get (fun r => let '(v, r') := rand_uint64 r in Put r' (inside (k v)))
  | Panic => Fail end.
Proof. rewrite (frobc_eq (inside p)). destruct p; reflexivity. Qed.

Lemma draws_S k s : draws (S k) s = draws k (next s).
Proof. unfold draws. induction k as [|k IH]; [reflexivity|]. change (next (Nat.iter (S k) next s) = next (Nat.iter k next (next s))). now f_equal. Qed.

Lemma rand_uint64_eq r : rand_uint64 r = (output (next (src r)), advance 1 r).
Proof. reflexivity. Qed.
Lemma advance_S k r : advance (S k) r = advance k (advance 1 r).
Proof. unfold advance at 1 2. cbn [src read_val read_pos]. rewrite draws_S. reflexivity. Qed.
Lemma words_S k s : words (S k) s = output (next s) :: words k (next s).
Proof. reflexivity. Qed.
Lemma src_advance k r : src (advance k r) = draws k (src r). Proof. reflexivity. Qed.

Lemma inside_ends n : forall p r c a r', goes n (inside p) r c r' -> ended c a -> exists k o,
  yields p (words k (src r)) o /\ r' = advance k r /\ a = match o with Some a => a | None => Panicked end.
Proof.
  induction n as [n IH] using lt_wf_ind. intros p r c a r' H E. rewrite inside_eq in H. destruct p as [v|k|].
  - inversion H; subst. destruct E as [E|(E & _)]; [|discriminate]. injection E as <-. exists 0%nat, (Some v). repeat split; [constructor|now destruct r'].
  - destruct (ended_get _ _ _ _ _ _ H E) as (n1 & -> & H1). rewrite rand_uint64_eq in H1.
    destruct (ended_put _ _ _ _ _ _ _ H1 E) as (n2 & -> & H2).
    destruct (IH n2 ltac:(lia) _ _ _ _ _ H2 E) as (m & o & Y & -> & ->). exists (S m), o. split; [rewrite words_S; now constructor|].
    split; [symmetry; apply advance_S|reflexivity].
  - inversion H; subst. destruct E as [E|(_ & ->)]; [discriminate|]. exists 0%nat, None. repeat split; [constructor|now destruct r'].
Qed.

Lemma read_loop_ends m : forall val pos out n r c a r', goes n (read_loop m val pos out) r c r' -> ended c a ->
  let '(bs, r1) := rand_read m (mkRand (src r) val pos) in a = Ints (rev out ++ bs) /\ r' = r1.
Proof.
  induction m as [|m IH]; intros val pos out n r c a r' H E; cbn [read_loop] in H.
  - destruct (ended_get _ _ _ _ _ _ H E) as (n1 & -> & H1). destruct (ended_put _ _ _ _ _ _ _ H1 E) as (n2 & -> & H2).
    inversion H2; subst. destruct E as [E|(E & _)]; [|discriminate]. injection E as <-. cbn [rand_read]. rewrite app_nil_r. auto.
  - cbn [rand_read read_pos]. destruct (pos =? 0).
    + unfold draw_word in H. destruct (ended_get _ _ _ _ _ _ H E) as (n1 & -> & H1). rewrite rand_uint64_eq in H1.
      destruct (ended_put _ _ _ _ _ _ _ H1 E) as (n2 & -> & H2).
      specialize (IH _ _ _ _ _ _ _ _ H2 E). cbn [src advance] in IH. cbn [src read_val read_pos]. unfold pcg_uint64. cbn [src read_val read_pos].
      change (8 - 1) with 7. change (draws 1 (src r)) with (next (src r)) in IH.
      destruct (rand_read m _) as (bs & r1). destruct IH as (-> & ->). cbn [rev]. rewrite <- app_assoc. auto.
    + specialize (IH _ _ _ _ _ _ _ _ H E). cbn [src read_val read_pos].
      destruct (rand_read m _) as (bs & r1). destruct IH as (-> & ->). cbn [rev]. rewrite <- app_assoc. auto.
Qed.

Lemma inside_alone c n r q a r' : word_call c -> goes n (inside (p_call c)) r q r' -> ended q a ->
  exists k, on_words c (words k (src r)) a /\ r' = advance k r.
Proof.
  intros W H E. destruct (inside_ends _ _ _ _ _ _ H E) as (k & o & Y & -> & ->). exists k. split; [|reflexivity]. exact (p_call_on_words _ _ _ W Y).
Qed.

Lemma body_alone c n r q a r' : goes n (body c) r q r' -> ended q a -> alone c r a r'.
Proof.
  intros H E. destruct c; cbn [body] in H; try (refine (inside_alone _ n r q a r' _ H E); exact I).
  - destruct (ended_get _ _ _ _ _ _ H E) as (n1 & -> & H1). destruct (ended_put _ _ _ _ _ _ _ H1 E) as (n2 & -> & H2).
    inversion H2; subst. destruct E as [E|(E & _)]; [|discriminate]. injection E as <-. split; reflexivity.
  - destruct (ended_get _ _ _ _ _ _ H E) as (n1 & -> & H1).
    pose proof (read_loop_ends _ _ _ _ _ _ _ _ _ H1 E) as R. replace (mkRand (src r) (read_val r) (read_pos r)) with r in R by now destruct r.
    cbn [alone]. destruct (rand_read n0 r) as (bs & r1). exact R.
Qed.

(** ** Executions *)
Lemma nth_put_same {A} (l : list A) i v : (i < length l)%nat -> nth_error (put l i v) i = Some v.
Proof. revert i. induction l; intros [|i] H; cbn in *; try lia; [reflexivity|apply IHl; lia]. Qed.
Lemma nth_put_other {A} (l : list A) i j v : i <> j -> nth_error (put l i v) j = nth_error l j.
Proof. revert i j. induction l; intros [|i] [|j] H; cbn; try reflexivity; try congruence. apply IHl. lia. Qed.
Lemma put_length {A} (l : list A) i v : length (put l i v) = length l.
Proof. revert i. induction l; intros [|i]; cbn; auto. Qed.

Lemma obo_snoc r tr r1 e r2 : one_by_one r tr r1 -> alone (what e) r1 (got e) r2 -> one_by_one r (tr ++ [e]) r2.
Proof. induction 1; intros A; cbn [app]; [repeat (econstructor; eauto)|econstructor; eauto]. Qed.
Lemma follows_snoc g es c k e : follows g es (Call c k) -> what e = c -> follows g (es ++ [e]) (k (got e)).
Proof. intros H. remember (Call c k) as h. revert c k Heqh. induction H; intros; subst; cbn [app]; repeat (econstructor; eauto). Qed.
Lemma mine_snoc_same t tr e : who e = t -> mine t (tr ++ [e]) = mine t tr ++ [e].
Proof. intros <-. unfold mine. rewrite filter_app. cbn [filter]. now rewrite Nat.eqb_refl. Qed.
Lemma mine_snoc_other t tr e : who e <> t -> mine t (tr ++ [e]) = mine t tr.
Proof. intros H. unfold mine. rewrite filter_app. cbn [filter]. apply Nat.eqb_neq in H. rewrite H. apply app_nil_r. Qed.

Definition all_outside (ts : list goroutine) : Prop := forall t c q k, nth_error ts t <> Some (Inside c q k).

Definition shared_inv (r0 : rand) (tr : list event) (s : system) : Prop :=
  (lock s = false /\ all_outside (threads s) /\ one_by_one r0 tr (gen s) /\ ~ Exists panicked tr) \/
  (lock s = true /\ ~ Exists panicked tr /\ exists t c q k r1 n, nth_error (threads s) t = Some (Inside c q k) /\
     (forall t', t' <> t -> forall c q k, nth_error (threads s) t' <> Some (Inside c q k)) /\
     one_by_one r0 tr r1 /\ goes n (body c) r1 q (gen s)) \/
  (lock s = true /\ all_outside (threads s) /\ one_by_one r0 tr (gen s) /\ exists tr1 e, tr = tr1 ++ [e] /\ panicked e /\ ~ Exists panicked tr1).

Definition local_inv (gs : list client) (tr : list event) (s : system) : Prop :=
  length (threads s) = length gs /\
  forall t g, nth_error gs t = Some g -> exists h, nth_error (threads s) t = Some h /\ follows g (mine t tr) (remaining h).

Lemma nth_some_lt {A} (l : list A) i v : nth_error l i = Some v -> (i < length l)%nat.
Proof. intros H. apply nth_error_Some. congruence. Qed.

Lemma put_outside ts t g : all_outside ts \/ (forall t', t' <> t -> forall c q k, nth_error ts t' <> Some (Inside c q k)) ->
  (t < length ts)%nat -> all_outside (put ts t (Outside g)).
Proof.
  intros H L t' c q k. destruct (Nat.eq_dec t t') as [<-|N]; [now rewrite nth_put_same|]. rewrite nth_put_other by assumption.
  destruct H as [H|H]; [apply H|apply H; congruence].
Qed.

Lemma local_keep gs tr s t h1 h2 r b : local_inv gs tr s -> nth_error (threads s) t = Some h1 -> remaining h2 = remaining h1 ->
  local_inv gs tr (mkSystem r b (put (threads s) t h2)).
Proof.
  intros (L & F) N E. split; [cbn; now rewrite put_length|]. intros t' g Hg. destruct (F _ _ Hg) as (h & Hh & Hf). cbn [threads].
  destruct (Nat.eq_dec t t') as [<-|D].
  - exists h2. rewrite nth_put_same by now apply nth_some_lt in N. rewrite N in Hh. injection Hh as <-. now rewrite E.
  - exists h. now rewrite nth_put_other.
Qed.
Lemma local_event gs tr s t c q k a r b : local_inv gs tr s -> nth_error (threads s) t = Some (Inside c q k) ->
  local_inv gs (tr ++ [mkEvent t c a]) (mkSystem r b (put (threads s) t (Outside (k a)))).
Proof.
  intros (L & F) N. split; [cbn; now rewrite put_length|]. intros t' g Hg. destruct (F _ _ Hg) as (h & Hh & Hf). cbn [threads].
  destruct (Nat.eq_dec t t') as [<-|D].
  - exists (Outside (k a)). rewrite nth_put_same by now apply nth_some_lt in N. split; [reflexivity|]. rewrite mine_snoc_same by reflexivity.
    rewrite N in Hh. injection Hh as <-. cbn [remaining] in *. now apply (follows_snoc _ _ c k (mkEvent t c a)).
  - exists h. rewrite nth_put_other by assumption. split; [assumption|]. now rewrite mine_snoc_other.
Qed.

Lemma not_panicked_ended r1 c q a : ended q a -> forall n r, goes n (body c) r1 q r -> alone c r1 a r.
Proof. intros E n r H. now apply (body_alone c n r1 q a r). Qed.

(** an answer that is returned is not a panic *)
Definition good (p : prog answer) : Prop := forall ws a, yields p ws (Some a) -> a <> Panicked.
Lemma good_then {A} (p : prog A) (wrap : A -> answer) : (forall v, wrap v <> Panicked) -> good (then_ p (fun v => Return (wrap v))).
Proof.
  intros W ws a H. destruct (yields_then _ _ _ _ H) as [(w1 & w2 & v & -> & H1 & H2)|(E & _)]; [|discriminate]. inversion H2; subst. apply W.
Qed.
Lemma good_call c : good (p_call c).
Proof.
  destruct c; cbn [p_call]; unfold one; try (apply good_then; discriminate);
    try (intros ws a H; inversion H as [| |? ? ? ? H1]; subst; (discriminate || (inversion H1 as [| |? ? ? ? H2]; subst; (discriminate || (inversion H2; subst; discriminate))))).
  - destruct (n <? 0); [intros ws a H; inversion H|apply good_then; discriminate].
  - destruct (n <? 0); [intros ws a H; inversion H|apply good_then; discriminate].
Qed.
Lemma inside_good n : forall p r a r', good p -> goes n (inside p) r (Answer a) r' -> a <> Panicked.
Proof.
  induction n as [n IH] using lt_wf_ind. intros p r a r' G H. rewrite inside_eq in H. destruct p as [v|k|].
  - inversion H; subst. apply (G [] a). constructor.
  - destruct (ended_get _ _ _ _ a _ H (or_introl eq_refl)) as (n1 & -> & H1). rewrite rand_uint64_eq in H1. destruct (ended_put _ _ _ _ _ a _ H1 (or_introl eq_refl)) as (n2 & -> & H2).
    apply (IH n2 ltac:(lia) _ _ _ _ (fun ws a Y => G _ a (y_word k _ ws (Some a) Y)) H2).
  - inversion H.
Qed.
Lemma body_good c n r a r' : goes n (body c) r (Answer a) r' -> a <> Panicked.
Proof.
  intros H. destruct c; cbn [body] in H; try exact (inside_good _ _ _ _ _ (good_call _) H).
  - pose proof (body_alone (CSeed seed) n r _ a r' H (or_introl eq_refl)) as (-> & _). discriminate.
  - pose proof (body_alone (CRead n0) n r _ a r' H (or_introl eq_refl)) as (-> & _). discriminate.
Qed.

Lemma exists_snoc {A} (P : A -> Prop) l x : Exists P (l ++ [x]) <-> Exists P l \/ P x.
Proof. rewrite Exists_app. split; intros [H|H]; auto. inversion H as [|? ? H']; subst; [now right|inversion H']. Qed.

Lemma inv_step r0 gs tr s l s' : shared_inv r0 tr s -> local_inv gs tr s -> step s l s' ->
  let tr' := match l with Some e => tr ++ [e] | None => tr end in shared_inv r0 tr' s' /\ local_inv gs tr' s'.
Proof.
  intros S L H. destruct H as [t c k r ts Ht|t c f k r b ts Ht|t c r' q k r b ts Ht|t c a k r b ts Ht|t c k r b ts Ht]; cbv zeta.
  - split; [|apply (local_keep gs tr (mkSystem r false ts) t (Outside (Call c k))); auto].
    destruct S as [(_ & O & B & P)|[(E & _)|(E & _)]]; try discriminate. cbn [gen threads lock] in *. right. left. split; [reflexivity|]. split; [assumption|].
    exists t, c, (body c), k, r, 0%nat. pose proof (nth_some_lt _ _ _ Ht). cbn [gen threads]. rewrite nth_put_same by assumption. repeat split; [|assumption|constructor].
    intros t' N c' q' k'. rewrite nth_put_other by congruence. apply O.
  - split; [|apply (local_keep gs tr (mkSystem r b ts) t (Inside c (Get f) k)); auto].
    destruct S as [(_ & O & _)|[(E & P & t1 & c1 & q1 & k1 & r1 & n & N & O & B & G)|(_ & O & _)]]; try (exfalso; eapply O; eauto; fail). cbn [gen threads lock] in *.
    destruct (Nat.eq_dec t t1) as [<-|D]; [|exfalso; eapply O; eauto]. rewrite Ht in N. injection N as <- <- <-.
    right. left. split; [assumption|]. split; [assumption|]. exists t, c, (f r), k, r1, (Datatypes.S n). cbn [gen threads].
    rewrite nth_put_same by now apply nth_some_lt in Ht. repeat split; [|assumption|now apply goes_get].
    intros t' D c' q' k'. rewrite nth_put_other by congruence. now apply O.
  - split; [|apply (local_keep gs tr (mkSystem r b ts) t (Inside c (Put r' q) k)); auto].
    destruct S as [(_ & O & _)|[(E & P & t1 & c1 & q1 & k1 & r1 & n & N & O & B & G)|(_ & O & _)]]; try (exfalso; eapply O; eauto; fail). cbn [gen threads lock] in *.
    destruct (Nat.eq_dec t t1) as [<-|D]; [|exfalso; eapply O; eauto]. rewrite Ht in N. injection N as <- <- <-.
    right. left. split; [assumption|]. split; [assumption|]. exists t, c, q, k, r1, (Datatypes.S n). cbn [gen threads].
    rewrite nth_put_same by now apply nth_some_lt in Ht. repeat split; [|assumption|now apply goes_put in G].
    intros t' D c' q' k'. rewrite nth_put_other by congruence. now apply O.
  - split; [|apply (local_event gs tr (mkSystem r b ts) t c (Answer a) k a r false); auto].
    destruct S as [(_ & O & _)|[(E & P & t1 & c1 & q1 & k1 & r1 & n & N & O & B & G)|(_ & O & _)]]; try (exfalso; eapply O; eauto; fail). cbn [gen threads lock] in *.
    destruct (Nat.eq_dec t t1) as [<-|D]; [|exfalso; eapply O; eauto]. rewrite Ht in N. injection N as <- <- <-.
    left. cbn [gen threads lock]. split; [reflexivity|]. split; [apply put_outside; [now right|now apply nth_some_lt in Ht]|]. split.
    + apply (obo_snoc _ _ _ _ _ B). cbn [what got]. apply (body_alone _ _ _ _ _ _ G). now left.
    + rewrite exists_snoc. intros [X|X]; [now apply P|]. apply (body_good _ _ _ _ _ G). exact X.
  - split; [|apply (local_event gs tr (mkSystem r b ts) t c Fail k Panicked r b); auto].
    destruct S as [(_ & O & _)|[(E & P & t1 & c1 & q1 & k1 & r1 & n & N & O & B & G)|(_ & O & _)]]; try (exfalso; eapply O; eauto; fail). cbn [gen threads lock] in *.
    destruct (Nat.eq_dec t t1) as [<-|D]; [|exfalso; eapply O; eauto]. rewrite Ht in N. injection N as <- <- <-.
    right. right. cbn [gen threads lock]. split; [assumption|]. split; [apply put_outside; [now right|now apply nth_some_lt in Ht]|]. split.
    + apply (obo_snoc _ _ _ _ _ B). cbn [what got]. apply (body_alone _ _ _ _ _ _ G). now right.
    + exists tr, (mkEvent t c Panicked). repeat split. exact P.
Qed.

Lemma exec_inv r0 gs tr s : exec (start r0 gs) tr s -> shared_inv r0 tr s /\ local_inv gs tr s.
Proof.
  intros H. induction H.
  - split.
    + left. cbn. repeat split; [|constructor|intros E; inversion E]. intros t c q k E. apply nth_error_In in E. apply in_map_iff in E. destruct E as (g & E & _). discriminate.
    + split; [cbn; apply map_length|]. intros t g Hg. exists (Outside g). cbn. split; [now apply map_nth_error|constructor].
  - destruct IHexec as (S & L). exact (inv_step _ _ _ _ _ _ S L H0).
  - destruct IHexec as (S & L). exact (inv_step _ _ _ _ _ _ S L H0).
Qed.

Lemma linear r0 gs tr s : exec (start r0 gs) tr s ->
  (exists r, one_by_one r0 tr r) /\
  (forall t g, nth_error gs t = Some g -> exists h, nth_error (threads s) t = Some h /\ follows g (mine t tr) (remaining h)).
Proof.
  intros H. destruct (exec_inv _ _ _ _ H) as (S & L). split; [|apply L].
  destruct S as [(_ & _ & B & _)|[(_ & _ & t & c & q & k & r1 & n & _ & _ & B & _)|(_ & _ & B & _)]]; eauto.
Qed.

Lemma progress r0 gs tr s : exec (start r0 gs) tr s -> ~ Exists panicked tr ->
  (forall t h, nth_error (threads s) t = Some h -> is_finished h) \/ exists l s', step s l s'.
Proof.
  intros H P. destruct (exec_inv _ _ _ _ H) as (S & L).
  destruct S as [(E & O & _)|[(E & _ & t & c & q & k & r1 & n & N & _)|(_ & _ & _ & tr1 & e & -> & X & _)]].
  - destruct s as [r b ts]. cbn [lock threads] in *. subst b.
    assert (D : (exists t c k, nth_error ts t = Some (Outside (Call c k))) \/ forall t h, nth_error ts t = Some h -> is_finished h).
    { clear H L. revert O. induction ts as [|h ts IH]; intros O; [right; intros [|t] h E; discriminate|].
      assert (O' : all_outside ts) by (intros t; exact (O (Datatypes.S t))).
      destruct (IH O') as [(t & c & k & E)|A]; [left; exists (Datatypes.S t), c, k; exact E|].
      destruct h as [[a|c k]|c q k].
      - right. intros [|t] h E; [injection E as <-; now exists a|now apply (A t)].
      - left. exists 0%nat, c, k. reflexivity.
      - exfalso. now apply (O 0%nat c q k). }
    destruct D as [(t & c & k & E)|A]; [right|now left]. eexists _, _. eapply s_lock. exact E.
  - right. destruct s as [r b ts]. cbn [lock threads] in *. destruct q as [a|f|r' q|]; eexists _, _; [eapply s_unlock|eapply s_get|eapply s_put|eapply s_panic]; exact N.
  - exfalso. apply P. apply exists_snoc. now right.
Qed.

(** after a panic *)
Lemma stuck_after_panic r0 gs tr s : exec (start r0 gs) tr s -> Exists panicked tr ->
  (forall l s', ~ step s l s').
Proof.
  intros H P l s' St. destruct (exec_inv _ _ _ _ H) as (S & L).
  destruct S as [(_ & _ & _ & N)|[(_ & N & _)|(E & O & _)]]; [now apply N|now apply N|].
  destruct St; cbn [lock threads] in *; try discriminate; eapply O; eauto.
Qed.

(** ** Word sequences *)
Lemma obo_words tr : forall r r', Forall (fun e => what e = CUint64) tr -> one_by_one r tr r' ->
  map got tr = map int (words (length tr) (src r)) /\ src r' = draws (length tr) (src r).
Proof.
  induction tr as [|e tr IH]; intros r r' F H; inversion H as [|? ? r1 ? ? A B]; subst; [split; reflexivity|].
  inversion F as [|? ? Fe Ft]; subst. rewrite Fe in A. destruct A as (k & (w & E & G) & ->).
  destruct k as [|[|k]]; [discriminate| |rewrite !words_S in E; discriminate].
  rewrite words_S in E. injection E as E. destruct (IH _ _ Ft B) as (IH1 & IH2). cbn [length map]. rewrite words_S. cbn [map]. split.
  - rewrite G, <- E, IH1. reflexivity.
  - rewrite IH2, src_advance. symmetry. apply (draws_S (length tr) (src r)).
Qed.

(** ** The top-level functions *)
Definition frobg (g : client) : client := match g with Finished a => Finished a | Call c k => Call c k end.
Lemma frobg_eq g : g = frobg g. Proof. now destruct g. Qed.
Lemma outside_eq p : outside p = match p with
  | Return a => Finished a
  | Word k => Call CUint64 (fun a => match a with Ints [v] => outside (k v) | _ => Finished Panicked end)
  | Panic => Finished Panicked end.
Proof. rewrite (frobg_eq (outside p)). destruct p; reflexivity. Qed.

Lemma outside_calls es : forall p g, follows (outside p) es g -> Forall (fun e => what e = CUint64) es /\
  (forall c k, g = Call c k -> c = CUint64).
Proof.
  induction es as [|e es IH]; intros p g H.
  - inversion H; subst. split; [constructor|]. intros c k E. rewrite outside_eq in E. destruct p; try discriminate. now injection E as <- _.
  - rewrite outside_eq in H. destruct p as [v|q|]; try (inversion H; fail). inversion H as [|? ? ? ? ? Hw Hf]; subst.
    destruct (got e) as [[|v [|]]| |]; try (inversion Hf; subst; split; [repeat constructor; assumption|discriminate]).
    destruct (IH _ _ Hf) as (I1 & I2). split; [now constructor|]. exact I2.
Qed.

Lemma outside_result es : forall p a, Forall (fun e => exists w, got e = int w) es -> follows (outside p) es (Finished a) ->
  exists o, yields p (flat_map (fun e => ints (got e)) es) o /\ a = match o with Some a => a | None => Panicked end.
Proof.
  induction es as [|e es IH]; intros p a F H; rewrite outside_eq in H.
  - destruct p as [v|q|]; inversion H; subst; [exists (Some a)|exists None]; split; constructor.
  - destruct p as [v|q|]; try (inversion H; fail). inversion H as [|? ? ? ? ? Hw Hf]; subst.
    inversion F as [|? ? (w & Ew) Ft]; subst. rewrite Ew in Hf. destruct (IH _ _ Ft Hf) as (o & Y & ->). exists o. split; [|reflexivity].
    cbn [flat_map]. rewrite Ew. cbn [ints int app]. now constructor.
Qed.

Lemma event_mine tr e : In e tr -> In e (mine (who e) tr).
Proof. intros H. apply filter_In. split; [assumption|apply Nat.eqb_refl]. Qed.

Lemma exec_who r0 gs tr s : exec (start r0 gs) tr s -> Forall (fun e => (who e < length gs)%nat) tr.
Proof.
  intros H. assert (G : length (threads s) = length gs /\ Forall (fun e => (who e < length gs)%nat) tr); [|apply G].
  induction H.
  - split; [apply map_length|constructor].
  - destruct IHexec as (L & F). split; [|assumption]. inversion H0; subst; cbn [threads] in *; now rewrite put_length.
  - destruct IHexec as (L & F). split; [inversion H0; subst; cbn [threads] in *; now rewrite put_length|].
    apply Forall_app. split; [assumption|]. constructor; [|constructor]. rewrite <- L. inversion H0; subst; cbn [who threads] in *; 
    match goal with E : nth_error _ _ = Some _ |- _ => now apply nth_some_lt in E end.
Qed.

Lemma global_word c : word_call c -> global c = outside (p_call c).
Proof. now destruct c. Qed.

Lemma global_events r0 cs tr s : Forall word_call cs -> exec (start r0 (map global cs)) tr s -> Forall (fun e => what e = CUint64) tr.
Proof.
  intros Hc H. pose proof (exec_who _ _ _ _ H) as W. destruct (linear _ _ _ _ H) as (_ & F).
  apply Forall_forall. intros e He. rewrite Forall_forall in W. specialize (W e He). rewrite map_length in W.
  destruct (nth_error cs (who e)) as [c|] eqn:E; [|apply nth_error_None in E; lia].
  destruct (F (who e) (global c) (map_nth_error _ _ _ E)) as (h & _ & Hf).
  rewrite (global_word c) in Hf by (rewrite Forall_forall in Hc; apply Hc; now apply nth_error_In in E).
  destruct (outside_calls _ _ _ Hf) as (A & _). rewrite Forall_forall in A. apply A. now apply event_mine.
Qed.
