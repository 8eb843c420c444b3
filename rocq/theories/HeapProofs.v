(** * Proofs about shared slices *)
From Coq Require Import List Arith Bool Lia Relations.
From Verif Require Import DenseModel DenseLemmas GradModel HeapModel HeapSpec.
Import ListNotations.
Open Scope nat_scope.

Section Heap.
Context {T A : Type}.
Variable fv : fresh_method -> A -> dense T -> list (dense T) -> option (dense T).
Variable sv : same_method -> A -> dense T -> list (dense T) -> option (list T).
Variable wv : write_method -> A -> dense T -> list (dense T) -> option (list T).
Variable sm : dense T -> list T.
Notation step := (step fv sv wv sm).
Notation run := (run fv sv wv sm).

(** what a step can do to the memory *)
Definition ok (h : heap T) : Prop := forall o b, nth_error (objs h) o = Some b -> sh b < length (shapes h) /\ ar b < length (arrays h).
Definition apart (h : heap T) : Prop := forall o o' b b', nth_error (objs h) o = Some b -> nth_error (objs h) o' = Some b' -> ar b = ar b' -> o = o'.

Lemma bind_some {X Y} (m : option X) (f : X -> option Y) y : (do x <- m; f x) = Some y -> exists x, m = Some x /\ f x = Some y.
Proof. destruct m; [eauto|discriminate]. Qed.
Lemma put_len {X} (l : list X) i v : length (put l i v) = length l.
Proof. revert i. induction l; intros [|i]; cbn; auto. Qed.
Lemma nth_put_eq {X} (l : list X) i v : i < length l -> nth_error (put l i v) i = Some v.
Proof. revert i. induction l; intros [|i] H; cbn in *; try lia; [reflexivity|]. apply IHl. lia. Qed.
Lemma nth_put_ne {X} (l : list X) i j v : i <> j -> nth_error (put l i v) j = nth_error l j.
Proof. revert i j. induction l; intros [|i] [|j] H; cbn; auto; try lia. Qed.

(** Every step is one of these. *)
Inductive moved (h : heap T) (c : call T A) : heap T -> Prop :=
| m_both d : made_from h c = None -> (forall o, ~ writes c o) -> (forall o, ~ reshapes c o) -> moved h c (new_both h d)
| m_data o b l : made_from h c = Some o -> (forall o, ~ writes c o) -> (forall o, ~ reshapes c o) -> nth_error (objs h) o = Some b -> moved h c (new_data h (sh b) l)
| m_soft o b v l : c = Softmax o -> nth_error (objs h) o = Some b -> value h o = Some v -> cols v <> 1 -> is_vector v = true -> length (data v) <> 0 -> length l = length (data v) ->
    moved h c (write_shape (new_data h (sh b) l) (sh b) (cols v, rows v))
| m_alias s o b : (exists r k, c = NewBacking r k o) -> nth_error (objs h) o = Some b -> moved h c (new_shape h s (ar b))
| m_write o b l : writes c o -> (forall o, ~ reshapes c o) -> nth_error (objs h) o = Some b -> moved h c (write_data h (ar b) l)
| m_shape o b s : reshapes c o -> (forall o, ~ writes c o) -> nth_error (objs h) o = Some b -> moved h c (write_shape h (sh b) s)
| m_trans o b s l : c = TransposeInPlace o -> nth_error (objs h) o = Some b -> moved h c (write_data (write_shape h (sh b) s) (ar b) l).

Lemma put_same {X} (l : list X) i v : nth_error l i = Some v -> put l i v = l.
Proof. revert i. induction l; intros [|i] H; cbn in *; try discriminate; [now injection H as ->|]. now rewrite IHl. Qed.
Lemma put_last {X} (l : list X) v w : put (l ++ [v]) (length l) w = l ++ [w].
Proof. induction l; cbn; [reflexivity|now rewrite IHl]. Qed.
Lemma value_some h o v : @value T h o = Some v -> exists b s l, nth_error (objs h) o = Some b /\ nth_error (shapes h) (sh b) = Some s /\ nth_error (arrays h) (ar b) = Some l /\ v = mkDense (fst s) (snd s) l.
Proof. unfold value. intros H. apply bind_some in H as (b & B & H). apply bind_some in H as (s & S1 & H). apply bind_some in H as (l & L & H). injection H as <-. eauto 8. Qed.
Lemma step_moved h c h' : step h c = Some h' -> moved h c h'.
Proof.
  destruct c as [r k l|r k o|m a o os|m a o os|m a o os|o|o r k|o|o]; cbn [HeapModel.step]; intros H.
  - destruct (_ =? _); [|discriminate]. injection H as <-. apply m_both; cbn; auto.
  - apply bind_some in H as (b & B & H). apply bind_some in H as (l & L & H). destruct (_ =? _); [|discriminate]. injection H as <-. eapply m_alias; eauto.
  - apply bind_some in H as (v & V & H). apply bind_some in H as (vs & VS & H). apply bind_some in H as (d & D & H). injection H as <-. apply m_both; cbn; auto.
  - apply bind_some in H as (b & B & H). apply bind_some in H as (v & V & H). apply bind_some in H as (vs & VS & H). apply bind_some in H as (l & L & H). destruct (_ =? _); [|discriminate]. injection H as <-. apply (m_data _ _ o); cbn; auto.
  - apply bind_some in H as (b & B & H). apply bind_some in H as (v & V & H). apply bind_some in H as (vs & VS & H). apply bind_some in H as (l & L & H). destruct (_ =? _); [|discriminate]. injection H as <-. apply (m_write _ _ o); cbn; auto.
  - apply bind_some in H as (b & B & H). apply bind_some in H as (v & V & H). destruct (is_vector v) eqn:IV; cbn [negb] in H; [|discriminate].
    destruct (Nat.eqb_spec (length (data v)) 0) as [Z|Z].
    + injection H as <-. apply m_both; cbn; auto. rewrite V, Z. reflexivity.
    + destruct (Nat.eqb_spec (length (sm v)) (length (data v))) as [E|E]; cbn [negb] in H; [|discriminate]. destruct (Nat.eqb_spec (cols v) 1) as [C|C].
      * injection H as <-. apply (m_data _ _ o); cbn; auto. rewrite V. destruct (Nat.eqb_spec (length (data v)) 0); [lia|reflexivity].
      * apply value_some in V as (b' & s & l & B' & S1 & L & ->). rewrite B in B'. injection B' as <-. cbn [rows cols data] in *.
        unfold transpose_at in H. cbn [sh ar new_data shapes arrays] in H. rewrite S1 in H. rewrite nth_error_app2, Nat.sub_diag in H by auto. cbn [nth_error] in H.
        assert (TV : transpose_in_place (mkDense (fst s) (snd s) (sm (mkDense (fst s) (snd s) l))) = Some (mkDense (snd s) (fst s) (sm (mkDense (fst s) (snd s) l)))).
        { unfold transpose_in_place. cbn [rows cols data]. unfold is_vector in IV. cbn [rows cols] in IV. rewrite orb_comm in IV. rewrite IV. reflexivity. }
        apply bind_some in H as (s0 & Q & H). injection Q as <-. apply bind_some in H as (l0 & Q & H). injection Q as <-. rewrite TV in H. apply bind_some in H as (t0 & Q & H). injection Q as <-. injection H as <-. cbn [data]. unfold write_data, write_shape, new_data. cbn [shapes arrays objs]. rewrite put_last.
        apply (m_soft h (Softmax o) o b (mkDense (fst s) (snd s) l)); auto. unfold value. rewrite B. cbn. rewrite S1, L. reflexivity.
  - apply bind_some in H as (b & B & H). apply bind_some in H as (v & V & H). destruct (_ =? _); [|discriminate]. injection H as <-. apply (m_shape _ _ o); cbn; auto.
  - apply bind_some in H as (b & B & H). apply bind_some in H as (v & V & H). injection H as <-. apply (m_shape _ _ o); cbn; auto.
  - apply bind_some in H as (b & B & H). unfold transpose_at in H. apply bind_some in H as (s & S1 & H). apply bind_some in H as (l & L & H). apply bind_some in H as (t & TT & H). injection H as <-. apply (m_trans _ _ o); auto.
Qed.

Lemma nth_snoc {X} (l : list X) x i : nth_error (l ++ [x]) i = if i <? length l then nth_error l i else if i =? length l then Some x else None.
Proof.
  destruct (Nat.ltb_spec i (length l)); [now apply nth_error_app1|]. rewrite nth_error_app2 by auto. destruct (Nat.eqb_spec i (length l)) as [->|N]; [now rewrite Nat.sub_diag|]. destruct (i - length l) as [|[|k]] eqn:E; [lia|reflexivity..].
Qed.
Ltac snoc H := rewrite nth_snoc in H; let E := fresh "E" in destruct (Nat.ltb_spec _ _) as [E|E] in H; [|destruct (Nat.eqb_spec _ _) as [E|E] in H; [injection H as <-|discriminate]].
Lemma moved_ok h c h' : ok h -> moved h c h' -> ok h'.
Proof.
  intros K M. unfold ok in *. destruct M; intros o' b' B'; cbn [new_both new_data new_shape write_shape write_data objs shapes arrays] in *; rewrite ?app_length, ?put_len; cbn [length];
  try (rewrite nth_snoc in B'; destruct (o' <? length (objs h)); [specialize (K _ _ B'); lia|destruct (o' =? length (objs h)); [injection B' as <-|discriminate]]; cbn [sh ar]); try (specialize (K _ _ B'); lia); try (specialize (K _ _ H2); lia); try (specialize (K _ _ H0); lia); lia.
Qed.
Lemma moved_apart h c h' : ok h -> apart h -> (forall r k o, c <> NewBacking r k o) -> moved h c h' -> apart h'.
Proof.
  intros K P N M. unfold apart, ok in *. destruct M; intros o1 o2 b1 b2 B1 B2 E; cbn [new_both new_data new_shape write_shape write_data objs shapes arrays] in *;
  try (apply (P _ _ _ _ B1 B2 E));
  try (rewrite nth_snoc in B1; rewrite nth_snoc in B2;
    destruct (Nat.ltb_spec o1 (length (objs h))), (Nat.ltb_spec o2 (length (objs h)));
    [ exact (P _ _ _ _ B1 B2 E)
    | destruct (Nat.eqb_spec o2 (length (objs h))); [injection B2 as <-|discriminate]; specialize (K _ _ B1); cbn in E; lia
    | destruct (Nat.eqb_spec o1 (length (objs h))); [injection B1 as <-|discriminate]; specialize (K _ _ B2); cbn in E; lia
    | destruct (Nat.eqb_spec o1 (length (objs h))), (Nat.eqb_spec o2 (length (objs h))); try discriminate; lia ]).
  destruct H as (r & k & ->). exfalso. now apply (N r k o).
Qed.

Lemma run_app h cs cs' : run h (cs ++ cs') = run (run h cs) cs'.
Proof. revert h. induction cs; intros h; [reflexivity|]. cbn. apply IHcs. Qed.
Lemma run_ok cs : ok (run (empty (T:=T)) cs).
Proof.
  induction cs as [|c cs IH] using rev_ind; [intros o b B; destruct o; discriminate|]. rewrite run_app. cbn. destruct (step _ c) eqn:E; [|exact IH]. apply (moved_ok _ c _ IH). now apply step_moved.
Qed.
Lemma run_apart cs : no_backing cs -> apart (run (empty (T:=T)) cs).
Proof.
  induction cs as [|c cs IH] using rev_ind; intros N; [intros o ? ? ? B; destruct o; discriminate|]. rewrite run_app. cbn.
  assert (N1 : no_backing cs) by (intros r k o I; apply (N r k o), in_or_app; now left).
  destruct (step _ c) eqn:E; [|now apply IH]. apply (moved_apart _ c _ (run_ok cs) (IH N1)); [|now apply step_moved]. intros r k o ->. apply (N r k o), in_or_app. right. now left.
Qed.
(** objects keep their references *)
Lemma moved_obj h c h' o b : moved h c h' -> nth_error (objs h) o = Some b -> nth_error (objs h') o = Some b.
Proof.
  intros M B. assert (o < length (objs h)) by (apply nth_error_Some; congruence). destruct M; cbn [new_both new_data new_shape write_shape write_data objs]; auto; now rewrite nth_error_app1.
Qed.
Lemma moved_array h c h' a l : moved h c h' -> nth_error (arrays h) a = Some l -> (forall o b, writes c o -> nth_error (objs h) o = Some b -> ar b <> a) -> nth_error (arrays h') a = Some l.
Proof.
  intros M L N. assert (a < length (arrays h)) by (apply nth_error_Some; congruence).
  destruct M; cbn [new_both new_data new_shape write_shape write_data arrays]; auto; try now rewrite nth_error_app1.
  - rewrite nth_put_ne; [exact L|]. apply (N o b H0 H2).
  - rewrite nth_put_ne; [exact L|]. apply (N o b); [subst c; reflexivity|assumption].
Qed.
Lemma moved_shape h c h' s v : moved h c h' -> nth_error (shapes h) s = Some v ->
  (forall o b, (reshapes c o \/ exists d, c = Softmax o /\ value h o = Some d /\ cols d <> 1) -> nth_error (objs h) o = Some b -> sh b <> s) -> nth_error (shapes h') s = Some v.
Proof.
  intros M L N. assert (s < length (shapes h)) by (apply nth_error_Some; congruence).
  destruct M; cbn [new_both new_data new_shape write_shape write_data shapes]; auto; try now rewrite nth_error_app1.
  - rewrite nth_put_ne; [exact L|]. apply (N o b); [right; eauto|assumption].
  - rewrite nth_put_ne; [exact L|]. apply (N o b); [left|]; assumption.
  - rewrite nth_put_ne; [exact L|]. apply (N o b); [left; subst c; reflexivity|assumption].
Qed.

(** sources and shared shapes *)
Notation sources := (sources step).
Lemma sources_app h cs cs' : sources h (cs ++ cs') = sources h cs ++ sources (run h cs) cs'.
Proof.
  revert h. induction cs as [|c cs IH]; intros h; [reflexivity|]. cbn. destruct (step h c); [rewrite IH; now rewrite app_assoc|apply IH].
Qed.
Lemma moved_count h c h' : moved h c h' -> (length (objs h) < length (objs h') /\ length (objs h') = S (length (objs h))) \/ length (objs h') = length (objs h).
Proof. intros M. destruct M; cbn [new_both new_data new_shape write_shape write_data objs]; rewrite ?app_length; cbn; lia. Qed.
Lemma sources_len cs : length (sources (empty (T:=T)) cs) = length (objs (run (empty (T:=T)) cs)).
Proof.
  induction cs as [|c cs IH] using rev_ind; [reflexivity|]. rewrite sources_app, run_app, app_length, IH. cbn [HeapModel.run HeapSpec.sources]. destruct (step _ c) as [h'|] eqn:E; [|cbn; lia].
  destruct (moved_count _ _ _ (step_moved _ _ _ E)) as [(L & L2)|L]; destruct (Nat.ltb_spec (length (objs (run (empty (T:=T)) cs))) (length (objs h'))); cbn [app length]; lia.
Qed.
Lemma kin_mono src x a b : kin src a b -> kin (src ++ [x]) a b.
Proof.
  intros H. induction H as [k o H|k|k o _ IH|i j k _ IH1 _ IH2]; [apply rst_step|apply rst_refl|now apply rst_sym|now apply rst_trans with j].
  rewrite nth_error_app1; [exact H|]. apply nth_error_Some. congruence.
Qed.
Lemma kin_shape src (h : heap T) : (forall k o, nth_error src k = Some (Some o) -> exists bk bo, nth_error (objs h) k = Some bk /\ nth_error (objs h) o = Some bo /\ sh bk = sh bo) ->
  forall a b, kin src a b -> forall ba, nth_error (objs h) a = Some ba -> exists bb, nth_error (objs h) b = Some bb /\ sh ba = sh bb.
Proof.
  intros E a b K. enough (Q : (forall ba, nth_error (objs h) a = Some ba -> exists bb, nth_error (objs h) b = Some bb /\ sh ba = sh bb) /\ (forall bb, nth_error (objs h) b = Some bb -> exists ba, nth_error (objs h) a = Some ba /\ sh ba = sh bb)) by apply Q.
  induction K as [k o H|k|k o _ IH|i j k _ IH1 _ IH2].
  - destruct (E k o H) as (bk & bo & Bk & Bo & Q). split; intros bx Bx; [exists bo|exists bk]; (split; [assumption|]); congruence.
  - split; eauto.
  - split; intros bx Bx; [destruct (proj2 IH bx Bx) as (y & Y & ?)|destruct (proj1 IH bx Bx) as (y & Y & ?)]; eauto.
  - split; intros bx Bx.
    + destruct (proj1 IH1 bx Bx) as (y & Y & E1). destruct (proj1 IH2 y Y) as (z & Z & E2). exists z. split; [auto|congruence].
    + destruct (proj2 IH2 bx Bx) as (y & Y & E1). destruct (proj2 IH1 y Y) as (z & Z & E2). exists z. split; [auto|congruence].
Qed.
(** the facts about a history *)
Lemma sources_edges cs : let h := run (empty (T:=T)) cs in let src := sources (empty (T:=T)) cs in
  (forall k o, nth_error src k = Some (Some o) -> exists bk bo, nth_error (objs h) k = Some bk /\ nth_error (objs h) o = Some bo /\ sh bk = sh bo) /\
  (forall a b ba bb, nth_error (objs h) a = Some ba -> nth_error (objs h) b = Some bb -> sh ba = sh bb -> kin src a b).
Proof.
  induction cs as [|c cs IH] using rev_ind; cbv zeta in *; [split; [intros [|k] o H; discriminate|intros [|a] b ba bb H; discriminate]|].
  rewrite sources_app, run_app. pose proof (sources_len cs) as SL. pose proof (run_ok cs) as K. cbn [HeapModel.run HeapSpec.sources]. set (h := run (empty (T:=T)) cs) in *. set (src := sources (empty (T:=T)) cs) in *.
  destruct (step h c) as [h'|] eqn:E; [|rewrite app_nil_r; exact IH]. apply step_moved in E. rewrite app_nil_r. destruct IH as (I1 & I2).
  assert (Keep : forall n : nat, objs h' = objs h -> length (objs h) <? length (objs h') = false) by (intros _ ->; apply Nat.ltb_irrefl).
  assert (Grow : forall b, objs h' = objs h ++ [b] -> length (objs h) <? length (objs h') = true) by (intros b ->; rewrite app_length; apply Nat.ltb_lt; cbn; lia).
  assert (Same : objs h' = objs h -> (forall k o, nth_error (src ++ (if length (objs h) <? length (objs h') then [made_from h c] else [])) k = Some (Some o) -> exists bk bo, nth_error (objs h') k = Some bk /\ nth_error (objs h') o = Some bo /\ sh bk = sh bo) /\
    (forall a b ba bb, nth_error (objs h') a = Some ba -> nth_error (objs h') b = Some bb -> sh ba = sh bb -> kin (src ++ (if length (objs h) <? length (objs h') then [made_from h c] else [])) a b)).
  { intros Q. rewrite (Keep 0 Q), Q, app_nil_r. split; assumption. }
  assert (FreshC : forall b, objs h' = objs h ++ [b] -> length (shapes h) = sh b -> made_from h c = None -> (forall k o, nth_error (src ++ (if length (objs h) <? length (objs h') then [made_from h c] else [])) k = Some (Some o) -> exists bk bo, nth_error (objs h') k = Some bk /\ nth_error (objs h') o = Some bo /\ sh bk = sh bo) /\
    (forall a b ba bb, nth_error (objs h') a = Some ba -> nth_error (objs h') b = Some bb -> sh ba = sh bb -> kin (src ++ (if length (objs h) <? length (objs h') then [made_from h c] else [])) a b)).
  { intros b Q Sb Mf. rewrite (Grow b Q), Q, Mf. split.
    - intros k o H. rewrite nth_snoc in H. destruct (k <? length src); [|destruct (k =? length src); discriminate]. destruct (I1 k o H) as (bk & bo & Bk & Bo & S1). exists bk, bo.
      assert (k < length (objs h)) by (apply nth_error_Some; congruence). assert (o < length (objs h)) by (apply nth_error_Some; congruence). rewrite !nth_error_app1 by auto. auto.
    - intros a a' ba ba' Ba Ba' S1. rewrite nth_snoc in Ba, Ba'. destruct (Nat.ltb_spec a (length (objs h))), (Nat.ltb_spec a' (length (objs h))).
      + apply kin_mono. eapply I2; eauto.
      + destruct (a' =? length (objs h)); [injection Ba' as <-|discriminate]. specialize (K _ _ Ba). lia.
      + destruct (a =? length (objs h)); [injection Ba as <-|discriminate]. specialize (K _ _ Ba'). lia.
      + destruct (Nat.eqb_spec a (length (objs h))), (Nat.eqb_spec a' (length (objs h))); try discriminate. subst. apply rst_refl. }
  assert (Copy : forall o b n, objs h' = objs h ++ [mkObj (sh b) n] -> nth_error (objs h) o = Some b -> made_from h c = Some o -> (forall k o, nth_error (src ++ (if length (objs h) <? length (objs h') then [made_from h c] else [])) k = Some (Some o) -> exists bk bo, nth_error (objs h') k = Some bk /\ nth_error (objs h') o = Some bo /\ sh bk = sh bo) /\
    (forall a b ba bb, nth_error (objs h') a = Some ba -> nth_error (objs h') b = Some bb -> sh ba = sh bb -> kin (src ++ (if length (objs h) <? length (objs h') then [made_from h c] else [])) a b)).
  { intros o b n Q B Mf. rewrite (Grow _ Q), Q, Mf. assert (Ho : o < length (objs h)) by (apply nth_error_Some; congruence).
    assert (New : kin (src ++ [Some o]) (length (objs h)) o) by (apply rst_step; rewrite <- SL, nth_error_app2, Nat.sub_diag by auto; reflexivity).
    split.
    - intros k o' H. rewrite nth_snoc in H. destruct (Nat.ltb_spec k (length src)).
      + destruct (I1 k o' H) as (bk & bo & Bk & Bo & S1). exists bk, bo. assert (k < length (objs h)) by (apply nth_error_Some; congruence). assert (o' < length (objs h)) by (apply nth_error_Some; congruence). rewrite !nth_error_app1 by auto. auto.
      + destruct (Nat.eqb_spec k (length src)) as [->|]; [injection H as <-|discriminate]. exists (mkObj (sh b) n), b. rewrite SL, nth_error_app2, Nat.sub_diag by auto. rewrite nth_error_app1 by auto. auto.
    - intros a a' ba ba' Ba Ba' S1. rewrite nth_snoc in Ba, Ba'. destruct (Nat.ltb_spec a (length (objs h))), (Nat.ltb_spec a' (length (objs h))).
      + apply kin_mono. eapply I2; eauto.
      + destruct (Nat.eqb_spec a' (length (objs h))) as [->|]; [injection Ba' as <-|discriminate]. cbn [sh] in S1. apply rst_trans with o; [|now apply rst_sym]. apply kin_mono. eapply I2; eauto.
      + destruct (Nat.eqb_spec a (length (objs h))) as [->|]; [injection Ba as <-|discriminate]. cbn [sh] in S1. apply rst_trans with o; [exact New|]. apply kin_mono. eapply I2; eauto.
      + destruct (Nat.eqb_spec a (length (objs h))), (Nat.eqb_spec a' (length (objs h))); try discriminate. subst. apply rst_refl. }
  destruct E; try (apply Same; reflexivity).
  - eapply FreshC; [reflexivity|reflexivity|assumption].
  - eapply Copy; [reflexivity|eassumption|assumption].
  - eapply Copy; [reflexivity|eassumption|]. subst c. cbn. rewrite H1. destruct (Nat.eqb_spec (length (data v)) 0); [contradiction|reflexivity].
  - eapply FreshC; [reflexivity|reflexivity|]. destruct H as (r & k & ->). reflexivity.
Qed.
End Heap.
