(** * Proofs about the forward engine *)
From Coq Require Import List Arith Bool Lia.
From Verif Require Import AgModel AgLemmas FwdModel.
Import ListNotations.

Section Proofs.
Context {V : Type}.
Variable p : @program V.
Variable cap : nat.
Variable builders : list (list nat).
Hypothesis Hb : buildable p builders.
Hypothesis Hcap : 1 <= cap.

Notation fconfig := (@fconfig V).
Notation all := (concat builders).

Definition active (q : @opc V) : bool :=
  match q with ORead _ _ | OStored | OClosed => true | _ => false end.
Definition beyond_store (q : @opc V) : bool :=
  match q with OStored | OClosed | ODone => true | _ => false end.
Definition is_closed_pc (q : @opc V) : bool :=
  match q with OClosed | ODone => true | _ => false end.

(** Number of semaphore holders among the listed operators. *)
Definition holders (c : fconfig) (l : list nat) : nat :=
  length (filter (fun x => asy p x && active (fpc c x)) l).

Record Inv (c : fconfig) : Prop := {
  i_panic : fpanic c = false;
  i_val : forall x v, fval c x = Some v -> evaluates p x v;
  i_read : forall x r vs, fpc c x = ORead r vs ->
      exists pre, deps p x = pre ++ r /\ Forall2 (evaluates p) pre vs;
  i_stored : forall x, beyond_store (fpc c x) = true -> fval c x <> None;
  i_closed : forall x, fclosed c x = asy p x && is_closed_pc (fpc c x);
  i_sync_closed : forall x, fpc c x = OClosed -> asy p x = true;
  i_sync_acq : forall x, fpc c x = OAcq -> asy p x = true;
  i_deps : forall x, fpc c x <> ONew -> forall d, In d (deps p x) -> returned p c d = true;
  i_tok : ftok c = holders c all;
  i_cap : ftok c <= cap;
  i_in : forall x, fpc c x <> ONew -> In x all;
  i_sub : forall x, In x (concat (ftodo c)) -> In x all;
  i_gone : forall x, In x all -> ~ In x (concat (ftodo c)) -> returned p c x = true;
  i_inc : Forall increasing (ftodo c);
  i_nodup : NoDup (concat (ftodo c));
  i_waiting : forall b x l y, nth_error (ftodo c) b = Some (x :: l) -> In y l -> fpc c y = ONew
}.

Lemma returned_mono c c' x :
  (forall q, fpc c x = q -> fpc c' x = q \/
     match q, fpc c' x with
     | ODone, _ => False
     | _, ODone => True
     | (ORead _ _ | OStored | OClosed), (ORead _ _ | OStored | OClosed) => True
     | (ONew | OAcq), _ => True
     | _, _ => False
     end) ->
  returned p c x = true -> returned p c' x = true.
Proof.
  intros H. specialize (H _ eq_refl). unfold returned.
  destruct (fpc c x); destruct H as [->|H]; try discriminate; auto; destruct (fpc c' x); tauto.
Qed.

Lemma NoDup_app_remove_l {A} (l l' : list A) : NoDup (l ++ l') -> NoDup l'.
Proof. induction l as [|a l IH]; cbn; [auto|]. intros H. inversion H. auto. Qed.

Lemma in_replace {A} (l : list (list A)) b x r y : nth_error l b = Some (x :: r) ->
  In y (concat (replace l b r)) -> In y (concat l).
Proof.
  revert b. induction l as [|a l IH]; intros [|b] H Hy; cbn in *; try discriminate.
  - injection H as ->. cbn. right. assumption.
  - apply in_app_or in Hy. apply in_or_app. destruct Hy as [Hy|Hy]; [now left|right]. eapply IH; eauto.
Qed.

Lemma in_replace_inv {A} (l : list (list A)) b x r y : nth_error l b = Some (x :: r) ->
  In y (concat l) -> y = x \/ In y (concat (replace l b r)).
Proof.
  revert b. induction l as [|a l IH]; intros [|b] H Hy; cbn in *; try discriminate.
  - injection H as ->. cbn in Hy. destruct Hy as [Hy|Hy]; [now left|right]. assumption.
  - apply in_app_or in Hy. destruct Hy as [Hy|Hy].
    + right. apply in_or_app. now left.
    + destruct (IH b H Hy) as [->|H']; [now left|right]. apply in_or_app. now right.
Qed.

Lemma nodup_replace {A} (l : list (list A)) b x r : nth_error l b = Some (x :: r) ->
  NoDup (concat l) -> NoDup (concat (replace l b r)).
Proof.
  revert b. induction l as [|a l IH]; intros [|b] H Hn; cbn in *; try discriminate.
  - injection H as ->. cbn in Hn. now inversion Hn.
  - assert (Hn2 : NoDup (concat l)) by (now apply NoDup_app_remove_l in Hn).
    specialize (IH b H Hn2).
    clear Hn2. induction a as [|y a IHa]; cbn in *; [assumption|].
    inversion Hn as [|? ? Hy Hn']; subst. constructor; [|auto].
    intros Hin. apply Hy. apply in_app_or in Hin. apply in_or_app.
    destruct Hin as [Hin|Hin]; [now left|right]. eapply in_replace; eauto.
Qed.

Lemma nth_replace {A} (l : list A) b b' a a0 : nth_error l b = Some a0 ->
  nth_error (replace l b a) b' = if Nat.eqb b' b then Some a else nth_error l b'.
Proof.
  revert b b'. induction l as [|y l IH]; intros [|b] [|b'] H; cbn in *; try discriminate; auto.
Qed.

Lemma forall_replace {A} (P : A -> Prop) (l : list A) b a : Forall P l -> P a -> Forall P (replace l b a).
Proof.
  intros H Ha. revert b. induction H as [|y l Hy H IH]; intros [|b]; cbn; constructor; auto.
Qed.

Lemma nth_in_concat (l : list (list nat)) b a x : nth_error l b = Some a -> In x a -> In x (concat l).
Proof. intros H Hx. apply in_concat. exists a. split; [|assumption]. eapply nth_error_In; eauto. Qed.

Lemma nodup_two (l : list (list nat)) b b' a a' x : NoDup (concat l) ->
  nth_error l b = Some a -> nth_error l b' = Some a' -> In x a -> In x a' -> b = b'.
Proof.
  revert b b'. induction l as [|y l IH]; intros [|b] [|b'] Hn H H' Hx Hx'; cbn in *; try discriminate; auto.
  - injection H as ->. exfalso. eapply (NoDup_app_remove_l) in Hn as Hn2.
    assert (Hi : In x (concat l)) by (eapply nth_in_concat; eauto).
    clear -Hn Hx Hi. induction a as [|z a IHa]; cbn in *; [destruct Hx|].
    inversion Hn; subst. destruct Hx as [->|Hx]; [|auto]. apply H1. apply in_or_app. now right.
  - injection H' as ->.
    assert (Hi : In x (concat l)) by (eapply nth_in_concat; eauto). exfalso.
    clear -Hn Hx' Hi. induction a' as [|z a IHa]; cbn in *; [destruct Hx'|].
    inversion Hn; subst. destruct Hx' as [->|Hx']; [|auto]. apply H1. apply in_or_app. now right.
  - f_equal. eapply IH; eauto. now apply NoDup_app_remove_l in Hn.
Qed.

Lemma filter_length_upd (f h : nat -> bool) l x : NoDup l -> In x l ->
  (forall y, y <> x -> f y = h y) ->
  length (filter h l) + (if f x then 1 else 0) = length (filter f l) + (if h x then 1 else 0).
Proof.
  intros Hn Hx Hy. induction l as [|z l IH]; [destruct Hx|].
  inversion Hn as [|? ? Hz Hn']; subst. cbn [filter].
  destruct (Nat.eq_dec z x) as [->|Hne].
  - assert (E : filter f l = filter h l).
    { apply filter_ext_in. intros a Ha. apply Hy. intros ->. contradiction. }
    rewrite E. destruct (f x), (h x); cbn; lia.
  - destruct Hx as [->|Hx]; [congruence|]. specialize (IH Hn' Hx).
    rewrite (Hy z Hne). destruct (h z); cbn; lia.
Qed.

Lemma holders_upd c q x tok todo va cl pa : In x all ->
  holders (mkF (upd (fpc c) x q) va cl tok todo pa) all + (if asy p x && active (fpc c x) then 1 else 0) =
  holders c all + (if asy p x && active q then 1 else 0).
Proof.
  intros Hx. unfold holders. cbn [fpc].
  pose proof (filter_length_upd (fun x0 => asy p x0 && active (fpc c x0))
     (fun x0 => asy p x0 && active (upd (fpc c) x q x0)) all x (proj1 Hb) Hx) as H.
  cbn beta in H. rewrite upd_same in H. apply H. intros y Hy. now rewrite upd_other.
Qed.

Lemma start_inv : Inv (fstart builders).
Proof.
  destruct Hb as (Hnd & Hinc & _).
  assert (Hz : forall l, holders (fstart builders) l = 0).
  { intros l. unfold holders. induction l as [|x l IH]; [reflexivity|]. cbn [filter fstart fpc active].
    rewrite andb_false_r. exact IH. }
  constructor; try (symmetry; apply Hz); cbn; try congruence; try discriminate; try assumption; try (intros; assumption); try lia.
Qed.

Ltac upd_cases y x := destruct (Nat.eq_dec y x) as [->|?];
  [rewrite ?upd_same in * | rewrite ?upd_other in * by assumption].

Lemma inv_step c c' : Inv c -> fstep p cap c c' -> Inv c'.
Proof.
  intros I H. destruct H as [b x l Hp Hn Hx Hd|x Hp Hx Ht|b x l Hp Hn Hr|x d r vs v Hp Hx Hc Hv|x d r vs Hp Hx Hc Hv|x vs Hp Hx|x Hp Hx Ha Hcl|x Hp Hx Ha Hcl|x Hp Hx Ha|x Hp Hx].
  - (* start *)
    assert (Hall : In x all) by (apply (i_sub _ I); eapply nth_in_concat; eauto; now left).
    assert (Hret : forall y, returned p c y = true -> returned p (set_pc c x (if asy p x then OAcq else ORead (deps p x) [])) y = true).
    { intros y. apply returned_mono. intros q Hq. cbn. upd_cases y x; [right|now left]. rewrite Hx in Hq. subst q. destruct (asy p x); exact Logic.I. }
    constructor; cbn.
    + apply I.
    + apply I.
    + intros y r vs Hy. upd_cases y x.
      * destruct (asy p x); [discriminate|]. injection Hy as <- <-. exists []. split; [reflexivity|constructor].
      * now apply (i_read _ I).
    + intros y Hy. upd_cases y x; [destruct (asy p x); discriminate|]. now apply (i_stored _ I).
    + intros y. rewrite (i_closed _ I). upd_cases y x; [|reflexivity]. rewrite Hx. destruct (asy p x); reflexivity.
    + intros y Hy. upd_cases y x; [destruct (asy p x); discriminate|]. now apply (i_sync_closed _ I).
    + intros y Hy. upd_cases y x; [destruct (asy p x); [reflexivity|discriminate]|]. now apply (i_sync_acq _ I).
    + intros y Hy d Hd'. apply Hret. upd_cases y x; [auto|]. eapply (i_deps _ I); eauto.
    + pose proof (holders_upd c (if asy p x then OAcq else ORead (deps p x) []) x (ftok c) (ftodo c) (fval c) (fclosed c) (fpanic c) Hall) as E.
      rewrite Hx in E. cbn [active] in E. rewrite andb_false_r in E.
      unfold set_pc. pose proof (i_tok _ I) as Et. destruct (asy p x); cbn in E; lia.
    + apply I.
    + intros y Hy. upd_cases y x; [assumption|]. now apply (i_in _ I).
    + apply I.
    + intros y H1 H2. apply Hret. now apply (i_gone _ I).
    + apply I.
    + apply I.
    + intros b' x' l' y Hb' Hy. upd_cases y x.
      * exfalso. assert (b' = b).
        { eapply nodup_two; [apply (i_nodup _ I)|eassumption|eassumption| |left; reflexivity]. right. assumption. }
        subst b'. rewrite Hn in Hb'. injection Hb' as <- <-.
        pose proof (i_inc _ I) as Hi. rewrite Forall_forall in Hi. specialize (Hi (x :: l) (nth_error_In _ _ Hn)).
        destruct Hi as [Hi _]. specialize (Hi x Hy). lia.
      * eapply (i_waiting _ I); eauto.
  - (* acquire *)
    assert (Hall : In x all) by (apply (i_in _ I); congruence).
    pose proof (i_sync_acq _ I x Hx) as Hasy.
    assert (Hret : forall y, returned p c y = true -> returned p (mkF (upd (fpc c) x (ORead (deps p x) [])) (fval c) (fclosed c) (S (ftok c)) (ftodo c) (fpanic c)) y = true).
    { intros y. apply returned_mono. intros q Hq. cbn. upd_cases y x; [right|now left]. rewrite Hx in Hq. subst q. exact Logic.I. }
    constructor; cbn.
    + apply I.
    + apply I.
    + intros y r vs Hy. upd_cases y x.
      * injection Hy as <- <-. exists []. split; [reflexivity|constructor].
      * now apply (i_read _ I).
    + intros y Hy. upd_cases y x; [discriminate|]. now apply (i_stored _ I).
    + intros y. rewrite (i_closed _ I). upd_cases y x; [|reflexivity]. now rewrite Hx.
    + intros y Hy. upd_cases y x; [discriminate|]. now apply (i_sync_closed _ I).
    + intros y Hy. upd_cases y x; [discriminate|]. now apply (i_sync_acq _ I).
    + intros y Hy d Hd'. apply Hret. apply (i_deps _ I y); [|assumption]. upd_cases y x; [congruence|assumption].
    + pose proof (holders_upd c (ORead (deps p x) []) x (S (ftok c)) (ftodo c) (fval c) (fclosed c) (fpanic c) Hall) as E.
      rewrite Hx in E. rewrite Hasy in E. cbn [active andb] in E.
      pose proof (i_tok _ I) as Et. lia.
    + lia.
    + intros y Hy. upd_cases y x; [assumption|]. now apply (i_in _ I).
    + apply I.
    + intros y H1 H2. apply Hret. now apply (i_gone _ I).
    + apply I.
    + apply I.
    + intros b' x' l' y Hb' Hy. pose proof (i_waiting _ I _ _ _ _ Hb' Hy) as E. upd_cases y x; [congruence|assumption].
  - (* next *)
    constructor; cbn; try apply I.
    + intros y Hy. apply (i_sub _ I). eapply in_replace; eauto.
    + intros y H1 H2. change (returned p c y = true).
      destruct (in_dec Nat.eq_dec y (concat (ftodo c))) as [Hi|Hi]; [|now apply (i_gone _ I)].
      destruct (in_replace_inv _ _ _ _ _ Hn Hi) as [->|Hi']; [assumption|contradiction].
    + apply forall_replace; [apply I|]. pose proof (i_inc _ I) as Hi. rewrite Forall_forall in Hi.
      specialize (Hi (x :: l) (nth_error_In _ _ Hn)). apply Hi.
    + eapply nodup_replace; eauto. apply I.
    + intros b' x' l' y Hb' Hy. rewrite (nth_replace _ _ _ _ _ Hn) in Hb'.
      destruct (Nat.eqb_spec b' b) as [->|Hne].
      * injection Hb' as ->. apply (i_waiting _ I b x (x' :: l') y Hn). now right.
      * eapply (i_waiting _ I); eauto.
  - (* read *)
    assert (Hall : In x all) by (apply (i_in _ I); congruence).
    assert (Hret : forall y, returned p c y = true -> returned p (set_pc c x (ORead r (vs ++ [v]))) y = true).
    { intros y. apply returned_mono. intros q Hq. cbn. upd_cases y x; [right|now left]. rewrite Hx in Hq. subst q. exact Logic.I. }
    constructor; cbn.
    + apply I.
    + apply I.
    + intros y r' vs' Hy. upd_cases y x.
      * injection Hy as <- <-. destruct (i_read _ I _ _ _ Hx) as (pre & E1 & E2).
        exists (pre ++ [d]). split; [rewrite <- app_assoc; exact E1|].
        apply Forall2_app; [assumption|]. constructor; [|constructor]. now apply (i_val _ I).
      * now apply (i_read _ I).
    + intros y Hy. upd_cases y x; [discriminate|]. now apply (i_stored _ I).
    + intros y. rewrite (i_closed _ I). upd_cases y x; [|reflexivity]. now rewrite Hx.
    + intros y Hy. upd_cases y x; [discriminate|]. now apply (i_sync_closed _ I).
    + intros y Hy. upd_cases y x; [discriminate|]. now apply (i_sync_acq _ I).
    + intros y Hy d' Hd'. apply Hret. apply (i_deps _ I y); [|assumption]. upd_cases y x; [congruence|assumption].
    + pose proof (holders_upd c (ORead r (vs ++ [v])) x (ftok c) (ftodo c) (fval c) (fclosed c) (fpanic c) Hall) as E.
      rewrite Hx in E. cbn [active] in E. unfold set_pc. pose proof (i_tok _ I) as Et. lia.
    + apply I.
    + intros y Hy. upd_cases y x; [assumption|]. now apply (i_in _ I).
    + apply I.
    + intros y H1 H2. apply Hret. now apply (i_gone _ I).
    + apply I.
    + apply I.
    + intros b' x' l' y Hb' Hy. pose proof (i_waiting _ I _ _ _ _ Hb' Hy) as E. upd_cases y x; [congruence|assumption].
  - (* read nil: impossible *)
    exfalso. destruct (i_read _ I _ _ _ Hx) as (pre & E1 & _).
    assert (Hin : In d (deps p x)) by (rewrite E1; apply in_or_app; right; now left).
    assert (Hd : returned p c d = true) by (apply (i_deps _ I x); [congruence|assumption]).
    assert (Hs : beyond_store (fpc c d) = true).
    { unfold returned in Hd. destruct (fpc c d) eqn:Ed; try discriminate; try reflexivity.
      specialize (Hc Hd). rewrite (i_closed _ I), Ed in Hc. cbn in Hc. rewrite andb_false_r in Hc. discriminate. }
    apply (i_stored _ I) in Hs. congruence.
  - (* compute *)
    assert (Hall : In x all) by (apply (i_in _ I); congruence).
    assert (Hret : forall y, returned p c y = true -> returned p (mkF (upd (fpc c) x OStored) (upd (fval c) x (Some (fn p x vs))) (fclosed c) (ftok c) (ftodo c) (fpanic c)) y = true).
    { intros y. apply returned_mono. intros q Hq. cbn. upd_cases y x; [right|now left]. rewrite Hx in Hq. subst q. exact Logic.I. }
    constructor; cbn.
    + apply I.
    + intros y w Hy. upd_cases y x; [|now apply (i_val _ I)].
      injection Hy as <-. destruct (i_read _ I _ _ _ Hx) as (pre & E1 & E2). rewrite app_nil_r in E1. subst pre.
      constructor. assumption.
    + intros y r' vs' Hy. upd_cases y x; [discriminate|]. now apply (i_read _ I).
    + intros y Hy. upd_cases y x; [discriminate|]. now apply (i_stored _ I).
    + intros y. rewrite (i_closed _ I). upd_cases y x; [|reflexivity]. now rewrite Hx.
    + intros y Hy. upd_cases y x; [discriminate|]. now apply (i_sync_closed _ I).
    + intros y Hy. upd_cases y x; [discriminate|]. now apply (i_sync_acq _ I).
    + intros y Hy d' Hd'. apply Hret. apply (i_deps _ I y); [|assumption]. upd_cases y x; [congruence|assumption].
    + pose proof (holders_upd c OStored x (ftok c) (ftodo c) (upd (fval c) x (Some (fn p x vs))) (fclosed c) (fpanic c) Hall) as E.
      rewrite Hx in E. cbn [active] in E. pose proof (i_tok _ I) as Et. lia.
    + apply I.
    + intros y Hy. upd_cases y x; [assumption|]. now apply (i_in _ I).
    + apply I.
    + intros y H1 H2. apply Hret. now apply (i_gone _ I).
    + apply I.
    + apply I.
    + intros b' x' l' y Hb' Hy. pose proof (i_waiting _ I _ _ _ _ Hb' Hy) as E. upd_cases y x; [congruence|assumption].
  - (* close *)
    assert (Hall : In x all) by (apply (i_in _ I); congruence).
    assert (Hret : forall y, returned p c y = true -> returned p (mkF (upd (fpc c) x OClosed) (fval c) (upd (fclosed c) x true) (ftok c) (ftodo c) (fpanic c)) y = true).
    { intros y. apply returned_mono. intros q Hq. cbn. upd_cases y x; [right|now left]. rewrite Hx in Hq. subst q. exact Logic.I. }
    constructor; cbn.
    + apply I.
    + apply I.
    + intros y r' vs' Hy. upd_cases y x; [discriminate|]. now apply (i_read _ I).
    + intros y Hy. upd_cases y x; [|now apply (i_stored _ I)]. apply (i_stored _ I). now rewrite Hx.
    + intros y. upd_cases y x; [now rewrite Ha|]. apply (i_closed _ I).
    + intros y Hy. upd_cases y x; [assumption|]. now apply (i_sync_closed _ I).
    + intros y Hy. upd_cases y x; [discriminate|]. now apply (i_sync_acq _ I).
    + intros y Hy d' Hd'. apply Hret. apply (i_deps _ I y); [|assumption]. upd_cases y x; [congruence|assumption].
    + pose proof (holders_upd c OClosed x (ftok c) (ftodo c) (fval c) (upd (fclosed c) x true) (fpanic c) Hall) as E.
      rewrite Hx in E. cbn [active] in E. pose proof (i_tok _ I) as Et. lia.
    + apply I.
    + intros y Hy. upd_cases y x; [assumption|]. now apply (i_in _ I).
    + apply I.
    + intros y H1 H2. apply Hret. now apply (i_gone _ I).
    + apply I.
    + apply I.
    + intros b' x' l' y Hb' Hy. pose proof (i_waiting _ I _ _ _ _ Hb' Hy) as E. upd_cases y x; [congruence|assumption].
  - (* close twice: impossible *)
    exfalso. rewrite (i_closed _ I), Hx in Hcl. cbn in Hcl. rewrite andb_false_r in Hcl. discriminate.
  - (* sync *)
    assert (Hall : In x all) by (apply (i_in _ I); congruence).
    assert (Hret : forall y, returned p c y = true -> returned p (set_pc c x ODone) y = true).
    { intros y. apply returned_mono. intros q Hq. cbn. upd_cases y x; [right|now left]. rewrite Hx in Hq. subst q. exact Logic.I. }
    constructor; cbn.
    + apply I.
    + apply I.
    + intros y r' vs' Hy. upd_cases y x; [discriminate|]. now apply (i_read _ I).
    + intros y Hy. upd_cases y x; [|now apply (i_stored _ I)]. apply (i_stored _ I). now rewrite Hx.
    + intros y. rewrite (i_closed _ I). upd_cases y x; [|reflexivity]. now rewrite Ha.
    + intros y Hy. upd_cases y x; [discriminate|]. now apply (i_sync_closed _ I).
    + intros y Hy. upd_cases y x; [discriminate|]. now apply (i_sync_acq _ I).
    + intros y Hy d' Hd'. apply Hret. apply (i_deps _ I y); [|assumption]. upd_cases y x; [congruence|assumption].
    + pose proof (holders_upd c ODone x (ftok c) (ftodo c) (fval c) (fclosed c) (fpanic c) Hall) as E.
      rewrite Hx, Ha in E. cbn [active andb] in E. unfold set_pc. pose proof (i_tok _ I) as Et. lia.
    + apply I.
    + intros y Hy. upd_cases y x; [assumption|]. now apply (i_in _ I).
    + apply I.
    + intros y H1 H2. apply Hret. now apply (i_gone _ I).
    + apply I.
    + apply I.
    + intros b' x' l' y Hb' Hy. pose proof (i_waiting _ I _ _ _ _ Hb' Hy) as E. upd_cases y x; [congruence|assumption].
  - (* release *)
    assert (Hall : In x all) by (apply (i_in _ I); congruence).
    pose proof (i_sync_closed _ I x Hx) as Hasy.
    assert (Hret : forall y, returned p c y = true -> returned p (mkF (upd (fpc c) x ODone) (fval c) (fclosed c) (pred (ftok c)) (ftodo c) (fpanic c)) y = true).
    { intros y. apply returned_mono. intros q Hq. cbn. upd_cases y x; [right|now left]. rewrite Hx in Hq. subst q. exact Logic.I. }
    constructor; cbn.
    + apply I.
    + apply I.
    + intros y r' vs' Hy. upd_cases y x; [discriminate|]. now apply (i_read _ I).
    + intros y Hy. upd_cases y x; [|now apply (i_stored _ I)]. apply (i_stored _ I). now rewrite Hx.
    + intros y. rewrite (i_closed _ I). upd_cases y x; [|reflexivity]. now rewrite Hx.
    + intros y Hy. upd_cases y x; [discriminate|]. now apply (i_sync_closed _ I).
    + intros y Hy. upd_cases y x; [discriminate|]. now apply (i_sync_acq _ I).
    + intros y Hy d' Hd'. apply Hret. apply (i_deps _ I y); [|assumption]. upd_cases y x; [congruence|assumption].
    + pose proof (holders_upd c ODone x (pred (ftok c)) (ftodo c) (fval c) (fclosed c) (fpanic c) Hall) as E.
      rewrite Hx, Hasy in E. cbn [active andb] in E. pose proof (i_tok _ I) as Et. lia.
    + pose proof (i_cap _ I). lia.
    + intros y Hy. upd_cases y x; [assumption|]. now apply (i_in _ I).
    + apply I.
    + intros y H1 H2. apply Hret. now apply (i_gone _ I).
    + apply I.
    + apply I.
    + intros b' x' l' y Hb' Hy. pose proof (i_waiting _ I _ _ _ _ Hb' Hy) as E. upd_cases y x; [congruence|assumption].
Qed.

Lemma inv_reach c : fsteps p cap (fstart builders) c -> Inv c.
Proof. intros H. induction H as [|c1 c2 H IH Hs]; [apply start_inv|eapply inv_step; eauto]. Qed.

(** ** Progress *)
Lemma least (P : nat -> bool) (l : list nat) : (exists x, In x l /\ P x = true) ->
  exists x, In x l /\ P x = true /\ forall y, In y l -> P y = true -> x <= y.
Proof.
  intros (x & Hx & Hp). revert Hx Hp. induction x as [x IH] using lt_wf_ind. intros Hx Hp.
  destruct (existsb (fun y => P y && (y <? x)) l) eqn:E.
  - apply existsb_exists in E. destruct E as (y & Hy & E). apply andb_true_iff in E. destruct E as [E1 E2].
    apply Nat.ltb_lt in E2. apply (IH y); auto.
  - exists x. split; [assumption|]. split; [assumption|]. intros y Hy Hpy.
    destruct (le_lt_dec x y) as [|Hlt]; [assumption|]. exfalso.
    assert (existsb (fun y => P y && (y <? x)) l = true); [|congruence].
    apply existsb_exists. exists y. split; [assumption|]. rewrite Hpy. now apply Nat.ltb_lt.
Qed.

Lemma progress c : Inv c ->
  (forall x, In x all -> fpc c x = ODone) /\ Forall (fun l => l = []) (ftodo c) \/ exists c', fstep p cap c c'.
Proof.
  intros I.
  destruct (existsb (fun x => active (fpc c x)) all) eqn:Ea.
  { (* some operator is executing *)
    right. apply existsb_exists in Ea. apply least in Ea. destruct Ea as (x & Hx & Hax & Hleast).
    destruct (fpc c x) as [| |r vs| | |] eqn:Ex; try discriminate.
    - destruct r as [|d r].
      + eexists. eapply fs_compute; [apply I|exact Ex].
      + destruct (i_read _ I _ _ _ Ex) as (pre & E1 & _).
        assert (Hin : In d (deps p x)) by (rewrite E1; apply in_or_app; right; now left).
        assert (Hd : returned p c d = true) by (apply (i_deps _ I x); [congruence|assumption]).
        destruct (proj2 (proj2 Hb) x d Hx Hin) as [Hlt Hda].
        assert (Hdone : fpc c d = ODone).
        { unfold returned in Hd. destruct (fpc c d) eqn:Ed; try discriminate; try reflexivity;
          specialize (Hleast d Hda); rewrite Ed in Hleast; cbn in Hleast; specialize (Hleast eq_refl); lia. }
        assert (Hv : fval c d <> None) by (apply (i_stored _ I); now rewrite Hdone).
        destruct (fval c d) as [v|] eqn:Ev; [|congruence].
        eexists. eapply fs_read; [apply I|exact Ex| |exact Ev].
        intros Hasy. rewrite (i_closed _ I), Hasy, Hdone. reflexivity.
    - destruct (asy p x) eqn:Easy.
      + eexists. eapply fs_close; [apply I|exact Ex|exact Easy|]. rewrite (i_closed _ I), Ex. now rewrite andb_false_r.
      + eexists. eapply fs_sync; [apply I|exact Ex|exact Easy].
    - eexists. eapply fs_release; [apply I|exact Ex]. }
  assert (Hna : forall x, In x all -> active (fpc c x) = false).
  { intros x Hx. destruct (active (fpc c x)) eqn:E; [|reflexivity].
    assert (existsb (fun x => active (fpc c x)) all = true); [|congruence]. apply existsb_exists. eauto. }
  assert (Htok : ftok c = 0).
  { rewrite (i_tok _ I). unfold holders. rewrite length_zero_iff_nil.
    apply (proj2 (Forall_forall _ _)) in Hna. clear -Hna. induction Hna as [|x l Hx H IH]; [reflexivity|].
    cbn. now rewrite Hx, andb_false_r. }
  destruct (existsb (fun x => match fpc c x with OAcq => true | _ => false end) all) eqn:Eq.
  { right. apply existsb_exists in Eq. destruct Eq as (x & Hx & E).
    destruct (fpc c x) eqn:Ex; try discriminate. eexists. eapply fs_acquire; [apply I|exact Ex|lia]. }
  assert (Hnd : forall x, In x all -> fpc c x = ONew \/ fpc c x = ODone).
  { intros x Hx. specialize (Hna x Hx). destruct (fpc c x) eqn:E; try discriminate; auto.
    assert (existsb (fun x => match fpc c x with OAcq => true | _ => false end) all = true); [|congruence].
    apply existsb_exists. exists x. rewrite E. auto. }
  (* heads of the builders' lists *)
  set (heads := flat_map (fun l : list nat => match l with [] => [] | x :: _ => [x] end) (ftodo c)).
  assert (Hheads : forall x, In x heads -> exists b l, nth_error (ftodo c) b = Some (x :: l)).
  { intros x Hx. apply in_flat_map in Hx. destruct Hx as (l & Hl & Hx). destruct l as [|y l]; [destruct Hx|].
    destruct Hx as [->|[]]. apply In_nth_error in Hl. destruct Hl as (b & Hl). eauto. }
  destruct heads as [|x0 heads'] eqn:Eh.
  { left. assert (Hnil : Forall (fun l => l = []) (ftodo c)).
    { apply Forall_forall. intros l Hl. destruct l as [|y l]; [reflexivity|exfalso].
      assert (In y heads) by (apply in_flat_map; exists (y :: l); split; [assumption|now left]).
      rewrite Eh in H. destruct H. }
    split; [|assumption]. intros x Hx.
    assert (Hr : returned p c x = true).
    { apply (i_gone _ I); [assumption|]. intros Hin. apply in_concat in Hin. destruct Hin as (l & Hl & Hxl).
      rewrite Forall_forall in Hnil. rewrite (Hnil l Hl) in Hxl. destruct Hxl. }
    destruct (Hnd x Hx) as [E|E]; [|assumption]. unfold returned in Hr. rewrite E in Hr. discriminate. }
  right.
  destruct (least (fun _ => true) heads) as (x & Hx & _ & Hleast).
  { exists x0. rewrite Eh. split; [now left|reflexivity]. }
  destruct (Hheads x) as (b & l & Hbl); [now rewrite <- Eh|].
  assert (Hxall : In x all) by (apply (i_sub _ I); eapply nth_in_concat; eauto; now left).
  destruct (Hnd x Hxall) as [E|E].
  - eexists. eapply fs_start; [apply I|exact Hbl|exact E|].
    intros d Hd. destruct (proj2 (proj2 Hb) x d Hxall Hd) as [Hlt Hda].
    apply (i_gone _ I); [assumption|]. intros Hin. apply in_concat in Hin. destruct Hin as (l' & Hl' & Hdl').
    destruct l' as [|h l']; [destruct Hdl'|].
    assert (Hh : In h heads) by (apply in_flat_map; exists (h :: l'); split; [assumption|now left]).
    specialize (Hleast h Hh eq_refl).
    pose proof (i_inc _ I) as Hi. rewrite Forall_forall in Hi. destruct (Hi _ Hl') as [Hi1 _].
    destruct Hdl' as [->|Hdl']; [lia|]. specialize (Hi1 d Hdl'). lia.
  - eexists. eapply fs_next; [apply I|exact Hbl|]. unfold returned. now rewrite E.
Qed.

(** ** Termination *)
Definition weight (q : @opc V) (x : nat) : nat :=
  match q with
  | ONew => 5 + length (deps p x)
  | OAcq => 4 + length (deps p x)
  | ORead r _ => 3 + length r
  | OStored => 2
  | OClosed => 1
  | ODone => 0
  end.

Definition total (pc : nat -> @opc V) (l : list nat) : nat := list_sum (map (fun x => weight (pc x) x) l).
Definition measure (c : fconfig) : nat := total (fpc c) all + length (concat (ftodo c)).

Lemma total_upd pc x q l : NoDup l -> In x l -> weight q x < weight (pc x) x -> total (upd pc x q) l < total pc l.
Proof.
  intros Hn Hx Hw. unfold total.
  induction l as [|y l IH]; [destruct Hx|]. inversion Hn as [|? ? Hy Hn']; subst. cbn [map list_sum fold_right].
  fold (list_sum (map (fun x1 => weight (upd pc x q x1) x1) l)). fold (list_sum (map (fun x1 => weight (pc x1) x1) l)).
  destruct (Nat.eq_dec y x) as [->|Hne].
  - rewrite upd_same. assert (E : map (fun x1 => weight (upd pc x q x1) x1) l = map (fun x1 => weight (pc x1) x1) l).
    { apply map_ext_in. intros z Hz. rewrite upd_other; [reflexivity|]. intros ->. contradiction. }
    rewrite E. lia.
  - rewrite upd_other by assumption. destruct Hx as [->|Hx]; [congruence|]. specialize (IH Hn' Hx). lia.
Qed.

Lemma replace_length (l : list (list nat)) b x r : nth_error l b = Some (x :: r) ->
  length (concat (replace l b r)) < length (concat l).
Proof.
  revert b. induction l as [|a l IH]; intros [|b] H; cbn in *; try discriminate.
  - injection H as ->. cbn. lia.
  - rewrite !app_length. specialize (IH b H). lia.
Qed.

Lemma measure_step c c' : Inv c -> fstep p cap c c' -> measure c' < measure c.
Proof.
  intros I H. pose proof (inv_step c c' I H) as I'.
  assert (Hu : forall x q va cl tok pa, In x all -> weight q x < weight (fpc c x) x ->
     measure (mkF (upd (fpc c) x q) va cl tok (ftodo c) pa) < measure c).
  { intros x q va cl tok pa Hx Hw. unfold measure. cbn [fpc ftodo]. pose proof (total_upd (fpc c) x q all (proj1 Hb) Hx Hw). lia. }
  assert (Hin : forall x, fpc c x <> ONew -> In x all) by apply (i_in _ I).
  destruct H as [b x l Hp Hn Hx Hd|x Hp Hx Ht|b x l Hp Hn Hr|x d r vs v Hp Hx Hc Hv|x d r vs Hp Hx Hc Hv|x vs Hp Hx|x Hp Hx Ha Hcl|x Hp Hx Ha Hcl|x Hp Hx Ha|x Hp Hx];
    try (unfold set_pc; apply Hu; [apply Hin; congruence|rewrite Hx; cbn; lia]).
  - unfold set_pc; apply Hu; [apply (i_sub _ I); eapply nth_in_concat; eauto; now left|].
    rewrite Hx. destruct (asy p x); cbn; lia.
  - unfold measure. cbn [fpc ftodo]. pose proof (replace_length _ _ _ _ Hn). lia.
  - exfalso. pose proof (i_panic _ I') as E. discriminate E.
  - exfalso. pose proof (i_panic _ I') as E. discriminate E.
Qed.

Lemma no_infinite (f : nat -> fconfig) : f 0 = fstart builders -> (forall i, fstep p cap (f i) (f (S i))) -> False.
Proof.
  intros H0 Hs.
  assert (Hi : forall i, Inv (f i)).
  { induction i as [|i IH]; [rewrite H0; apply start_inv|eapply inv_step; eauto]. }
  assert (Hm : forall i, measure (f i) + i <= measure (f 0)).
  { induction i as [|i IH]; [lia|]. pose proof (measure_step _ _ (Hi i) (Hs i)). lia. }
  specialize (Hm (S (measure (f 0)))). lia.
Qed.

Lemma evaluates_fun : (forall x d, In x all -> In d (deps p x) -> d < x /\ In d all) ->
  forall x v w, In x all -> evaluates p x v -> evaluates p x w -> v = w.
Proof.
  intros Hd x. induction x as [x IH] using lt_wf_ind. intros v w Hx Hv Hw.
  inversion Hv as [y vs Hvs]; subst. inversion Hw as [y ws Hws]; subst. f_equal.
  assert (Hsub : forall d, In d (deps p x) -> d < x /\ In d all) by (intros; now apply Hd).
  clear Hv Hw. revert vs ws Hvs Hws. induction (deps p x) as [|d l IHl]; intros vs ws Hvs Hws.
  - inversion Hvs; inversion Hws; subst. reflexivity.
  - inversion Hvs; inversion Hws; subst. f_equal.
    + eapply (IH d); eauto; apply Hsub; now left.
    + apply IHl; auto. intros d' Hd'. apply Hsub. now right.
Qed.

End Proofs.

Section Main.
Context {V : Type}.

Lemma fwd_no_infinite (p : @program V) cap builders : buildable p builders -> 1 <= cap ->
  forall f, f 0 = fstart builders -> (forall i, fstep p cap (f i) (f (S i))) -> False.
Proof. intros Hb Hc f. now apply (no_infinite p cap builders). Qed.

Lemma fwd_safe (p : @program V) cap builders c : buildable p builders -> 1 <= cap ->
  fsteps p cap (fstart builders) c ->
  fpanic c = false /\ (forall x v, fval c x = Some v -> evaluates p x v) /\ ftok c <= cap.
Proof.
  intros Hb Hc Hs. pose proof (inv_reach p cap builders Hb Hc c Hs) as I.
  split; [apply I|]. split; apply I.
Qed.

Lemma fwd_complete (p : @program V) cap builders c : buildable p builders -> 1 <= cap ->
  fsteps p cap (fstart builders) c -> (forall c', ~ fstep p cap c c') ->
  Forall (fun l => l = []) (ftodo c) /\
  forall x, In x (concat builders) ->
    exists v, fval c x = Some v /\ evaluates p x v /\ (asy p x = true -> fclosed c x = true) /\
      (forall w, evaluates p x w -> w = v).
Proof.
  intros Hb Hc Hs Hn. pose proof (inv_reach p cap builders Hb Hc c Hs) as I.
  destruct (progress p cap builders Hb Hc c I) as [[H1 H2]|(c' & H)]; [|elim (Hn c' H)].
  split; [assumption|]. intros x Hx. specialize (H1 x Hx).
  assert (Hv : fval c x <> None) by (apply (i_stored _ _ _ _ I); now rewrite H1).
  destruct (fval c x) as [v|] eqn:Ev; [|congruence]. exists v. split; [reflexivity|].
  pose proof (i_val _ _ _ _ I x v Ev) as He.
  split; [assumption|]. split.
  - intros Ha. rewrite (i_closed _ _ _ _ I), Ha, H1. reflexivity.
  - intros w Hw. eapply (evaluates_fun p builders); eauto. apply Hb.
Qed.

End Main.

(** Two builders sharing operators, one slot. *)
Definition demo : @program nat :=
  mkProgram (fun x => match x with 2 => [0;1] | 3 => [0] | 4 => [2;3;2] | _ => [] end)
            (fun x vs => match vs with [] => 10 + x | _ => list_sum vs + x end)
            (fun x => negb (Nat.eqb x 3)).
Definition demo_builders : list (list nat) := [[0;2;4];[1;3]].

Lemma demo_buildable : buildable demo demo_builders.
Proof.
  split; [|split].
  - cbn. repeat constructor; cbn; intuition lia.
  - repeat constructor; cbn; intuition lia.
  - cbn. intros x d [<-|[<-|[<-|[<-|[<-|[]]]]]]; cbn; intuition lia.
Qed.

Lemma demo_value : evaluates demo 4 63.
Proof.
  assert (E0 : evaluates demo 0 10) by (apply (ev demo 0 []); constructor).
  assert (E1 : evaluates demo 1 11) by (apply (ev demo 1 []); constructor).
  assert (E2 : evaluates demo 2 23) by (apply (ev demo 2 [10;11]); repeat constructor; assumption).
  assert (E3 : evaluates demo 3 13) by (apply (ev demo 3 [10]); repeat constructor; assumption).
  apply (ev demo 4 [23;13;23]). repeat constructor; assumption.
Qed.
