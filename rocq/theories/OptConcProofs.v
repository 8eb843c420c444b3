(** * Proofs about Optimizer.Optimize *)
From Coq Require Import List Arith Bool Lia.
From Verif Require Import OptConcModel OptConcSpec.
Import ListNotations.

Definition count (n : nat) (f : nat -> bool) : nat := length (filter f (seq 0 n)).
Lemma count_S n f : count (S n) f = count n f + (if f n then 1 else 0).
Proof. unfold count. rewrite seq_S, filter_app, app_length. cbn. destruct (f n); reflexivity. Qed.
Lemma count_ext n f g : (forall k, k < n -> f k = g k) -> count n f = count n g.
Proof. intros H. induction n as [|n IH]; [reflexivity|]. rewrite !count_S, IH, H by auto. reflexivity. Qed.
Lemma count_upd n (P : wpc -> bool) ws i w : i < n ->
  count n (fun k => P (upd ws i w k)) + (if P (ws i) then 1 else 0) = count n (fun k => P (ws k)) + (if P w then 1 else 0).
Proof.
  induction n as [|n IH]; [lia|]. intros Hi. rewrite !count_S. destruct (Nat.eq_dec i n) as [->|Hn].
  - rewrite (count_ext n (fun k => P (upd ws n w k)) (fun k => P (ws k))) by (intros k Hk; unfold upd; destruct (Nat.eqb_spec k n); [lia|reflexivity]).
    unfold upd at 1. rewrite Nat.eqb_refl. lia.
  - specialize (IH ltac:(lia)). unfold upd at 2. destruct (Nat.eqb_spec n i); [lia|]. lia.
Qed.
Lemma count_0 n f : count n f = 0 -> forall k, k < n -> f k = false.
Proof.
  induction n as [|n IH]; intros H k Hk; [lia|]. rewrite count_S in H. destruct (f n) eqn:E; [lia|]. destruct (Nat.eq_dec k n) as [->|]; [auto|]. apply IH; lia.
Qed.
Lemma count_some n f : 0 < count n f -> exists k, k < n /\ f k = true.
Proof.
  induction n as [|n IH]; [cbn; lia|]. rewrite count_S. destruct (f n) eqn:E; [eauto|]. intros H. destruct IH as (k & Hk & Ek); [lia|]. eauto.
Qed.

(** holds an element of guard / counted by the wait group *)
Definition holds (w : wpc) : bool := match w with Start | Updating | Sending _ | Releasing => true | _ => false end.
Definition live (w : wpc) : bool := match w with Idle | Ended => false | _ => true end.
Definition main_holds (m : mpc) : nat := match m with MSpawn _ => 1 | _ => 0 end.
Definition main_live (m : mpc) : nat := match m with MAcquire _ | MSpawn _ => 1 | _ => 0 end.
Definition made (cf : config) (w : wpc) (i : nat) : nat :=
  match w with Idle | Start | Updating => 0 | Sending _ => 1 | _ => if cf_grad cf i then 1 else 0 end.
Definition genuine (cf : config) (e : nat) : Prop := exists i, i < cf_params cf /\ cf_grad cf i = true /\ cf_strategy cf i = Some e.
Definition reporting (m : mpc) : Prop := (exists e, m = MWait e) \/ exists e, m = MRet (Some e).

Record inv (cf : config) (s : state) : Prop := mkInv {
  i_next : s_next s <= cf_params cf;
  i_started : forall i, s_ws s i <> Idle -> i < s_next s;
  i_main : match s_main s with
    | MSelect i | MAcquire i | MSpawn i => S i = s_next s /\ s_ws s i = Idle /\ forall j, j < i -> s_ws s j <> Idle
    | MRecv => forall j, j < s_next s -> s_ws s j <> Idle
    | MClose | MDrain | MRet None => s_next s = cf_params cf /\ forall j, j < s_next s -> s_ws s j <> Idle
    | MWait e | MRet (Some e) => genuine cf e
    end;
  i_guard : s_guard s = count (cf_params cf) (fun k => holds (s_ws s k)) + main_holds (s_main s);
  i_cap : s_guard s <= cf_cap cf;
  i_wg : s_wg s = count (cf_params cf) (fun k => live (s_ws s k)) + main_live (s_main s);
  i_made : forall i, s_updates s i = made cf (s_ws s i) i;
  i_grad : forall i, s_ws s i = Updating -> cf_grad cf i = true;
  i_send : forall i e, s_ws s i = Sending e -> cf_grad cf i = true /\ cf_strategy cf i = Some e;
  i_err : forall e, s_err s = Some e -> genuine cf e;
  i_closed : s_closed s = true -> s_main s = MDrain \/ exists r, s_main s = MRet r;
  i_open : (s_main s = MDrain \/ s_main s = MRet None) -> s_closed s = true;
  i_panic : s_panic s = true -> s_closed s = true;
  i_waited : forall e, s_main s = MRet (Some e) -> s_closed s = false -> s_wg s = 0;
  i_noted : forall i e, cf_grad cf i = true -> cf_strategy cf i = Some e -> (s_ws s i = Releasing \/ s_ws s i = Finishing \/ s_ws s i = Ended) ->
     s_err s <> None \/ reporting (s_main s);
  i_nil : s_main s = MRet None -> s_err s = None
}.

Lemma inv_init cf : inv cf init.
Proof.
  constructor; cbn; try congruence; try lia; try (intros; discriminate).
  - assert (E : forall n, count n (fun _ => false) = 0) by (induction n as [|n IH]; [reflexivity|]; now rewrite count_S, IH). now rewrite E.
  - assert (E : forall n, count n (fun _ => false) = 0) by (induction n as [|n IH]; [reflexivity|]; now rewrite count_S, IH). now rewrite E.
  - intros [H|H]; discriminate.
  - intros i e _ _ [H|[H|H]]; discriminate.
Qed.

Lemma upd_same {A} (f : nat -> A) i v : upd f i v i = v. Proof. unfold upd. now rewrite Nat.eqb_refl. Qed.
Lemma upd_other {A} (f : nat -> A) i v k : k <> i -> upd f i v k = f k. Proof. unfold upd. intros H. destruct (Nat.eqb_spec k i); [contradiction|reflexivity]. Qed.

Ltac msteps := cbn [s_main s_next s_ws s_updates s_guard s_wg s_err s_closed s_panic at_main at_worker set_err set_wg set_guard set_next did_update set_closed set_panic] in *.

Lemma inv_main cf s s' : inv cf s -> s_panic s = false -> main_step cf s s' -> inv cf s'.
Proof.
  intros I P St. destruct I. destruct St as [Hm Hn|Hm Hn|i e Hm He|i Hm He|i Hm Hg|i Hm|e Hm Hw|Hm|Hm]; rewrite Hm in *; msteps.
  - constructor; msteps; auto; try lia; try congruence; try (intros [?|?]; discriminate).
    + intros i Hi. specialize (i_started0 i Hi). lia.
    + split; [reflexivity|]. split; [|auto]. destruct (s_ws s (s_next s)) eqn:E; auto; exfalso; assert (s_next s < s_next s) by (apply i_started0; congruence); lia.
    + intros Hc. destruct (i_closed0 Hc) as [?|(r & ?)]; discriminate.
    + intros i e H1 H2 H3. destruct (i_noted0 i e H1 H2 H3) as [|[(? & ?)|(? & ?)]]; [auto|discriminate|discriminate].
  - constructor; msteps; auto; try lia; try congruence; try (intros [?|?]; discriminate).
    + intros Hc. destruct (i_closed0 Hc) as [?|(r & ?)]; discriminate.
    + intros i e H1 H2 H3. destruct (i_noted0 i e H1 H2 H3) as [|[(? & ?)|(? & ?)]]; [auto|discriminate|discriminate].
  - constructor; msteps; auto; try lia; try congruence; try (intros [?|?]; discriminate).
    + intros Hc. destruct (i_closed0 Hc) as [?|(r & ?)]; discriminate.
    + intros j e' H1 H2 H3. right. left. eauto.
  - constructor; msteps; auto; try lia; try congruence; try (intros [?|?]; discriminate).
    + cbn [main_live] in *. lia.
    + intros Hc. destruct (i_closed0 Hc) as [?|(r & ?)]; discriminate.
    + intros j e' H1 H2 H3. destruct (i_noted0 j e' H1 H2 H3) as [|[(? & ?)|(? & ?)]]; [auto|discriminate|discriminate].
  - constructor; msteps; auto; try lia; try congruence; try (intros [?|?]; discriminate).
    + cbn [main_holds] in *. lia.
    + intros Hc. destruct (i_closed0 Hc) as [?|(r & ?)]; discriminate.
    + intros j e' H1 H2 H3. destruct (i_noted0 j e' H1 H2 H3) as [|[(? & ?)|(? & ?)]]; [auto|discriminate|discriminate].
  - destruct i_main0 as (En & Ei & Hl). assert (Hi : i < cf_params cf) by lia.
    constructor; msteps; auto; try lia; try congruence; try (intros [?|?]; discriminate).
    + intros j. unfold upd. destruct (Nat.eqb_spec j i); [lia|apply i_started0].
    + intros j Hj. unfold upd. destruct (Nat.eqb_spec j i); [discriminate|apply Hl; lia].
    + pose proof (count_upd (cf_params cf) holds (s_ws s) i Start Hi) as C. rewrite Ei in C. cbn [holds main_holds] in *. lia.
    + pose proof (count_upd (cf_params cf) live (s_ws s) i Start Hi) as C. rewrite Ei in C. cbn [live main_live] in *. lia.
    + intros j. unfold upd. destruct (Nat.eqb_spec j i) as [->|]; [|apply i_made0]. rewrite i_made0, Ei. reflexivity.
    + intros j. unfold upd. destruct (Nat.eqb_spec j i); [discriminate|apply i_grad0].
    + intros j e. unfold upd. destruct (Nat.eqb_spec j i); [discriminate|apply i_send0].
    + intros Hc. destruct (i_closed0 Hc) as [?|(r & ?)]; discriminate.
    + intros j e H1 H2. unfold upd. destruct (Nat.eqb_spec j i); [intros [?|[?|?]]; discriminate|]. intros H3.
      destruct (i_noted0 j e H1 H2 H3) as [|[(? & ?)|(? & ?)]]; [auto|discriminate|discriminate].
  - constructor; msteps; auto; try lia; try congruence; try (intros [?|?]; discriminate).
    + intros Hc. right. eauto.
    + intros j e' H1 H2 H3. right. right. eauto.
  - constructor; msteps; auto; try lia; try congruence.
    + intros j e' H1 H2 H3. destruct (i_noted0 j e' H1 H2 H3) as [|[(? & ?)|(? & ?)]]; [auto|discriminate|discriminate].
  - destruct (s_err s) as [e|] eqn:Ee.
    + constructor; msteps; auto; try lia; try congruence; try (intros [?|?]; discriminate).
      * intros e0 H0. apply i_err0. congruence.
      * intros _. right. eauto.
      * intros e' _ Hc. rewrite (i_open0 (or_introl eq_refl)) in Hc. discriminate.
      * intros j e' H1 H2 H3. right. right. eauto.
    + constructor; msteps; auto; try lia; try congruence; try (intros [?|?]; discriminate).
      * intros _. right. eauto.
      * intros j e' H1 H2 H3. destruct (i_noted0 j e' H1 H2 H3) as [|[(? & ?)|(? & ?)]]; [congruence|discriminate|discriminate].
Qed.

(** the part of the invariant untouched by a move of worker i that was not idle and does not become so *)
Lemma main_kept cf s i w : s_ws s i <> Idle -> w <> Idle ->
  match s_main s with
    | MSelect i | MAcquire i | MSpawn i => S i = s_next s /\ s_ws s i = Idle /\ forall j, j < i -> s_ws s j <> Idle
    | MRecv => forall j, j < s_next s -> s_ws s j <> Idle
    | MClose | MDrain | MRet None => s_next s = cf_params cf /\ forall j, j < s_next s -> s_ws s j <> Idle
    | MWait e | MRet (Some e) => genuine cf e
    end ->
  match s_main s with
    | MSelect k | MAcquire k | MSpawn k => S k = s_next s /\ upd (s_ws s) i w k = Idle /\ forall j, j < k -> upd (s_ws s) i w j <> Idle
    | MRecv => forall j, j < s_next s -> upd (s_ws s) i w j <> Idle
    | MClose | MDrain | MRet None => s_next s = cf_params cf /\ forall j, j < s_next s -> upd (s_ws s) i w j <> Idle
    | MWait e | MRet (Some e) => genuine cf e
    end.
Proof.
  intros H1 H2. assert (U : forall j, s_ws s j <> Idle -> upd (s_ws s) i w j <> Idle) by (intros j Hj; unfold upd; destruct (Nat.eqb_spec j i); auto).
  assert (V : forall k, s_ws s k = Idle -> upd (s_ws s) i w k = Idle) by (intros k Hk; rewrite upd_other; [auto|congruence]).
  destruct (s_main s) as [|k|k|k|e| | |[e|]]; intros A; auto; try (destruct A as (A & B & C); repeat split; auto; fail); destruct A as (A & B); auto.
Qed.

Lemma inv_worker cf s i s' : inv cf s -> s_panic s = false -> worker_step cf s i s' -> inv cf s'.
Proof.
  intros I P St.
  assert (NI : s_ws s i <> Idle) by (inversion St; congruence).
  destruct I. assert (Hi : i < cf_params cf) by (specialize (i_started0 i NI); lia).
  pose proof (fun w => count_upd (cf_params cf) holds (s_ws s) i w Hi) as CH.
  pose proof (fun w => count_upd (cf_params cf) live (s_ws s) i w Hi) as CL.
  destruct St as [Hw Hg|Hw Hg|Hw Hs|e Hw Hs|e Hw Hc He|e e' Hw Hc He|e Hw Hc|Hw|Hw]; rewrite Hw in *.
  all: try (constructor; msteps; auto; [ .. ]).
  all: try (intros j; unfold upd; destruct (Nat.eqb_spec j i) as [->|]; [intros _; apply i_started0; congruence|apply i_started0]; fail).
  all: try (apply main_kept; congruence).
  all: try (match goal with |- s_guard _ = count _ (fun k => holds (upd _ _ ?w k)) + _ => specialize (CH w); cbn [holds] in CH; lia end).
  all: try (match goal with |- s_wg _ = count _ (fun k => live (upd _ _ ?w k)) + _ => specialize (CL w); cbn [live] in CL; lia end).
  all: try (intros j; unfold upd; destruct (Nat.eqb_spec j i) as [->|]; [|auto]; try discriminate; rewrite ?i_made0, ?Hw; cbn [made]; rewrite ?Hg; reflexivity).
  all: try (intros j e0; unfold upd; destruct (Nat.eqb_spec j i) as [->|]; [discriminate|auto]).
  all: try (intros j e0 G0 S0 H3; unfold upd in H3; destruct (Nat.eqb_spec j i) as [->|]; [|eauto]).
  all: try congruence.
  all: try (destruct H3 as [H3|[H3|H3]]; discriminate).
  all: try (eapply i_noted0; eauto; rewrite Hw; tauto).
  - intros j. unfold upd. destruct (Nat.eqb_spec j i) as [->|]; [|auto]. rewrite i_made0, Hw. cbn [made]. now rewrite (i_grad0 i Hw).
  - intros j e0. unfold upd. destruct (Nat.eqb_spec j i) as [->|]; [|auto]. intros E. injection E as <-. auto.
  - intros j. unfold upd. destruct (Nat.eqb_spec j i) as [->|]; [|auto]. rewrite i_made0, Hw. cbn [made]. now rewrite (proj1 (i_send0 i e Hw)).
  - intros e0 E. injection E as <-. exists i. split; [auto|]. now apply i_send0.
  - left. discriminate.
  - left. discriminate.
  - intros E. rewrite i_open0 in Hc by auto. discriminate.
  - intros j. unfold upd. destruct (Nat.eqb_spec j i) as [->|]; [|auto]. rewrite i_made0, Hw. cbn [made]. now rewrite (proj1 (i_send0 i e Hw)).
  - left. congruence.
  - specialize (CH Finishing). cbn [holds] in CH. lia.
  - lia.
  - specialize (CL Ended). cbn [live] in CL. lia.
  - intros e Hm Hc. rewrite (i_waited0 e Hm Hc). reflexivity.
Qed.

Lemma inv_step cf s s' : inv cf s -> step cf s s' -> inv cf s'.
Proof. intros I [t P St|i t P St]; [eapply inv_main|eapply inv_worker]; eauto. Qed.
Lemma reachable_inv cf s : reachable cf s -> inv cf s.
Proof. induction 1; [apply inv_init|eapply inv_step; eauto]. Qed.

(** ** What always holds *)
Lemma at_most_once cf s i : reachable cf s -> s_updates s i <= 1 /\ (s_updates s i = 1 -> i < cf_params cf /\ cf_grad cf i = true) /\
  (updating s i -> cf_grad cf i = true /\ s_updates s i = 0).
Proof.
  intros R. apply reachable_inv in R. destruct R. specialize (i_made0 i). unfold updating. rewrite i_made0. split; [|split].
  - unfold made. destruct (s_ws s i), (cf_grad cf i); lia.
  - intros H. split.
    + assert (s_ws s i <> Idle) by (intros E; rewrite E in H; discriminate). specialize (i_started0 i H0). lia.
    + unfold made in H. destruct (s_ws s i) eqn:E; try discriminate; try (destruct (cf_grad cf i); [reflexivity|discriminate]). now apply (i_send0 i e).
  - intros E. rewrite E. auto.
Qed.
Lemma bounded_workers cf s : reachable cf s -> forall l, NoDup l -> (forall i, In i l -> updating s i) -> length l <= cf_cap cf.
Proof.
  intros R l ND Hl. apply reachable_inv in R. destruct R. apply Nat.le_trans with (count (cf_params cf) (fun k => holds (s_ws s k))); [|lia].
  unfold count. apply NoDup_incl_length; [exact ND|]. intros i Hi. specialize (Hl i Hi). unfold updating in Hl. apply filter_In. split.
  - apply in_seq. specialize (i_started0 i ltac:(congruence)). lia.
  - now rewrite Hl.
Qed.
Lemma error_genuine cf s e : reachable cf s -> returned s (Some e) -> genuine cf e.
Proof. intros R E. apply reachable_inv in R. destruct R. unfold returned in E. rewrite E in i_main0. exact i_main0. Qed.
(** an error seen while parameters are still being handed out: Optimize waits for the goroutines *)
Lemma early_error_waits cf s e : reachable cf s -> returned s (Some e) -> s_closed s = false -> (forall i, ~ running s i) /\ s_panic s = false.
Proof.
  intros R E C. apply reachable_inv in R. destruct R. unfold returned in E. split.
  - intros i (N1 & N2). specialize (i_waited0 e E C). rewrite E in i_wg0. cbn [main_live] in i_wg0. assert (Hc : count (cf_params cf) (fun k => live (s_ws s k)) = 0) by lia.
    pose proof (count_0 _ _ Hc i) as H. specialize (i_started0 i N1). specialize (H ltac:(lia)). cbv beta in H. destruct (s_ws s i); try discriminate; contradiction.
  - destruct (s_panic s) eqn:Ep; [|reflexivity]. rewrite i_panic0 in C by auto. discriminate.
Qed.
Lemma panic_after_close cf s : reachable cf s -> s_panic s = true -> s_closed s = true.
Proof. intros R. apply reachable_inv in R. apply (i_panic _ _ R). Qed.

(** ** Termination *)
Definition wweight (w : wpc) : nat := match w with Idle => 6 | Start => 5 | Updating => 4 | Sending _ => 3 | Releasing => 2 | Finishing => 1 | Ended => 0 end.
Definition mweight (n next : nat) (m : mpc) : nat :=
  match m with MRecv => 4 * (n - next) + 3 | MSelect _ => 4 * (n - next) + 6 | MAcquire _ => 4 * (n - next) + 5 | MSpawn _ => 4 * (n - next) + 4
  | MWait _ => 1 | MClose => 2 | MDrain => 1 | MRet _ => 0 end.
Fixpoint total (n : nat) (ws : nat -> wpc) : nat := match n with O => 0 | S n => total n ws + wweight (ws n) end.
Definition measure (cf : config) (s : state) : nat :=
  mweight (cf_params cf) (s_next s) (s_main s) + total (cf_params cf) (s_ws s) + (if s_panic s then 0 else 1).
Lemma total_upd n ws i w : i < n -> total n (upd ws i w) + wweight (ws i) = total n ws + wweight w.
Proof.
  assert (E : forall n, n <= i -> total n (upd ws i w) = total n ws).
  { clear n. induction n as [|n IH]; intros H; cbn; [reflexivity|]. rewrite IH by lia. rewrite upd_other by lia. reflexivity. }
  induction n as [|n IH]; [lia|]. intros Hi. cbn [total]. destruct (Nat.eq_dec i n) as [->|Hn].
  - rewrite E by lia. rewrite upd_same. lia.
  - specialize (IH ltac:(lia)). rewrite (upd_other ws i w n) by lia. lia.
Qed.
Lemma measure_step cf s s' : inv cf s -> step cf s s' -> measure cf s' < measure cf s.
Proof.
  intros I St. pose proof (i_next _ _ I) as Hn. pose proof (i_main _ _ I) as Hmain. destruct St as [t P St|i t P St]; unfold measure; rewrite P.
  - destruct St as [Hm Hx|Hm Hx|i e Hm He|i Hm He|i Hm Hg|i Hm|e Hm Hw|Hm|Hm]; rewrite Hm in *; msteps; rewrite P; cbn [mweight]; try lia.
    destruct Hmain as (En & Ei & _). pose proof (total_upd (cf_params cf) (s_ws s) i Start ltac:(lia)) as T. rewrite Ei in T. cbn [wweight] in T. lia.
  - assert (NI : s_ws s i <> Idle) by (inversion St; congruence). assert (Hi : i < cf_params cf) by (pose proof (i_started _ _ I i NI); lia).
    pose proof (fun w => total_upd (cf_params cf) (s_ws s) i w Hi) as T.
    destruct St as [Hw Hg|Hw Hg|Hw Hs|e Hw Hs|e Hw Hc He|e e' Hw Hc He|e Hw Hc|Hw|Hw]; rewrite Hw in *; msteps; rewrite ?P; try lia.
    all: match goal with |- context [total _ (upd _ _ ?w)] => specialize (T w); cbn [wweight] in T; lia end.
Qed.
Lemma steps_reachable cf n s : steps cf n s -> reachable cf s.
Proof. induction 1; [constructor|econstructor; eauto]. Qed.
Lemma terminates cf n s : steps cf n s -> n <= measure cf init.
Proof.
  assert (H : steps cf n s -> n + measure cf s <= measure cf init).
  { induction 1 as [|n s s' Hs IH St]; [lia|]. pose proof (measure_step cf s s' (reachable_inv cf s (steps_reachable cf n s Hs)) St). lia. }
  intros Hs. specialize (H Hs). lia.
Qed.
Lemma progress cf s : 0 < cf_cap cf -> reachable cf s -> (forall s', ~ step cf s s') -> s_panic s = true \/ ((exists r, returned s r) /\ forall i, ~ running s i).
Proof.
  intros Hcap R NS. apply reachable_inv in R. destruct (s_panic s) eqn:P; [auto|]. right.
  assert (W : forall i, ~ running s i).
  { intros i (N1 & N2). destruct (s_ws s i) eqn:E; try contradiction.
    - destruct (cf_grad cf i) eqn:G; eapply NS; apply (step_worker cf s i _ P); [apply w_grad|apply w_no_grad]; auto.
    - destruct (cf_strategy cf i) as [e|] eqn:G; eapply NS; apply (step_worker cf s i _ P); [eapply w_failed|apply w_updated]; eauto.
    - destruct (s_closed s) eqn:C; [eapply NS; apply (step_worker cf s i _ P); eapply w_crash; eauto|].
      destruct (s_err s) as [e'|] eqn:G; eapply NS; apply (step_worker cf s i _ P); [eapply w_full|eapply w_send]; eauto.
    - eapply NS; apply (step_worker cf s i _ P), w_release; auto.
    - eapply NS; apply (step_worker cf s i _ P), w_done; auto. }
  split; [|exact W]. destruct R. unfold returned.
  assert (L0 : forall f, (forall w, f w = true -> w <> Idle /\ w <> Ended) -> count (cf_params cf) (fun k => f (s_ws s k)) = 0).
  { intros f Hf. destruct (count (cf_params cf) (fun k => f (s_ws s k))) eqn:E; [reflexivity|]. destruct (count_some (cf_params cf) (fun k => f (s_ws s k))) as (k & Hk & Ek); [lia|].
    exfalso. apply (W k). exact (Hf _ Ek). }
  pose proof (L0 holds ltac:(intros []; cbn; intros; split; congruence)) as LH. pose proof (L0 live ltac:(intros []; cbn; intros; split; congruence)) as LL.
  destruct (s_main s) as [|i|i|i|e| | |r] eqn:M; eauto; exfalso.
  - destruct (Nat.eq_dec (s_next s) (cf_params cf)); eapply NS; apply (step_main cf s _ P); [apply m_over|apply m_recv]; auto; lia.
  - destruct (s_err s) eqn:E; eapply NS; apply (step_main cf s _ P); [eapply m_error|eapply m_default]; eauto.
  - eapply NS; apply (step_main cf s _ P); eapply m_acquire; eauto. cbn [main_holds] in i_guard0. lia.
  - eapply NS; apply (step_main cf s _ P); eapply m_spawn; eauto.
  - eapply NS; apply (step_main cf s _ P); eapply m_wait; eauto. cbn [main_live] in i_wg0. lia.
  - eapply NS; apply (step_main cf s _ P); eapply m_close; eauto.
  - eapply NS; apply (step_main cf s _ P); eapply m_drain; eauto.
Qed.

(** ** When the goroutines are finished in time *)
Lemma late_reachable cf s : reachable_late_close cf s -> reachable cf s.
Proof. induction 1; [constructor|econstructor; eauto]. Qed.
Lemma late_inv cf s : reachable_late_close cf s -> s_panic s = false /\ (s_closed s = true -> forall i, ~ running s i).
Proof.
  induction 1 as [|s s' R (IP & IC) St Hl]; [split; [reflexivity|discriminate]|].
  pose proof (reachable_inv _ _ (late_reachable _ _ R)) as I.
  assert (K : s_closed s = true -> forall i t, ~ worker_step cf s i t).
  { intros C i t W. apply (IC C i). inversion W; unfold running; rewrite H; split; discriminate. }
  destruct St as [t P St|i t P St].
  - split; [destruct St; exact P|]. intros C'.
    assert (Hr : forall i, ~ running s i) by (destruct (s_closed s) eqn:C; [now apply IC|now apply Hl]).
    intros i Hi. destruct St as [Hm Hx|Hm Hx|k e Hm He|k Hm He|k Hm Hg|k Hm|e Hm Hw|Hm|Hm]; try (exact (Hr i Hi)).
    cbn in C'. destruct (i_closed _ _ I C') as [E|(r & E)]; congruence.
  - destruct (s_closed s) eqn:C; [exfalso; exact (K eq_refl i t St)|]. split; [inversion St; try exact P; congruence|].
    intros C'. exfalso. inversion St; subst; cbn in C'; congruence.
Qed.
Lemma late_nil cf s : reachable_late_close cf s -> returned s None ->
  (forall i, i < cf_params cf -> s_updates s i = (if cf_grad cf i then 1 else 0)) /\ (forall i, ~ running s i) /\
  (forall i, i < cf_params cf -> cf_grad cf i = true -> cf_strategy cf i = None).
Proof.
  intros R E. destruct (late_inv cf s R) as (P & C). pose proof (reachable_inv _ _ (late_reachable _ _ R)) as I. destruct I. unfold returned in E.
  specialize (C (i_open0 (or_intror E))). rewrite E in i_main0. destruct i_main0 as (En & Hall).
  assert (HE : forall i, i < cf_params cf -> s_ws s i = Ended).
  { intros i Hi. specialize (Hall i ltac:(lia)). specialize (C i). unfold running in C. destruct (s_ws s i); try reflexivity; exfalso; try (apply C; split; discriminate). now apply Hall. }
  split; [|split; [exact C|]].
  - intros i Hi. rewrite i_made0, HE by auto. reflexivity.
  - intros i Hi G. destruct (cf_strategy cf i) as [e|] eqn:Hs; [|reflexivity]. exfalso.
    destruct (i_noted0 i e G Hs) as [Hn|[(e' & Hn)|(e' & Hn)]]; [rewrite HE; auto| |congruence|congruence].
    apply Hn. now apply i_nil0.
Qed.
Lemma late_error cf s i e : reachable_late_close cf s -> i < cf_params cf -> cf_grad cf i = true -> cf_strategy cf i = Some e -> forall r, returned s r ->
  exists e', r = Some e' /\ genuine cf e'.
Proof.
  intros R Hi G Hs r Hr. destruct r as [e'|].
  - exists e'. split; [reflexivity|]. eapply error_genuine; eauto using late_reachable.
  - destruct (late_nil cf s R Hr) as (_ & _ & H). rewrite (H i Hi G) in Hs. discriminate.
Qed.

(** ** Schedules that break the promise *)
(** the main goroutine runs to the end before the goroutine of the only parameter has moved *)
Definition hasty (w : wpc) (closed : bool) (m : mpc) : state := mkState m 1 (upd (fun _ => Idle) 0 w) (fun _ => 0) 1 1 None closed false.
Lemma hasty_drain cf : cf_params cf = 1 -> 0 < cf_cap cf -> reachable cf (hasty Start true MDrain).
Proof.
  intros N C. eapply reach_step; [eapply reach_step; [eapply reach_step; [eapply reach_step; [eapply reach_step; [eapply reach_step; [apply reach_init|]|]|]|]|]|].
  - apply step_main; [reflexivity|]. apply m_recv; [reflexivity|cbn; lia].
  - apply step_main; [reflexivity|]. apply (m_default cf _ 0); reflexivity.
  - apply step_main; [reflexivity|]. apply (m_acquire cf _ 0); [reflexivity|cbn; lia].
  - apply step_main; [reflexivity|]. apply (m_spawn cf _ 0); reflexivity.
  - apply step_main; [reflexivity|]. apply m_over; [reflexivity|cbn; lia].
  - apply step_main; [reflexivity|]. apply m_close; reflexivity.
Qed.
Lemma hasty_return cf : cf_params cf = 1 -> 0 < cf_cap cf -> reachable cf (hasty Start true (MRet None)).
Proof. intros N C. eapply reach_step; [now apply hasty_drain|]. apply step_main; [reflexivity|]. apply m_drain. reflexivity. Qed.
Lemma nil_while_updating cf : cf_params cf = 1 -> 0 < cf_cap cf -> cf_grad cf 0 = true ->
  exists s, reachable cf s /\ returned s None /\ updating s 0 /\ s_updates s 0 = 0.
Proof.
  intros N C G. eexists. split; [eapply reach_step; [now apply hasty_return|]|].
  - apply (step_worker cf _ 0); [reflexivity|]. apply w_grad; [reflexivity|exact G].
  - split; [reflexivity|]. split; reflexivity.
Qed.
Lemma crash_after_return cf e : cf_params cf = 1 -> 0 < cf_cap cf -> cf_grad cf 0 = true -> cf_strategy cf 0 = Some e ->
  exists s, reachable cf s /\ returned s None /\ s_updates s 0 = 1 /\ s_panic s = true.
Proof.
  intros N C G E. eexists. split; [eapply reach_step; [eapply reach_step; [eapply reach_step; [now apply hasty_return|]|]|]|].
  - apply (step_worker cf _ 0); [reflexivity|]. apply w_grad; [reflexivity|exact G].
  - apply (step_worker cf _ 0); [reflexivity|]. apply (w_failed cf _ 0 e); [reflexivity|exact E].
  - apply (step_worker cf _ 0); [reflexivity|]. apply (w_crash cf _ 0 e); reflexivity.
  - repeat split.
Qed.
(** the goroutine is stopped at its send while Optimize reads the closed channel: nil is returned although the strategy has failed before *)
Lemma error_lost cf e : cf_params cf = 1 -> 0 < cf_cap cf -> cf_grad cf 0 = true -> cf_strategy cf 0 = Some e ->
  exists s s', reachable cf s /\ s_updates s 0 = 1 /\ s_ws s 0 = Sending e /\ step cf s s' /\ returned s' None.
Proof.
  intros N C G E. eexists. eexists. split; [eapply reach_step; [eapply reach_step; [now apply hasty_drain|]|]|].
  - apply (step_worker cf _ 0); [reflexivity|]. apply w_grad; [reflexivity|exact G].
  - apply (step_worker cf _ 0); [reflexivity|]. apply (w_failed cf _ 0 e); [reflexivity|exact E].
  - split; [reflexivity|]. split; [reflexivity|]. split; [|]. apply step_main; [reflexivity|]. apply m_drain. reflexivity. reflexivity.
Qed.

(** ** A run in which everything is in time *)
Lemma in_time cf : cf_params cf = 1 -> 0 < cf_cap cf -> cf_grad cf 0 = true ->
  exists s, reachable_late_close cf s /\ returned s (cf_strategy cf 0) /\ s_updates s 0 = 1.
Proof.
  intros N C G.
  assert (S1 : reachable_late_close cf (mkState MRecv 1 (upd (upd (fun _ => Idle) 0 Start) 0 Updating) (fun _ => 0) 1 1 None false false)).
  { eapply late_step; [eapply late_step; [eapply late_step; [eapply late_step; [eapply late_step; [apply late_init| |]| |]| |]| |]| |].
    - apply step_main; [reflexivity|]. apply m_recv; [reflexivity|cbn; lia].
    - discriminate.
    - apply step_main; [reflexivity|]. apply (m_default cf _ 0); reflexivity.
    - discriminate.
    - apply step_main; [reflexivity|]. apply (m_acquire cf _ 0); [reflexivity|cbn; lia].
    - discriminate.
    - apply step_main; [reflexivity|]. apply (m_spawn cf _ 0); reflexivity.
    - discriminate.
    - apply (step_worker cf _ 0); [reflexivity|]. apply w_grad; [reflexivity|exact G].
    - discriminate. }
  destruct (cf_strategy cf 0) as [e|] eqn:E.
  - eexists. split; [eapply late_step; [eapply late_step; [eapply late_step; [eapply late_step; [eapply late_step; [eapply late_step; [eapply late_step; [exact S1| |]| |]| |]| |]| |]| |]| |]|].
    + apply (step_worker cf _ 0); [reflexivity|]. apply (w_failed cf _ 0 e); [reflexivity|exact E].
    + discriminate.
    + apply (step_worker cf _ 0); [reflexivity|]. apply (w_send cf _ 0 e); reflexivity.
    + discriminate.
    + apply (step_worker cf _ 0); [reflexivity|]. apply w_release; reflexivity.
    + discriminate.
    + apply (step_worker cf _ 0); [reflexivity|]. apply w_done; reflexivity.
    + discriminate.
    + apply step_main; [reflexivity|]. apply m_over; [reflexivity|cbn; lia].
    + discriminate.
    + apply step_main; [reflexivity|]. apply m_close; reflexivity.
    + intros _ _ i. unfold running. msteps. unfold upd. destruct (i =? 0); intros (H & H'); congruence.
    + apply step_main; [reflexivity|]. apply m_drain; reflexivity.
    + discriminate.
    + split; reflexivity.
  - eexists. split; [eapply late_step; [eapply late_step; [eapply late_step; [eapply late_step; [eapply late_step; [eapply late_step; [exact S1| |]| |]| |]| |]| |]| |]|].
    + apply (step_worker cf _ 0); [reflexivity|]. apply w_updated; [reflexivity|exact E].
    + discriminate.
    + apply (step_worker cf _ 0); [reflexivity|]. apply w_release; reflexivity.
    + discriminate.
    + apply (step_worker cf _ 0); [reflexivity|]. apply w_done; reflexivity.
    + discriminate.
    + apply step_main; [reflexivity|]. apply m_over; [reflexivity|cbn; lia].
    + discriminate.
    + apply step_main; [reflexivity|]. apply m_close; reflexivity.
    + intros _ _ i. unfold running. msteps. unfold upd. destruct (i =? 0); intros (H & H'); congruence.
    + apply step_main; [reflexivity|]. apply m_drain; reflexivity.
    + discriminate.
    + split; reflexivity.
Qed.
