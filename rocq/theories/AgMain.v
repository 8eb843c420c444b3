(** * Backward: main lemmas, as used by the property files *)
From Coq Require Import List Arith ZArith Bool Lia Permutation.
From Verif Require Import AgModel AgSpec AgLemmas AgSeq AgConc AgErase AgProofs.
Import ListNotations.

Section Main.
Context {G : Type}.
Variable gadd : G -> G -> G.
Variable gone : G.
Notation graph := (@graph G).
Notation mem := (@mem G).
Notation backward := (backward gadd gone).
Notation backward_seq := (backward_seq gadd gone).

Lemma dutiful_frugal (g : graph) : dutiful g -> frugal g.
Proof. intros H x t Ho Hr. rewrite (H x t Ho Hr). lia. Qed.

Lemma zero_nonneg : forall x : nat, (0 <= (fun _ : nat => 0) x)%Z.
Proof. intros; lia. Qed.

(** The call is an early return, an error, or starts phase 3. *)
Lemma outcome (g : graph) m xs : acyclic g -> ready g m ->
  (~ (exists x, In x xs /\ is_oper g x = true) /\ backward_seq g m xs = SReturn m) \/
  ((exists x, lacks_gradient g m xs x) /\ exists m', backward_seq g m xs = SError m') \/
  ((exists x, In x xs /\ is_oper g x = true) /\ (~ exists x, lacks_gradient g m xs x) /\
     exists c, backward_seq g m xs = SConc c).
Proof.
  intros Ha Hr. destruct (seq_cases gadd gone g Ha m xs Hr) as [[H1 H2]|[(H1 & H2 & m' & d & r & H3 & _)|(H1 & H2 & mP & H3 & _)]].
  - left. split; [|assumption]. intros (x & Hx). apply ops_In in Hx. rewrite H1 in Hx. destruct Hx.
  - right; left. eauto.
  - right; right. split; [|eauto]. destruct (filter_operators g xs) as [|x l] eqn:E; [congruence|].
    exists x. apply ops_In. rewrite E. now left.
Qed.

Lemma conc_start (g : graph) m xs c : acyclic g -> ready g m -> backward_seq g m xs = SConc c ->
  exists mP, c = start mP (filter_operators g xs) /\
    AInv gadd gone g m (filter_operators g xs) (filter_operators g xs) [] mP.
Proof.
  intros Ha Hr Hc. destruct (seq_cases gadd gone g Ha m xs Hr) as [[H1 H2]|[(H1 & H2 & m' & d & r & H3 & _)|(H1 & H2 & mP & H3 & H4)]]; try congruence.
  exists mP. split; [congruence|assumption].
Qed.

(** ** Termination *)
Lemma never_stuck (g : graph) m xs c : well_formed g -> ready g m -> backward_seq g m xs = SConc c ->
  forall c', steps gadd g c c' -> cpanic c' = false /\ (cret c' = false -> exists c'', step gadd g c' c'').
Proof.
  intros (Ha & Hs & Hd) Hr Hc c' Hst. destruct (conc_start g m xs c Ha Hr Hc) as (mP & -> & HA).
  pose proof (ainv_sinv _ _ _ _ _ _ HA) as HS.
  pose proof (U_reach gadd gone g Ha xs Hs (dutiful_frugal g Hd) mP _ zero_nonneg HS c' Hst) as HU.
  split.
  - eapply U_panic; eauto.
  - intros Hret. apply (U_progress gadd g Ha xs Hs mP (fun _ => 0%Z) HS c' (fun _ => eq_refl) Hd HU Hret).
Qed.

Lemma no_infinite_run (g : graph) m xs c : acyclic g -> sends_to_operands g -> frugal g -> ready g m ->
  backward_seq g m xs = SConc c ->
  forall f, f 0 = c -> (forall i, step gadd g (f i) (f (S i))) -> False.
Proof.
  intros Ha Hs Hf Hr Hc f Hf0 Hfs. destruct (conc_start g m xs c Ha Hr Hc) as (mP & -> & HA).
  pose proof (ainv_sinv _ _ _ _ _ _ HA) as HS.
  apply (sim_run gadd g Ha xs Hs Hf mP _ zero_nonneg HS f); [|assumption].
  rewrite Hf0. now apply U_start.
Qed.

Lemma steps_trans (g : graph) a b c : steps gadd g a b -> steps gadd g b c -> steps gadd g a c.
Proof. intros H1 H2. induction H2 as [|c1 c2 H IH Hs]; [assumption|econstructor; eassumption]. Qed.

(** ** The final state *)
Lemma backward_cases (g : graph) m xs m' : acyclic g -> ready g m -> backward g m xs m' ->
  (m' = m /\ ~ exists x, In x xs /\ is_oper g x = true) \/
  (exists mP c, AInv gadd gone g m (filter_operators g xs) (filter_operators g xs) [] mP /\
      backward_seq g m xs = SConc (start mP (filter_operators g xs)) /\
      steps gadd g (start mP (filter_operators g xs)) c /\ cret c = true /\ m' = cmem c).
Proof.
  intros Ha Hr Hb. destruct Hb as [H|c c' H1 H2 H3].
  - left. split; [reflexivity|].
    destruct (outcome g m xs Ha Hr) as [[H1 _]|[(_ & m' & H1)|(_ & _ & c & H1)]]; [assumption|congruence|congruence].
  - right. destruct (conc_start g m xs c Ha Hr H1) as (mP & -> & HA). exists mP, c'. auto.
Qed.

Lemma ready_after (g : graph) m xs m' : well_formed g -> ready g m -> backward g m xs m' -> ready g m'.
Proof.
  intros (Ha & Hs & Hd) Hr Hb.
  destruct (backward_cases g m xs m' Ha Hr Hb) as [[-> _]|(mP & c & HA & _ & Hst & Hret & ->)]; [assumption|].
  exact (ret_ready gadd gone g Ha m xs Hs (dutiful_frugal g Hd) mP _ zero_nonneg (ainv_sinv _ _ _ _ _ _ HA) c Hst Hret HA).
Qed.

Lemma no_roots_reached (g : graph) xs y : (~ exists x, In x xs /\ is_oper g x = true) -> ~ reached g xs y.
Proof. intros H Hy. induction Hy; eauto. Qed.

Lemma added_acc l (o : option G) : added_in_order gadd o l = fold_left (acc gadd) l o.
Proof. unfold added_in_order. revert o. induction l as [|v l IH]; intros o; [reflexivity|]. cbn. rewrite IH. now destruct o. Qed.

Lemma grad_order (g : graph) m xs m' ys x : well_formed g -> ready g m -> backward g m xs m' ->
  lists_reached g xs ys ->
  exists order, Permutation order (gradients_received g m' ys x) /\
    grad (m' x) = added_in_order gadd (oadd gadd (grad (m x)) (seed gone g m xs x)) order.
Proof.
  intros (Ha & Hs & Hd) Hr Hb Hys.
  destruct (backward_cases g m xs m' Ha Hr Hb) as [[-> Hno]|(mP & c & HA & _ & Hst & Hret & ->)].
  - exists []. destruct Hys as [_ Hys]. split.
    + destruct ys as [|y ys]; [constructor|]. elim (no_roots_reached g xs y Hno). apply Hys. now left.
    + cbn. unfold seed. destruct (grad (m x)) eqn:E; [reflexivity|]. cbn.
      destruct (is_oper g x) eqn:Eo; [|now rewrite andb_false_r].
      destruct (existsb (Nat.eqb x) xs) eqn:Ex; [|reflexivity].
      apply existsb_exists in Ex. destruct Ex as (y & Hy & Hxy). apply Nat.eqb_eq in Hxy. subst y.
      elim Hno. eauto.
  - destruct (ret_grad gadd gone g Ha m xs Hs (dutiful_frugal g Hd) mP _ zero_nonneg (ainv_sinv _ _ _ _ _ _ HA) c Hst Hret HA x ys Hys)
      as (order & H1 & H2).
    exists order. rewrite added_acc. auto.
Qed.

Lemma called_once (g : graph) m xs c c' : well_formed g -> ready g m -> backward_seq g m xs = SConc c ->
  steps gadd g c c' -> cret c' = true ->
  NoDup (map fst (clog c')) /\ (forall y, In y (map fst (clog c')) <-> reached g xs y) /\
  (forall y v, In (y, v) (clog c') -> grad (cmem c' y) = Some v).
Proof.
  intros (Ha & Hs & Hd) Hr Hc Hst Hret. destruct (conc_start g m xs c Ha Hr Hc) as (mP & -> & HA).
  pose proof (ainv_sinv _ _ _ _ _ _ HA) as HS.
  destruct (ret_log gadd gone g Ha xs Hs (dutiful_frugal g Hd) mP _ zero_nonneg HS c' Hst Hret) as [H1 H2].
  split; [assumption|]. split; [assumption|].
  exact (LogOk_reach gadd gone g Ha xs Hs (dutiful_frugal g Hd) mP _ zero_nonneg HS c' Hst).
Qed.

(** ** With a commutative and associative addition *)
Section Comm.
Hypothesis gadd_comm : forall a b, gadd a b = gadd b a.
Hypothesis gadd_assoc : forall a b c, gadd a (gadd b c) = gadd (gadd a b) c.

Lemma added_osum l (o : option G) : added_in_order gadd o l = oadd gadd o (osum gadd (map Some l)).
Proof.
  unfold added_in_order. revert o. induction l as [|v l IH]; intros o; cbn [fold_left map].
  - cbn. now rewrite oadd_none_r.
  - rewrite IH. cbn [osum fold_right]. now rewrite (oadd_assoc gadd gadd_assoc).
Qed.

Lemma osum_received (g : graph) m ys x :
  osum gadd (map Some (gradients_received g m ys x)) =
  osum gadd (map (fun y => contribution gadd g y (grad (m y)) x) ys).
Proof.
  unfold gradients_received. induction ys as [|y ys IH]; [reflexivity|].
  cbn [flat_map map]. rewrite map_app, (osum_app gadd gadd_assoc), IH.
  cbn [osum fold_right]. f_equal. unfold contribution, gradients_sent.
  destruct (grad (m y)); [|reflexivity]. now rewrite map_map.
Qed.

Lemma grad_sum (g : graph) m xs m' ys x : well_formed g -> ready g m -> backward g m xs m' ->
  lists_reached g xs ys ->
  grad (m' x) = osum gadd (grad (m x) :: seed gone g m xs x ::
                  map (fun y => contribution gadd g y (grad (m' y)) x) ys).
Proof.
  intros Hw Hr Hb Hys. destruct (grad_order g m xs m' ys x Hw Hr Hb Hys) as (order & Hp & ->).
  rewrite added_osum. cbn [osum fold_right].
  rewrite <- (oadd_assoc gadd gadd_assoc). f_equal. f_equal.
  fold (osum gadd (map (fun y => contribution gadd g y (grad (m' y)) x) ys)).
  rewrite <- osum_received. apply (osum_perm gadd gadd_comm gadd_assoc). now apply Permutation_map.
Qed.

(** Reached operators can be listed. *)
Lemma reached_decidable (g : graph) xs : acyclic g -> forall x, {reached g xs x} + {~ reached g xs x}.
Proof.
  intros Ha x. remember (length g - x) as k eqn:Hk. revert x Hk.
  induction k as [k IH] using lt_wf_rec. intros x Hk.
  destruct (is_oper g x) eqn:Eo; [|right; intros H; destruct H; congruence].
  destruct (requires g x) eqn:Er.
  2:{ right. intros H. assert (leads_to_grad g x) by (destruct H; assumption).
      apply requires_spec in H0; [congruence|assumption]. }
  apply requires_spec in Er; [|assumption].
  destruct (in_dec Nat.eq_dec x xs) as [Hin|Hin]; [left; now apply reach_root|].
  pose proof (is_oper_lt g x Eo) as Hlt.
  assert (Hd : {y | In y (seq 0 (length g)) /\ In x (operands_of g y) /\ reached g xs y} +
               {forall y, In y (seq 0 (length g)) -> In x (operands_of g y) -> ~ reached g xs y}).
  { induction (seq 0 (length g)) as [|y l IHl]; [right; intros y []|].
    destruct IHl as [(z & H1 & H2 & H3)|Hn]; [left; exists z; split; [now right|auto]|].
    destruct (in_dec Nat.eq_dec x (operands_of g y)) as [Hy|Hy].
    - assert (x < y) by now apply Ha.
      destruct (IH (length g - y) ltac:(lia) y eq_refl) as [Hr|Hr].
      + left. exists y. split; [now left|auto].
      + right. intros z [<-|Hz]; auto.
    - right. intros z [<-|Hz]; auto. }
  destruct Hd as [(y & _ & Hy & Hr)|Hn].
  - left. eapply reach_operand; eauto.
  - right. intros H. inversion H as [x' H1|y x' H1 H2 H3 H4]; subst; [contradiction|].
    apply (Hn y); auto. apply in_seq. pose proof (is_oper_lt g y (operands_oper g y x H2)). lia.
Qed.

Lemma reached_listable (g : graph) xs : acyclic g -> exists ys, lists_reached g xs ys.
Proof.
  intros Ha. exists (filter (fun x => if reached_decidable g xs Ha x then true else false) (seq 0 (length g))).
  split; [apply NoDup_filter, seq_NoDup|]. intros y. rewrite filter_In, in_seq.
  destruct (reached_decidable g xs Ha y) as [Hy|Hy]; split; intros H; try tauto; try (destruct H; discriminate).
  split; [|reflexivity]. assert (is_oper g y = true) by (destruct Hy; assumption).
  apply is_oper_lt in H0. lia.
Qed.

Lemma contribution_above (g : graph) y gy x : acyclic g -> sends_to_operands g ->
  contribution gadd g y gy x <> None -> x < y.
Proof. intros Ha Hs H. exact (contribution_lt gadd g Ha Hs y gy x H). Qed.

Lemma schedule_independent (g : graph) m xs m1 m2 : well_formed g -> ready g m ->
  backward g m xs m1 -> backward g m xs m2 -> forall x, grad (m1 x) = grad (m2 x).
Proof.
  intros Hw Hr H1 H2. pose proof Hw as (Ha & Hs & Hd). destruct (reached_listable g xs Ha) as (ys & Hys).
  intros x. remember (length g - x) as k eqn:Hk. revert x Hk.
  induction k as [k IH] using lt_wf_ind. intros x Hk.
  rewrite (grad_sum g m xs m1 ys x Hw Hr H1 Hys), (grad_sum g m xs m2 ys x Hw Hr H2 Hys).
  f_equal. f_equal. f_equal. apply map_ext_in. intros y Hy.
  apply (contribution_congr gadd g Ha Hs). intros Hlt. apply (IH (length g - y)); [|reflexivity].
  apply Hys in Hy. assert (Ho : is_oper g y = true) by (destruct Hy; assumption).
  apply is_oper_lt in Ho. lia.
Qed.
End Comm.

(** ** Where gradients do not go *)
Lemma received_nil (g : graph) m' xs ys x : acyclic g -> sends_to_operands g ->
  (requires g x = false \/ forall y, reached g xs y -> ~ In x (operands_of g y)) ->
  (forall y, In y ys -> reached g xs y) -> gradients_received g m' ys x = [].
Proof.
  intros Ha Hs Hx Hys. unfold gradients_received. induction ys as [|y ys IH]; [reflexivity|].
  cbn [flat_map]. rewrite IH by (intros; apply Hys; now right). rewrite app_nil_r.
  destruct (grad (m' y)) as [v|]; [|reflexivity]. unfold gradients_sent.
  destruct (filter _ (sends_of g y)) as [|[t f] l] eqn:E; [reflexivity|]. exfalso.
  assert (Hin : In (t, f) (filter (fun p => Nat.eqb (fst p) x && requires g x) (sends_of g y))) by (rewrite E; now left).
  apply filter_In in Hin. destruct Hin as [Hin Hb]. cbn in Hb. apply andb_true_iff in Hb.
  destruct Hb as [Ht Hr]. apply Nat.eqb_eq in Ht. subst t. destruct Hx as [Hx|Hx]; [congruence|].
  apply (Hx y); [apply Hys; now left|]. apply Hs. apply in_map_iff. exists (x, f). auto.
Qed.

Lemma untouched (g : graph) m xs m' x : well_formed g -> ready g m -> backward g m xs m' ->
  ~ In x xs ->
  (requires g x = false \/ forall y, reached g xs y -> ~ In x (operands_of g y)) ->
  grad (m' x) = grad (m x).
Proof.
  intros Hw Hr Hb Hx Hn. pose proof Hw as (Ha & Hs & Hd).
  destruct (reached_listable g xs Ha) as (ys & Hys).
  destruct (grad_order g m xs m' ys x Hw Hr Hb Hys) as (order & Hp & ->).
  rewrite (received_nil g m' xs ys x Ha Hs Hn) in Hp by (intros; now apply Hys).
  apply Permutation_sym, Permutation_nil in Hp. subst order. cbn.
  unfold seed. destruct (grad (m x)) eqn:E; [reflexivity|].
  destruct (existsb (Nat.eqb x) xs) eqn:Ex; [|reflexivity].
  apply existsb_exists in Ex. destruct Ex as (y & Hy & Hxy). apply Nat.eqb_eq in Hxy. congruence.
Qed.

(** ** Missing gradients *)
Lemma error_iff (g : graph) m xs : acyclic g -> ready g m ->
  ((exists m', backward_seq g m xs = SError m') <-> exists x, lacks_gradient g m xs x).
Proof.
  intros Ha Hr. destruct (outcome g m xs Ha Hr) as [[H1 H2]|[(H1 & m' & H2)|(_ & H1 & c & H2)]].
  - split; [intros (m' & H); congruence|]. intros (x & Hx1 & Hx2 & _). elim H1. eauto.
  - split; eauto.
  - split; [intros (m' & H); congruence|]. intros H. contradiction.
Qed.

Lemma error_grads (g : graph) m xs m' : acyclic g -> ready g m -> backward_seq g m xs = SError m' ->
  exists before after, filter_operators g xs = before ++ after /\
    forall x, grad (m' x) = oadd gadd (grad (m x)) (seed gone g m before x).
Proof.
  intros Ha Hr H. destruct (seq_cases gadd gone g Ha m xs Hr) as [[H1 H2]|[(H1 & H2 & m1 & d & r & H3 & H4 & H5)|(H1 & H2 & mP & H3 & H4)]]; try congruence.
  exists d, r. split; [assumption|]. assert (m1 = m') by congruence. subst m1.
  apply (ai_grad _ _ _ _ _ _ _ _ H5).
Qed.

(** ** Under-sending backward functions hang the pass *)
Lemma undersending_hangs (g : graph) m xs c x y :
  acyclic g -> sends_to_operands g -> frugal g -> ready g m -> backward_seq g m xs = SConc c ->
  reached g xs x -> reached g xs y ->
  count_occ Nat.eq_dec (map fst (sends_of g y)) x < count_occ Nat.eq_dec (operands_of g y) x ->
  forall c', steps gadd g c c' -> cret c' = false.
Proof.
  intros Ha Hs Hf Hr Hc Hx Hy Hlt c' Hst. destruct (conc_start g m xs c Ha Hr Hc) as (mP & -> & HA).
  pose proof (ainv_sinv _ _ _ _ _ _ HA) as HS.
  apply (U_hang gadd gone g Ha xs Hf mP _ zero_nonneg HS c' x y); auto.
  now apply (U_reach gadd gone g Ha xs Hs Hf mP _ zero_nonneg HS c' Hst).
Qed.

(** ** Histories *)
Lemma nth_app_l (g : graph) nd x : x < length g -> nth_error (g ++ [nd]) x = nth_error g x.
Proof. intros H. now rewrite nth_error_app1. Qed.

Lemma is_oper_app (g : graph) nd x : x < length g -> is_oper (g ++ [nd]) x = is_oper g x.
Proof. intros H. unfold is_oper. now rewrite nth_app_l. Qed.
Lemma operands_app (g : graph) nd x : x < length g -> operands_of (g ++ [nd]) x = operands_of g x.
Proof. intros H. unfold operands_of. now rewrite nth_app_l. Qed.
Lemma sends_app (g : graph) nd x : x < length g -> sends_of (g ++ [nd]) x = sends_of g x.
Proof. intros H. unfold sends_of. now rewrite nth_app_l. Qed.
Lemma requires_app (g : graph) nd x : x < length g -> requires (g ++ [nd]) x = requires g x.
Proof.
  intros H. unfold requires, req_list. rewrite fold_left_app. cbn [fold_left].
  unfold req_step at 1. rewrite app_nth1; [reflexivity|]. rewrite req_fold_length. cbn. lia.
Qed.
Lemma operands_out (g : graph) x : length g <= x -> operands_of g x = [].
Proof. intros H. unfold operands_of. apply nth_error_None in H. now rewrite H. Qed.
Lemma sends_out (g : graph) x : length g <= x -> sends_of g x = [].
Proof. intros H. unfold sends_of. apply nth_error_None in H. now rewrite H. Qed.

Lemma well_formed_app (g : graph) nd : well_formed (g ++ [nd]) -> well_formed g.
Proof.
  intros (Ha & Hs & Hd). split; [|split].
  - intros x k Hk. destruct (le_lt_dec (length g) x) as [Hx|Hx].
    + rewrite operands_out in Hk by assumption. destruct Hk.
    + apply Ha. now rewrite operands_app.
  - intros x t Ht. destruct (le_lt_dec (length g) x) as [Hx|Hx].
    + rewrite sends_out in Ht by assumption. destruct Ht.
    + rewrite <- (operands_app g nd) by assumption. apply Hs. now rewrite sends_app.
  - intros x t Ho Hr. pose proof (is_oper_lt g t Ho) as Ht.
    destruct (le_lt_dec (length g) x) as [Hx|Hx].
    + now rewrite operands_out, sends_out by assumption.
    + rewrite <- (operands_app g nd), <- (sends_app g nd) by assumption.
      apply Hd; [now rewrite is_oper_app|now rewrite requires_app].
Qed.

Lemma ready_new (g : graph) nd m : ready g m -> ready (g ++ [nd]) (upd m (length g) fresh).
Proof.
  intros Hr x Hx. destruct (Nat.eq_dec x (length g)) as [->|Hne].
  - rewrite upd_same. cbn. auto.
  - rewrite upd_other by assumption. pose proof (is_oper_lt _ _ Hx) as Hl. rewrite app_length in Hl. cbn in Hl.
    assert (Hlt : x < length g) by lia. rewrite is_oper_app in Hx by assumption. rewrite requires_app by assumption.
    auto.
Qed.

Lemma acc_ready (g : graph) m x v : ready g m ->
  acc_grad_seq gadd g m x v = Some (modify m x (fun s => set_grad (acc gadd (grad s) v) s)).
Proof.
  intros Hr. unfold acc_grad_seq. rewrite modify_same. cbn [set_grad bst].
  destruct (is_oper g x) eqn:E; [|reflexivity]. destruct (Hr x E) as [-> _]. reflexivity.
Qed.

Lemma ready_modify (g : graph) m x (f : nstate -> nstate) :
  (forall s, bst (f s) = bst s /\ pend (f s) = pend s) -> ready g m -> ready g (modify m x f).
Proof.
  intros Hf Hr z Hz. destruct (Nat.eq_dec z x) as [->|Hne].
  - rewrite modify_same. destruct (Hf (m x)) as [-> ->]. auto.
  - rewrite modify_other by assumption. auto.
Qed.

Lemma not_blocked (g : graph) m x : ready g m -> grad_blocks g m x = false.
Proof.
  intros Hr. unfold grad_blocks. destruct (is_oper g x) eqn:E; [|reflexivity].
  destruct (Hr x E) as [-> _]. reflexivity.
Qed.

Lemma urun_wf g m ops g' m' : urun gadd gone g m ops g' m' -> well_formed g' -> well_formed g.
Proof. induction 1; auto. intros Hw. apply IHurun in Hw. now apply well_formed_app in Hw. Qed.

Lemma urun_ready g m ops g' m' : urun gadd gone g m ops g' m' -> well_formed g' -> ready g m -> ready g' m'.
Proof.
  intros H Hw. induction H as [g m|g m nd ops g' m' H IH|g m x v m1 ops g' m' H1 H IH|g m x ops g' m' H1 H IH|g m xs m1 ops g' m' H1 H IH]; intros Hr.
  - assumption.
  - apply IH; [assumption|]. now apply ready_new.
  - apply IH; [assumption|]. rewrite acc_ready in H1 by assumption. injection H1 as <-.
    apply ready_modify; [|assumption]. intros s; split; reflexivity.
  - apply IH; [assumption|]. apply ready_modify; [|assumption]. intros s; split; reflexivity.
  - apply IH; [assumption|]. eapply ready_after; eauto. eapply urun_wf; eauto.
Qed.

(** A run of Backward exists. *)
Lemma backward_possible (g : graph) m xs : well_formed g -> ready g m ->
  (~ exists x, lacks_gradient g m xs x) -> exists m', backward g m xs m'.
Proof.
  intros Hw Hr Hn. pose proof Hw as (Ha & Hs & Hd).
  destruct (outcome g m xs Ha Hr) as [[H1 H2]|[(H1 & m' & H2)|(_ & H1 & c & H2)]].
  - exists m. now constructor.
  - contradiction.
  - destruct (conc_start g m xs c Ha Hr H2) as (mP & -> & HA).
    pose proof (ainv_sinv _ _ _ _ _ _ HA) as HS.
    pose proof (fun c => U_reach gadd gone g Ha xs Hs (dutiful_frugal g Hd) mP _ zero_nonneg HS c) as HU.
    set (w := fun c : @config G => mu (eg g) (mkC (em (cmem c)) (fun x => epc (cpc c x)) (cstack c) (cwg c)
                                 (map (fun p => (fst p, tt)) (clog c)) (cret c) (cpanic c))).
    assert (Hgo : forall k c, steps gadd g (start mP (filter_operators g xs)) c -> (w c <= Z.of_nat k)%Z ->
              exists c', steps gadd g (start mP (filter_operators g xs)) c' /\ cret c' = true).
    { assert (Hdec : forall c c', steps gadd g (start mP (filter_operators g xs)) c -> step gadd g c c' -> (w c' < w c)%Z).
      { intros c c' Hc Hcc. destruct (HU c Hc) as (u & HR & HI). destruct (sim gadd g c u c' HR Hcc) as (u' & Hu & HR').
        assert (Hw' : forall c u, R c u -> mu (eg g) u = w c).
        { intros c1 u1 HR1. unfold w, mu. cbn [cpc cstack cret]. destruct HR1. rewrite r_stack, r_ret.
          f_equal. f_equal. apply sumZ_ext. intros y _. now rewrite r_pc. }
        rewrite <- (Hw' _ _ HR), <- (Hw' _ _ HR').
        eapply mu_step; eauto. }
      assert (Hnn : forall c, (0 <= w c)%Z) by (intros; apply mu_nonneg).
      induction k as [|k IH]; intros c Hc Hk; destruct (cret c) eqn:Hret; eauto.
      - destruct (U_progress gadd g Ha xs Hs mP (fun _ => 0%Z) HS c (fun _ => eq_refl) Hd (HU c Hc) Hret) as (c' & Hcc).
        pose proof (Hdec c c' Hc Hcc). specialize (Hnn c'). lia.
      - destruct (U_progress gadd g Ha xs Hs mP (fun _ => 0%Z) HS c (fun _ => eq_refl) Hd (HU c Hc) Hret) as (c' & Hcc).
        pose proof (Hdec c c' Hc Hcc). apply (IH c'); [econstructor; eassumption|lia]. }
    destruct (Hgo (Z.to_nat (w (start mP (filter_operators g xs)))) _ (steps_refl _ _ _)) as (c' & Hc' & Hret).
    { pose proof (mu_nonneg (eg g) (mkC (em (cmem (start mP (filter_operators g xs)))) (fun x => epc (cpc (start mP (filter_operators g xs)) x)) (cstack (start mP (filter_operators g xs))) (cwg (start mP (filter_operators g xs)))
                                 (map (fun p => (fst p, tt)) (clog (start mP (filter_operators g xs)))) (cret (start mP (filter_operators g xs))) (cpanic (start mP (filter_operators g xs))))).
      unfold w. lia. }
    exists (cmem c'). eapply bw_conc; eauto.
Qed.

End Main.

Section Main2.
Context {G : Type}.
Variable gadd : G -> G -> G.
Variable gone : G.

Lemma backward_ends (g : @graph G) (m : @mem G) (xs : list nat) :
  well_formed g -> ready g m ->
  backward_seq gadd gone g m xs = SReturn m \/
  (exists m', backward_seq gadd gone g m xs = SError m') \/
  (exists c, backward_seq gadd gone g m xs = SConc c /\
     (forall c', steps gadd g c c' ->
        cpanic c' = false /\ (cret c' = false -> exists c'', step gadd g c' c'')) /\
     (forall f, f 0 = c -> (forall i, step gadd g (f i) (f (S i))) -> False)).
Proof.
  intros Hw Hr. pose proof Hw as (Ha & Hs & Hd).
  destruct (outcome gadd gone g m xs Ha Hr) as [[_ H2]|[(_ & H2)|(_ & _ & c & H2)]]; auto.
  right; right. exists c. split; [assumption|]. split.
  - eapply never_stuck; eauto.
  - eapply no_infinite_run; eauto using dutiful_frugal.
Qed.

Lemma reusable (g : @graph G) m ops g' m' :
  urun gadd gone g m ops g' m' -> well_formed g' -> ready g m ->
  ready g' m' /\
  (forall x v, exists m1, acc_grad_seq gadd g' m' x v = Some m1) /\
  (forall x, grad_blocks g' m' x = false) /\
  (forall xs, (~ exists x, lacks_gradient g' m' xs x) -> exists m1, backward gadd gone g' m' xs m1).
Proof.
  intros H Hw Hr. pose proof (urun_ready gadd gone g m ops g' m' H Hw Hr) as Hr'.
  split; [assumption|]. split; [|split].
  - intros x v. rewrite acc_ready by assumption. eauto.
  - intros x. now apply not_blocked.
  - intros xs Hx. now apply backward_possible.
Qed.

Lemma gradients_stop (g : @graph G) m xs m' x :
  well_formed g -> ready g m -> backward gadd gone g m xs m' -> ~ In x xs ->
  (~ leads_to_grad g x \/ forall y, reached g xs y -> ~ In x (operands_of g y)) ->
  grad (m' x) = grad (m x).
Proof.
  intros Hw Hr Hb Hx Hn. eapply untouched; eauto.
  destruct Hn as [Hn|Hn]; [left|now right].
  destruct (requires g x) eqn:E; [|reflexivity]. elim Hn. apply requires_spec; [apply Hw|assumption].
Qed.

Lemma blocked_not_reached (g : @graph G) xs y :
  (forall k, In k (operands_of g y) -> exists sc, nth_error g k = Some (mkNode (Leaf false) sc)) ->
  ~ reached g xs y.
Proof.
  intros H Hr. assert (Hl : leads_to_grad g y) by (destruct Hr; assumption).
  assert (Ho : is_oper g y = true) by (destruct Hr; assumption).
  inversion Hl as [x sc Hx|x k Hk Hlk]; subst.
  - unfold is_oper in Ho. rewrite Hx in Ho. discriminate.
  - destruct (H k Hk) as (sc & Hsc).
    inversion Hlk as [x sc' Hx'|x k' Hk' _]; subst.
    + rewrite Hsc in Hx'. discriminate.
    + unfold operands_of in Hk'. rewrite Hsc in Hk'. destruct Hk'.
Qed.
End Main2.
