(** * Erasing gradients: what holds whatever the addition of gradients is

    [AgConc] needs a commutative and associative addition.  Floating-point
    addition is not associative, so the properties that do not depend on the
    sum (termination, one call per operator, ...) are transferred here from the
    graph whose gradients are all [tt]. *)
From Coq Require Import List Arith ZArith Bool Lia Permutation.
From Verif Require Import AgModel AgSpec AgLemmas AgSeq AgConc.
Import ListNotations.

Section Erase.
Context {G : Type}.
Variable gadd : G -> G -> G.
Notation graph := (@graph G).
Notation mem := (@mem G).

Definition uadd (_ _ : unit) : unit := tt.
Lemma uadd_comm : forall a b, uadd a b = uadd b a. Proof. reflexivity. Qed.
Lemma uadd_assoc : forall a b c, uadd a (uadd b c) = uadd (uadd a b) c. Proof. reflexivity. Qed.

Definition esend (p : nat * (G -> G)) : nat * (unit -> unit) := (fst p, fun _ => tt).
Definition enode (nd : @node G) : @node unit :=
  mkNode (match nkind nd with Leaf r => Leaf r | Oper ops ss => Oper ops (map esend ss) end) (scalar nd).
Definition eg (g : graph) : @AgModel.graph unit := map enode g.
Definition es (s : @nstate G) : @nstate unit :=
  mkN (option_map (fun _ => tt) (grad s)) (pend s) (bst s) (bch s).
Definition em (m : mem) : @AgModel.mem unit := fun x => es (m x).

Variable g : graph.

Lemma e_nth x : nth_error (eg g) x = option_map enode (nth_error g x).
Proof. unfold eg. apply nth_error_map. Qed.
Lemma e_len : length (eg g) = length g.
Proof. unfold eg. apply map_length. Qed.
Lemma e_oper x : is_oper (eg g) x = is_oper g x.
Proof. unfold is_oper. rewrite e_nth. destruct (nth_error g x) as [[[r|o s] sc]|]; reflexivity. Qed.
Lemma e_operands x : operands_of (eg g) x = operands_of g x.
Proof. unfold operands_of. rewrite e_nth. destruct (nth_error g x) as [[[r|o s] sc]|]; reflexivity. Qed.
Lemma e_sends x : sends_of (eg g) x = map esend (sends_of g x).
Proof. unfold sends_of. rewrite e_nth. destruct (nth_error g x) as [[[r|o s] sc]|]; reflexivity. Qed.
Lemma e_scalar x : is_scalar (eg g) x = is_scalar g x.
Proof. unfold is_scalar. rewrite e_nth. destruct (nth_error g x) as [[k sc]|]; reflexivity. Qed.
Lemma e_req_list : req_list (eg g) = req_list g.
Proof.
  unfold req_list, eg. generalize (@nil bool). induction g as [|nd l IH]; intros a; [reflexivity|].
  cbn [map fold_left]. rewrite IH. f_equal. unfold req_step. destruct nd as [[r|o s] sc]; reflexivity.
Qed.
Lemma e_requires x : requires (eg g) x = requires g x.
Proof. unfold requires. now rewrite e_req_list. Qed.
Lemma e_live x : live (eg g) x = live g x.
Proof. unfold live. now rewrite e_oper, e_requires. Qed.
Lemma e_op_operands x : op_operands (eg g) x = op_operands g x.
Proof. unfold op_operands. rewrite e_operands. apply filter_ext. apply e_oper. Qed.
Lemma e_live_sends x : live_sends (eg g) x = map esend (live_sends g x).
Proof.
  unfold live_sends. rewrite e_sends. induction (sends_of g x) as [|[t f] l IH]; [reflexivity|].
  cbn [map filter esend fst]. rewrite e_requires. destruct (requires g t); cbn [map]; now rewrite IH.
Qed.
Lemma e_targets l : map fst (map esend l) = map fst l.
Proof. rewrite map_map. apply map_ext. intros [t f]; reflexivity. Qed.

Lemma e_acyclic : acyclic g -> acyclic (eg g).
Proof. intros H x k. rewrite e_operands. apply H. Qed.
Lemma e_sto : sends_to_operands g -> sends_to_operands (eg g).
Proof. intros H x k. rewrite e_operands, e_sends, e_targets. apply H. Qed.
Lemma e_frugal : frugal g -> frugal (eg g).
Proof. intros H x t. rewrite e_oper, e_requires, e_operands, e_sends, e_targets. apply H. Qed.
Lemma e_leads x : leads_to_grad g x <-> leads_to_grad (eg g) x.
Proof.
  split; induction 1 as [x sc H|x k H1 H2 IH].
  - eapply ltg_leaf. rewrite e_nth, H. reflexivity.
  - eapply ltg_op; [|exact IH]. now rewrite e_operands.
  - rewrite e_nth in H. destruct (nth_error g x) as [[[r|o s] sc']|] eqn:E; try discriminate.
    cbn in H. injection H as -> ->. eapply ltg_leaf; eauto.
  - eapply ltg_op; [|exact IH]. now rewrite e_operands in H1.
Qed.
Lemma e_reached xs x : reached g xs x <-> reached (eg g) xs x.
Proof.
  split; induction 1 as [x H1 H2 H3|y x H1 IH H2 H3 H4].
  - apply reach_root; [assumption|now rewrite e_oper|now apply e_leads].
  - eapply reach_operand; [exact IH|now rewrite e_operands|now rewrite e_oper|now apply e_leads].
  - apply reach_root; [assumption|now rewrite e_oper in H2|now apply e_leads].
  - eapply reach_operand; [exact IH|now rewrite e_operands in H2|now rewrite e_oper in H3|now apply e_leads].
Qed.

Lemma e_uses m x : uses (eg g) (em m) x = uses g m x.
Proof.
  unfold uses. rewrite e_len. apply sumZ_ext. intros y _. unfold pendingb, em, es. cbn [bst].
  now rewrite e_operands.
Qed.

Lemma e_sinv ex roots m : SInv g ex roots m -> SInv (eg g) ex roots (em m).
Proof.
  intros [H1 H2 H3 H4]. constructor.
  - intros x. rewrite e_live, e_uses. apply H1.
  - intros x. rewrite e_oper, <- e_reached. apply H2.
  - intros x. rewrite e_live. apply H3.
  - intros x Hx. specialize (H4 x Hx). unfold em, es. cbn [grad].
    destruct (grad (m x)); [discriminate|congruence].
Qed.

(** ** Simulation *)
Definition ee (e : nat * G * accpc) : nat * unit * accpc := let '(t, _, p) := e in (t, tt, p).
Definition epc (p : @gpc G) : @gpc unit :=
  match p with
  | GNone => GNone | GIdleChk => GIdleChk | GPendChk => GPendChk | GWait => GWait
  | GRead => GRead | GSend l => GSend (map ee l) | GIdle => GIdle | GWgDone => GWgDone | GDone => GDone
  end.

Record R (c : @config G) (u : @config unit) : Prop := {
  r_mem : forall x, cmem u x = es (cmem c x);
  r_pc : forall x, cpc u x = epc (cpc c x);
  r_stack : cstack u = cstack c;
  r_wg : cwg u = cwg c;
  r_log : clog u = map (fun p => (fst p, tt)) (clog c);
  r_ret : cret u = cret c;
  r_panic : cpanic u = cpanic c
}.

Lemma R_start mP roots : R (start mP roots) (start (em mP) roots).
Proof. constructor; reflexivity. Qed.

Lemma es_modify c u x (f : @nstate G -> @nstate G) f' :
  (forall z, cmem u z = es (cmem c z)) -> (forall s, es (f s) = f' (es s)) ->
  forall z, modify (cmem u) x f' z = es (modify (cmem c) x f z).
Proof.
  intros H Hf z. destruct (Nat.eq_dec z x) as [->|Hne].
  - rewrite !modify_same, H. now rewrite Hf.
  - rewrite !modify_other by assumption. apply H.
Qed.

Lemma epc_upd c u x p : (forall z, cpc u z = epc (cpc c z)) ->
  forall z, upd (cpc u) x (epc p) z = epc (upd (cpc c) x p z).
Proof.
  intros H z. destruct (Nat.eq_dec z x) as [->|Hne].
  - now rewrite !upd_same.
  - now rewrite !upd_other.
Qed.

Lemma acc_step_R c u t v p : R c u ->
  R (fst (acc_step gadd g c t v p)) (fst (acc_step uadd (eg g) u t tt p)) /\
  snd (acc_step uadd (eg g) u t tt p) = snd (acc_step gadd g c t v p) /\
  cpc (fst (acc_step gadd g c t v p)) = cpc c /\ cpc (fst (acc_step uadd (eg g) u t tt p)) = cpc u.
Proof.
  intros HR. destruct HR. destruct p; cbn [acc_step].
  - rewrite e_oper. cbn [fst snd]. repeat split; try assumption; cbn [with_mem cmem cpc cstack cwg clog cret cpanic].
    apply es_modify; [assumption|]. intros s. unfold es, set_grad. cbn. destruct (grad s); reflexivity.
  - cbn [fst snd]. repeat split; try assumption. rewrite r_mem0. reflexivity.
  - cbn [fst snd]. repeat split; try assumption; cbn [with_mem cmem cpc cstack cwg clog cret cpanic].
    + apply es_modify; [assumption|]. reflexivity.
    + rewrite !modify_same, r_mem0. reflexivity.
  - rewrite r_mem0. cbn [es bch]. destruct (bch (cmem c t)); cbn [fst snd]; repeat split; try assumption;
      cbn [with_mem with_panic cmem cpc cstack cwg clog cret cpanic]; auto.
    apply es_modify; [assumption|]. reflexivity.
Qed.

Lemma map_ee_split l l1 t w p l2 : map ee l = l1 ++ (t, w, p) :: l2 ->
  exists k1 v k2, l = k1 ++ (t, v, p) :: k2 /\ map ee k1 = l1 /\ map ee k2 = l2.
Proof.
  intros H. apply map_eq_app in H. destruct H as (k1 & k2 & -> & H1 & H2).
  destruct k2 as [|[[t' v'] p'] k2]; [discriminate|]. cbn in H2. injection H2 as -> _ -> <-.
  exists k1, v', k2. auto.
Qed.

Lemma sim c u c' : R c u -> step gadd g c c' -> exists u', step uadd (eg g) u u' /\ R c' u'.
Proof.
  intros HR Hs. pose proof HR as HR0. destruct HR. destruct Hs.
  - eexists. split.
    + eapply st_skip; [congruence|congruence|rewrite r_stack0; eassumption|].
      rewrite e_requires, r_mem0. exact H2.
    + constructor; cbn [with_stack cmem cpc cstack cwg clog cret cpanic]; auto.
  - eexists. split.
    + eapply st_cas; [congruence|congruence|rewrite r_stack0; eassumption|].
      rewrite e_requires, r_mem0. exact H2.
    + constructor; cbn [with_stack with_mem cmem cpc cstack cwg clog cret cpanic]; auto.
      apply es_modify; [assumption|reflexivity].
  - eexists. split.
    + eapply st_spawn; [congruence|congruence|rewrite r_stack0; eassumption].
    + constructor; cbn [with_stack with_wg with_pc cmem cpc cstack cwg clog cret cpanic]; auto.
      * now apply (epc_upd c u x GIdleChk).
      * now rewrite e_op_operands.
      * congruence.
  - eexists. split.
    + eapply st_return; congruence.
    + constructor; cbn [with_ret cmem cpc cstack cwg clog cret cpanic]; auto.
  - eexists. split.
    + eapply (st_idlechk _ _ _ x); [congruence|]. now rewrite r_pc0, H0.
    + constructor; cbn [with_pc cmem cpc cstack cwg clog cret cpanic]; auto.
      rewrite r_mem0. cbn [es bst]. destruct (bstate_eqb _ _).
      * now apply (epc_upd c u x GRead).
      * now apply (epc_upd c u x GPendChk).
  - eexists. split.
    + eapply (st_pendchk _ _ _ x); [congruence|]. now rewrite r_pc0, H0.
    + constructor; cbn [with_pc cmem cpc cstack cwg clog cret cpanic]; auto.
      rewrite r_mem0. cbn [es pend]. destruct (Z.eqb _ _).
      * now apply (epc_upd c u x GRead).
      * now apply (epc_upd c u x GWait).
  - eexists. split.
    + eapply (st_wait _ _ _ x); [congruence|now rewrite r_pc0, H0|]. now rewrite r_mem0.
    + constructor; cbn [with_pc cmem cpc cstack cwg clog cret cpanic]; auto.
      now apply (epc_upd c u x GRead).
  - eexists. split.
    + eapply (st_read_some _ _ _ x tt); [congruence|now rewrite r_pc0, H0|].
      rewrite r_mem0. cbn [es grad]. now rewrite H1.
    + constructor; cbn [with_log with_pc cmem cpc cstack cwg clog cret cpanic]; auto.
      * intros z. rewrite <- (epc_upd c u x _ r_pc0). cbn [epc]. f_equal. f_equal.
        rewrite e_live_sends, !map_map. apply map_ext. intros [t f]. reflexivity.
      * cbn [map fst]. now rewrite r_log0.
  - eexists. split.
    + eapply (st_read_none _ _ _ x); [congruence|now rewrite r_pc0, H0|].
      rewrite r_mem0. cbn [es grad]. now rewrite H1.
    + constructor; cbn [with_pc cmem cpc cstack cwg clog cret cpanic]; auto.
      now apply (epc_upd c u x GIdle).
  - destruct (acc_step_R c u t v p HR0) as (Ha & Hb & Hc & Hd).
    eexists. split.
    + eapply (st_send _ _ _ x (map ee l1) t tt p (map ee l2)); [congruence|].
      rewrite r_pc0, H0. cbn [epc]. now rewrite map_app.
    + destruct (acc_step gadd g c t v p) as [c1 k1]. destruct (acc_step uadd (eg g) u t tt p) as [u1 k2].
      cbn [fst snd] in *. subst k2. destruct Ha.
      constructor; cbn [with_pc cmem cpc cstack cwg clog cret cpanic]; auto.
      intros z. rewrite Hc, Hd. rewrite <- (epc_upd c u x _ r_pc0). f_equal. cbn [epc].
      rewrite map_app. now destruct k1.
  - eexists. split.
    + eapply (st_sent _ _ _ x); [congruence|now rewrite r_pc0, H0].
    + constructor; cbn [with_pc cmem cpc cstack cwg clog cret cpanic]; auto.
      now apply (epc_upd c u x GIdle).
  - eexists. split.
    + eapply (st_idle _ _ _ x); [congruence|now rewrite r_pc0, H0].
    + constructor; cbn [with_pc with_mem cmem cpc cstack cwg clog cret cpanic]; auto.
      * apply es_modify; [assumption|reflexivity].
      * now apply (epc_upd c u x GWgDone).
  - eexists. split.
    + eapply (st_wgdone _ _ _ x); [congruence|now rewrite r_pc0, H0].
    + constructor; cbn [with_pc with_wg cmem cpc cstack cwg clog cret cpanic]; auto.
      * now apply (epc_upd c u x GDone).
      * congruence.
Qed.

Lemma sims c u c' : R c u -> steps gadd g c c' -> exists u', steps uadd (eg g) u u' /\ R c' u'.
Proof.
  intros HR H. induction H as [|c1 c2 H IH Hs].
  - exists u. split; [constructor|assumption].
  - destruct IH as (u1 & Hu1 & HR1). destruct (sim c1 u1 c2 HR1 Hs) as (u2 & Hu2 & HR2).
    exists u2. split; [econstructor; eassumption|assumption].
Qed.

(** An erased state can move only if the original can. *)
Lemma sim_back c u u' : R c u -> step uadd (eg g) u u' -> exists c', step gadd g c c'.
Proof.
  intros HR Hs. destruct HR. destruct Hs;
    try (match goal with H : cpc u ?x = _ |- _ => rewrite r_pc0 in H;
           let E := fresh "E" in destruct (cpc c x) eqn:E; try discriminate H end).
  - eexists. eapply st_skip; [congruence|congruence|rewrite <- r_stack0; eassumption|].
    rewrite e_requires, r_mem0 in H2. exact H2.
  - eexists. eapply st_cas; [congruence|congruence|rewrite <- r_stack0; eassumption|].
    rewrite e_requires, r_mem0 in H2. exact H2.
  - eexists. eapply st_spawn; [congruence|congruence|rewrite <- r_stack0; eassumption].
  - eexists. eapply st_return; congruence.
  - eexists. eapply (st_idlechk _ _ _ x); congruence.
  - eexists. eapply (st_pendchk _ _ _ x); congruence.
  - eexists. eapply (st_wait _ _ _ x); try congruence. now rewrite r_mem0 in H1.
  - rewrite r_mem0 in H1. cbn [es grad] in H1. destruct (grad (cmem c x)) as [w|] eqn:Eg; [|discriminate].
    eexists. eapply (st_read_some _ _ _ x w); congruence.
  - rewrite r_mem0 in H1. cbn [es grad] in H1. destruct (grad (cmem c x)) as [w|] eqn:Eg; [discriminate|].
    eexists. eapply (st_read_none _ _ _ x); congruence.
  - cbn [epc] in H0. injection H0 as H0. apply map_ee_split in H0. destruct H0 as (k1 & w & k2 & -> & _ & _).
    eexists. eapply (st_send _ _ _ x k1 t w p k2); congruence.
  - cbn [epc] in H0. injection H0 as H0. apply map_eq_nil in H0. subst l.
    eexists. eapply (st_sent _ _ _ x); congruence.
  - eexists. eapply (st_idle _ _ _ x); congruence.
  - eexists. eapply (st_wgdone _ _ _ x); congruence.
Qed.

End Erase.
