(** * The sequential phases of Backward: prepare and assign *)
From Coq Require Import List Arith ZArith Bool Lia Permutation.
From Verif Require Import AgModel AgSpec AgLemmas.
Import ListNotations.

Section Seq.
Context {G : Type}.
Variable gadd : G -> G -> G.
Variable gone : G.
Notation graph := (@graph G).
Notation mem := (@mem G).

Variable g : graph.
Hypothesis Hacyc : acyclic g.

Let n := length g.

Definition pendingb (m : mem) (y : nat) : bool := bstate_eqb (bst (m y)) Pending.

Lemma bstate_eqb_eq a b : bstate_eqb a b = true <-> a = b.
Proof. destruct a, b; cbn; split; congruence. Qed.
Lemma bstate_eqb_neq a b : bstate_eqb a b = false <-> a <> b.
Proof. destruct a, b; cbn; split; congruence. Qed.

Lemma live_iff x : live g x = true <-> is_oper g x = true /\ requires g x = true.
Proof. unfold live. now rewrite andb_true_iff. Qed.

Definition uses (m : mem) (x : nat) : Z :=
  sumZ n (fun y => if pendingb m y then cnt x (operands_of g y) else 0%Z).

(** Invariant of phase 1.  [todo]: the calls of prepareBackwardPass not made
    yet; [m0]: the memory before the phase. *)
Record PInv (m0 : mem) (roots : list nat) (m : mem) (todo : list nat) : Prop := {
  pi_pend : forall x, live g x = true ->
      (pend (m x) + cnt x todo = cnt x roots + uses m x)%Z;
  pi_idle : forall x, live g x = true -> bst (m x) = Idle -> pend (m x) = 0%Z;
  pi_pending : forall x, is_oper g x = true -> bst (m x) = Pending ->
      live g x = true /\ reached g roots x;
  pi_state : forall x, live g x = true -> bst (m x) = Idle \/ (bst (m x) = Pending /\ bch (m x) = OpenChan);
  pi_todo : forall x, In x todo -> is_oper g x = true /\ (live g x = true -> reached g roots x);
  pi_grad : forall x, grad (m x) = grad (m0 x);
  pi_frame : forall x, live g x = false -> m x = m0 x
}.

Lemma modify_same (m : mem) x f : modify m x f x = f (m x).
Proof. unfold modify. apply upd_same. Qed.
Lemma modify_other (m : mem) x y f : y <> x -> modify m x f y = m y.
Proof. unfold modify. apply upd_other. Qed.

Lemma prepare_inv m0 roots : (forall x, bst (m0 x) = Idle \/ is_oper g x = false) ->
  (forall fuel m x todo, x < fuel ->
    PInv m0 roots m (x :: todo) ->
    exists m', prepare g fuel m x = Some m' /\ PInv m0 roots m' todo).
Proof.
  intros Hm0. induction fuel as [|fuel IH]; intros m x todo Hx HI; [lia|].
  cbn [prepare].
  destruct (pi_todo _ _ _ _ HI x (or_introl eq_refl)) as [Hop Hreach].
  destruct (requires g x) eqn:Hreq.
  2:{ (* not live: nothing to do *)
    exists m. split; [reflexivity|].
    assert (Hnl : forall z, live g z = true -> cnt z (x :: todo) = cnt z todo).
    { intros z Hz. rewrite cnt_cons. destruct (Nat.eqb_spec x z) as [->|]; [|lia].
      apply live_iff in Hz. destruct Hz. congruence. }
    destruct HI as [H1 H2 H3 H4 H5 H6 H7]. constructor; auto.
    - intros z Hz. rewrite <- (Hnl z Hz). auto.
    - intros z Hz. apply H5. now right. }
  assert (Hlive : live g x = true) by (apply live_iff; auto).
  set (m1 := modify m x (fun s => set_pend (pend s + 1) s)).
  assert (Hb1 : forall z, bst (m1 z) = bst (m z)).
  { intros z. unfold m1. destruct (Nat.eq_dec z x) as [->|]; [now rewrite modify_same|now rewrite modify_other]. }
  assert (Hu1 : forall z, uses m1 z = uses m z).
  { intros z. apply sumZ_ext. intros y _. unfold pendingb. now rewrite Hb1. }
  assert (Hp1 : forall z, pend (m1 z) = (pend (m z) + (if Nat.eqb x z then 1 else 0))%Z).
  { intros z. unfold m1. destruct (Nat.eqb_spec x z) as [->|Hne].
    - rewrite modify_same. reflexivity.
    - rewrite modify_other by congruence. lia. }
  destruct (bstate_eqb (bst (m1 x)) Idle) eqn:Hidle.
  - (* first visit *)
    apply bstate_eqb_eq in Hidle.
    set (m2 := modify m1 x (fun s => set_bch OpenChan (set_bst Pending s))).
    assert (HI2 : PInv m0 roots m2 (op_operands g x ++ todo)).
    { destruct HI as [H1 H2 H3 H4 H5 H6 H7].
      assert (Hb2 : forall z, bst (m2 z) = if Nat.eqb x z then Pending else bst (m z)).
      { intros z. unfold m2. destruct (Nat.eqb_spec x z) as [->|Hne].
        - now rewrite modify_same.
        - rewrite modify_other by congruence. apply Hb1. }
      assert (Hp2 : forall z, pend (m2 z) = pend (m1 z)).
      { intros z. unfold m2. destruct (Nat.eq_dec z x) as [->|Hne];
          [now rewrite modify_same|now rewrite modify_other]. }
      assert (Hu2 : forall z, uses m2 z = (uses m z + cnt z (operands_of g x))%Z).
      { intros z. unfold uses.
        rewrite (sumZ_change n (fun y => if pendingb m y then cnt z (operands_of g y) else 0%Z) _ x).
        - unfold pendingb. rewrite Hb2, Nat.eqb_refl. cbn [bstate_eqb].
          rewrite <- Hb1, Hidle. cbn [bstate_eqb]. lia.
        - apply is_oper_lt. exact Hop.
        - intros y Hy. unfold pendingb. rewrite Hb2.
          destruct (Nat.eqb_spec x y); [congruence|reflexivity]. }
      constructor.
      - intros z Hz. rewrite Hp2, Hp1, Hu2, cnt_app.
        unfold op_operands. rewrite cnt_filter by (apply live_iff in Hz; tauto).
        specialize (H1 z Hz). rewrite cnt_cons in H1. lia.
      - intros z Hz Hi. rewrite Hb2 in Hi. destruct (Nat.eqb_spec x z) as [->|Hne]; [discriminate|].
        rewrite Hp2, Hp1. destruct (Nat.eqb_spec x z); [congruence|]. rewrite H2 by assumption. lia.
      - intros z Hzo Hi. rewrite Hb2 in Hi. destruct (Nat.eqb_spec x z) as [->|Hne]; auto.
      - intros z Hz. rewrite Hb2. destruct (Nat.eqb_spec x z) as [->|Hne].
        + right. split; [reflexivity|]. unfold m2. rewrite modify_same. reflexivity.
        + destruct (H4 z Hz) as [?|[? Hc]]; [now left|]. right. split; [assumption|].
          unfold m2, m1. rewrite !modify_other by congruence. exact Hc.
      - intros z Hz. apply in_app_or in Hz. destruct Hz as [Hz|Hz]; [|apply H5; now right].
        unfold op_operands in Hz. apply filter_In in Hz. destruct Hz as [Hin Hzop].
        split; [assumption|]. intros Hzl. apply live_iff in Hzl. destruct Hzl as [_ Hzr].
        eapply reach_operand; [apply Hreach; assumption|exact Hin|assumption|].
        now apply requires_spec.
      - intros z. unfold m2, m1. destruct (Nat.eq_dec z x) as [->|Hne].
        + rewrite !modify_same. cbn. apply H6.
        + rewrite !modify_other by assumption. apply H6.
      - intros z Hz. assert (z <> x) by congruence.
        unfold m2, m1. rewrite !modify_other by assumption. auto. }
    assert (Hops : forall k, In k (op_operands g x) -> k < fuel).
    { intros k Hk. unfold op_operands in Hk. apply filter_In in Hk. destruct Hk as [Hk _].
      specialize (Hacyc x k Hk). lia. }
    clearbody m2. clear - IH HI2 Hops. revert m2 HI2.
    induction (op_operands g x) as [|k ks IHks]; intros m2 HI2; cbn [fold_left].
    + exists m2. split; [reflexivity|exact HI2].
    + destruct (IH m2 k (ks ++ todo)) as (m3 & Hm3 & HI3).
      * apply Hops. now left.
      * exact HI2.
      * rewrite Hm3. apply IHks; [intros; apply Hops; now right|exact HI3].
  - (* visited before *)
    apply bstate_eqb_neq in Hidle. exists m1. split; [reflexivity|].
    destruct HI as [H1 H2 H3 H4 H5 H6 H7]. constructor.
    + intros z Hz. rewrite Hp1, Hu1. specialize (H1 z Hz). rewrite cnt_cons in H1. lia.
    + intros z Hz Hi. rewrite Hb1 in Hi. rewrite Hp1.
      destruct (Nat.eqb_spec x z) as [->|]; [rewrite Hb1 in Hidle; congruence|].
      rewrite H2 by assumption. lia.
    + intros z. rewrite Hb1. auto.
    + intros z Hz. rewrite Hb1. destruct (H4 z Hz) as [?|[? Hc]]; [now left|]. right.
      split; [assumption|]. unfold m1. destruct (Nat.eq_dec z x) as [->|Hne].
      * rewrite modify_same. exact Hc.
      * rewrite modify_other by assumption. exact Hc.
    + intros z Hz. apply H5. now right.
    + intros z. unfold m1. destruct (Nat.eq_dec z x) as [->|Hne].
      * rewrite modify_same. apply H6.
      * rewrite modify_other by assumption. apply H6.
    + intros z Hz. assert (z <> x) by congruence.
      unfold m1. rewrite modify_other by assumption. auto.
Qed.

(** State after phase 1. *)
Record Prepared (m0 : mem) (roots : list nat) (m : mem) : Prop := {
  pr_pend : forall x, live g x = true -> pend (m x) = (cnt x roots + uses m x)%Z;
  pr_pending : forall x, is_oper g x = true -> (bst (m x) = Pending <-> reached g roots x);
  pr_idle : forall x, live g x = true -> bst (m x) = Pending \/ (bst (m x) = Idle /\ pend (m x) = 0%Z);
  pr_chan : forall x, live g x = true -> bst (m x) = Pending -> bch (m x) = OpenChan;
  pr_grad : forall x, grad (m x) = grad (m0 x);
  pr_frame : forall x, live g x = false -> m x = m0 x
}.

Lemma reached_live roots x : reached g roots x -> live g x = true.
Proof.
  intros H. apply live_iff. destruct H as [x ? ? Hl|y x ? ? ? Hl];
    (split; [assumption|now apply requires_spec]).
Qed.

Lemma uses_nonneg m x : (0 <= uses m x)%Z.
Proof.
  apply sumZ_nonneg. intros y _. destruct (pendingb m y); [apply cnt_nonneg|lia].
Qed.

Lemma prepare_all_ok m0 roots :
  (forall x, In x roots -> is_oper g x = true) ->
  ready g m0 ->
  exists m, prepare_all g m0 roots = Some m /\ Prepared m0 roots m.
Proof.
  intros Hroots Hready.
  assert (Hm0 : forall x, bst (m0 x) = Idle \/ is_oper g x = false).
  { intros x. destruct (is_oper g x) eqn:E; [left; apply Hready; assumption|now right]. }
  assert (Hu0 : forall x, uses m0 x = 0%Z).
  { intros x. apply sumZ_zero. intros y Hy. unfold pendingb.
    destruct (Hm0 y) as [->|Hno]; [reflexivity|].
    destruct (bstate_eqb (bst (m0 y)) Pending); [|reflexivity].
    apply cnt_notIn. intros Hin. apply operands_oper in Hin. congruence. }
  assert (Hgen : forall todo m, (forall x, In x todo -> In x roots) ->
     (forall x, In x todo -> x < S (length g)) ->
     PInv m0 roots m todo ->
     exists m', fold_left (fun om x => match om with
                         | Some m' => prepare g (S (length g)) m' x
                         | None => None
                         end) todo (Some m) = Some m' /\ PInv m0 roots m' []).
  { induction todo as [|x todo IHt]; intros m Hin Hlt HI.
    - exists m. split; [reflexivity|exact HI].
    - cbn [fold_left]. destruct (prepare_inv m0 roots Hm0 (S (length g)) m x todo) as (m1 & Hm1 & HI1).
      + apply Hlt. now left.
      + exact HI.
      + rewrite Hm1. apply IHt; auto; intros; [apply Hin|apply Hlt]; now right. }
  destruct (Hgen roots m0) as (m & Hm & HI); auto.
  { intros x Hx. specialize (Hroots x Hx). apply is_oper_lt in Hroots. lia. }
  { constructor; auto.
    - intros x Hx. rewrite Hu0. apply live_iff in Hx. destruct Hx as [Hx1 Hx2].
      destruct (Hready x Hx1) as [_ Hp]. rewrite (Hp Hx2). lia.
    - intros x Hx _. apply live_iff in Hx. destruct Hx as [Hx1 Hx2].
      destruct (Hready x Hx1) as [_ Hp]. auto.
    - intros x Hx Hp. destruct (Hready x Hx) as [Hi _]. congruence.
    - intros x Hx. apply live_iff in Hx. left. apply Hready. tauto.
    - intros x Hx. split; [auto|]. intros Hl. apply live_iff in Hl.
      apply reach_root; try tauto. now apply requires_spec. }
  exists m. split; [exact Hm|]. destruct HI as [H1 H2 H3 H4 H5 H6 H7].
  assert (Hpd : forall x, live g x = true -> pend (m x) = (cnt x roots + uses m x)%Z).
  { intros x Hx. specialize (H1 x Hx). rewrite cnt_nil in H1. lia. }
  assert (Hpos : forall x, live g x = true -> (0 < pend (m x))%Z -> bst (m x) = Pending).
  { intros x Hx Hp. destruct (H4 x Hx) as [Hi|[Hi _]]; [|assumption].
    rewrite (H2 x Hx Hi) in Hp. lia. }
  constructor; auto.
  - intros x Hxo. split; [intros Hp; apply H3; assumption|].
    induction 1 as [x Hin Ho Hl|y x Hy IHy Hin Ho Hl].
    + assert (Hlive : live g x = true) by (apply live_iff; split; [assumption|now apply requires_spec]).
      apply Hpos; [assumption|]. rewrite (Hpd x Hlive). apply cnt_In in Hin.
      pose proof (uses_nonneg m x). lia.
    + assert (Hlive : live g x = true) by (apply live_iff; split; [assumption|now apply requires_spec]).
      apply Hpos; [assumption|]. rewrite (Hpd x Hlive).
      pose proof (operands_oper g y x Hin) as Hyo. specialize (IHy Hyo).
      pose proof (cnt_nonneg x roots).
      assert (0 < uses m x)%Z; [|lia].
      eapply Z.lt_le_trans; [apply cnt_In; exact Hin|].
      unfold uses.
      pose proof (sumZ_ge n (fun y0 => if pendingb m y0 then cnt x (operands_of g y0) else 0%Z) y) as Hs.
      cbv beta in Hs. unfold pendingb in Hs at 2. rewrite IHy in Hs. cbn [bstate_eqb] in Hs.
      apply Hs; [|apply is_oper_lt; assumption].
      intros z _. destruct (pendingb m z); [apply cnt_nonneg|lia].
  - intros x Hx. destruct (H4 x Hx) as [Hi|[Hi _]]; [right|left]; auto.
  - intros x Hx Hp. destruct (H4 x Hx) as [Hi|[_ Hc]]; [congruence|assumption].
Qed.

(** ** Phase 2 *)

Definition missing (m : mem) (x : nat) : bool :=
  match grad (m x) with Some _ => false | None => negb (is_scalar g x) end.

(** State after phase 2, for the roots treated so far ([done]) and those left. *)
Record AInv (m0 : mem) (roots done todo : list nat) (m : mem) : Prop := {
  ai_pend : forall x, live g x = true -> pend (m x) = (cnt x todo + uses m x)%Z;
  ai_pending : forall x, is_oper g x = true -> (bst (m x) = Pending <-> reached g roots x);
  ai_idle : forall x, is_oper g x = true -> bst (m x) = Pending \/ bst (m x) = Idle;
  ai_idle0 : forall x, live g x = true -> bst (m x) = Idle -> pend (m x) = 0%Z;
  ai_chan : forall x, live g x = true -> bst (m x) = Pending ->
      bch (m x) = OpenChan \/ (bch (m x) = ClosedChan /\ pend (m x) = 0%Z /\ grad (m x) <> None);
  ai_grad : forall x, grad (m x) = oadd gadd (grad (m0 x)) (seed gone g m0 done x);
  ai_done : forall x, In x done -> grad (m x) <> None
}.

Lemma seed_some m0 xs x : In x xs -> is_oper g x = true -> missing m0 x = false ->
  oadd gadd (grad (m0 x)) (seed gone g m0 xs x) <> None.
Proof.
  intros Hin Ho Hm. unfold seed, missing in *. destruct (grad (m0 x)); cbn; [discriminate|].
  rewrite Ho. apply negb_false_iff in Hm. rewrite Hm.
  assert (He : existsb (Nat.eqb x) xs = true).
  { apply existsb_exists. exists x. split; [assumption|apply Nat.eqb_refl]. }
  rewrite He. discriminate.
Qed.

Lemma seed_cons_other m0 xs x y : x <> y -> seed gone g m0 (xs ++ [y]) x = seed gone g m0 xs x.
Proof.
  intros H. unfold seed. destruct (grad (m0 x)); [reflexivity|].
  rewrite existsb_app. cbn. destruct (Nat.eqb_spec x y); [congruence|]. now rewrite !orb_false_r.
Qed.

Lemma assign_ok m0 roots done x todo m :
  is_oper g x = true -> missing m0 x = false ->
  AInv m0 roots done (x :: todo) m ->
  exists m', assign gadd gone g m x = AssignOk m' /\ AInv m0 roots (done ++ [x]) todo m'
     /\ (forall z, z <> x -> m' z = m z).
Proof.
  intros Hop Hmiss [H1 H2 H3 H3' H4 H5 H6].
  assert (Hpend1 : live g x = true -> (1 <= pend (m x))%Z).
  { intros Hl. rewrite (H1 x Hl), cnt_cons, Nat.eqb_refl. pose proof (cnt_nonneg x todo).
    pose proof (uses_nonneg m x). lia. }
  assert (Hreached : live g x = true -> bst (m x) = Pending).
  { intros Hl. destruct (H3 x Hop) as [?|Hi]; [assumption|].
    specialize (Hpend1 Hl). rewrite (H3' x Hl Hi) in Hpend1. lia. }
  unfold assign. destruct (grad (m x)) as [v|] eqn:Hg.
  - (* already has a gradient *)
    set (m' := modify m x (fun s => set_pend (pend s - 1) s)).
    assert (Hb : forall z, bst (m' z) = bst (m z)).
    { intros z. unfold m'. destruct (Nat.eq_dec z x) as [->|]; [now rewrite modify_same|now rewrite modify_other]. }
    assert (Hu : forall z, uses m' z = uses m z).
    { intros z. apply sumZ_ext. intros y _. unfold pendingb. now rewrite Hb. }
    assert (Hgr : forall z, grad (m' z) = grad (m z)).
    { intros z. unfold m'. destruct (Nat.eq_dec z x) as [->|]; [now rewrite modify_same|now rewrite modify_other]. }
    assert (Hp : forall z, pend (m' z) = (pend (m z) - (if Nat.eqb x z then 1 else 0))%Z).
    { intros z. unfold m'. destruct (Nat.eqb_spec x z) as [->|Hne].
      - rewrite modify_same. reflexivity.
      - rewrite modify_other by congruence. lia. }
    exists m'. split; [reflexivity|]. split; [constructor|].
    + intros z Hz. rewrite Hp, Hu. specialize (H1 z Hz). rewrite cnt_cons in H1. lia.
    + intros z Hz. rewrite Hb. auto.
    + intros z Hz. rewrite Hb. auto.
    + intros z Hz Hi. rewrite Hb in Hi. rewrite Hp. destruct (Nat.eqb_spec x z) as [->|].
      * rewrite (Hreached Hz) in Hi. discriminate.
      * rewrite (H3' z Hz Hi). lia.
    + intros z Hz Hpz. rewrite Hb in Hpz. destruct (H4 z Hz Hpz) as [Ho|(Hc & Hp0 & Hg0)].
      * left. unfold m'. destruct (Nat.eq_dec z x) as [->|]; [now rewrite modify_same|now rewrite modify_other].
      * right. rewrite Hgr, Hp. destruct (Nat.eqb_spec x z) as [->|Hne]; [specialize (Hpend1 Hz); lia|].
        rewrite Hp0. split; [|split; [lia|assumption]].
        unfold m'. rewrite modify_other by congruence. assumption.
    + intros z. rewrite Hgr, H5. destruct (Nat.eq_dec z x) as [->|Hne].
      * f_equal. rewrite H5 in Hg. unfold seed in *. destruct (grad (m0 x)); [reflexivity|].
        rewrite existsb_app. cbn in Hg. destruct (existsb (Nat.eqb x) done); [reflexivity|].
        cbn in Hg. discriminate.
      * now rewrite seed_cons_other.
    + intros z Hz. rewrite Hgr. apply in_app_or in Hz. destruct Hz as [Hz|[->|[]]]; [auto|congruence].
    + intros z Hne. unfold m'. now rewrite modify_other.
  - (* scalar without gradient: AccGrad(1) *)
    assert (Hg0 : grad (m0 x) = None).
    { rewrite H5 in Hg. destruct (grad (m0 x)); [|reflexivity].
      destruct (seed gone g m0 done x); discriminate. }
    assert (Hsc : is_scalar g x = true).
    { unfold missing in Hmiss. rewrite Hg0 in Hmiss. now apply negb_false_iff. }
    rewrite Hsc.
    assert (Hnd : ~ In x done) by (intros Hin; apply (H6 x Hin); assumption).
    assert (Hseed : seed gone g m0 (done ++ [x]) x = Some gone).
    { unfold seed. rewrite Hg0, Hsc, Hop, existsb_app. cbn. rewrite Nat.eqb_refl.
      destruct (existsb (Nat.eqb x) done); reflexivity. }
    unfold acc_grad_seq.
    set (m1 := modify m x (fun s => set_grad (acc gadd (grad s) gone) s)).
    assert (Hm1x : m1 x = set_grad (Some gone) (m x)).
    { unfold m1. rewrite modify_same, Hg. reflexivity. }
    assert (Hm1o : forall z, z <> x -> m1 z = m z) by (intros; unfold m1; now rewrite modify_other).
    rewrite Hop, Hm1x. cbn [andb set_grad bst].
    assert (Hgrad_goal : forall m', (grad (m' x) = Some gone) -> (forall z, z <> x -> m' z = m z) ->
       forall z, grad (m' z) = oadd gadd (grad (m0 z)) (seed gone g m0 (done ++ [x]) z)).
    { intros m' Hx Ho z. destruct (Nat.eq_dec z x) as [->|Hne].
      - rewrite Hx, Hseed, Hg0. reflexivity.
      - rewrite Ho by assumption. now rewrite seed_cons_other, H5. }
    assert (Hdone_goal : forall m', (grad (m' x) = Some gone) -> (forall z, z <> x -> m' z = m z) ->
       forall z, In z (done ++ [x]) -> grad (m' z) <> None).
    { intros m' Hx Ho z Hz. destruct (Nat.eq_dec z x) as [->|Hne]; [congruence|].
      rewrite Ho by assumption. apply in_app_or in Hz. destruct Hz as [Hz|[->|[]]]; [auto|congruence]. }
    assert (Huses_goal : forall m', bst (m' x) = bst (m x) -> (forall z, z <> x -> m' z = m z) ->
       forall z, uses m' z = uses m z).
    { intros m' Hx Ho z. apply sumZ_ext. intros y _. unfold pendingb.
      destruct (Nat.eq_dec y x) as [->|Hne]; [now rewrite Hx|now rewrite Ho]. }
    destruct (bstate_eqb (bst (m x)) Idle) eqn:Hidle; cbn [negb].
    + (* idle: x does not require gradients *)
      apply bstate_eqb_eq in Hidle.
      assert (Hnl : live g x = false).
      { destruct (live g x) eqn:El; [|reflexivity]. rewrite (Hreached eq_refl) in Hidle. discriminate. }
      exists m1. split; [reflexivity|].
      assert (Hgx : grad (m1 x) = Some gone) by (rewrite Hm1x; reflexivity).
      assert (Hbx : bst (m1 x) = bst (m x)) by (rewrite Hm1x; reflexivity).
      split; [constructor|exact Hm1o].
      * intros z Hz. assert (z <> x) by congruence. rewrite (Huses_goal m1 Hbx Hm1o).
        rewrite Hm1o by assumption. specialize (H1 z Hz). rewrite cnt_cons in H1.
        destruct (Nat.eqb_spec x z); [congruence|]. lia.
      * intros z Hz. destruct (Nat.eq_dec z x) as [->|Hne]; [rewrite Hbx|rewrite Hm1o by assumption]; auto.
      * intros z Hz. destruct (Nat.eq_dec z x) as [->|Hne]; [rewrite Hbx|rewrite Hm1o by assumption]; auto.
      * intros z Hz. assert (z <> x) by congruence. rewrite Hm1o by assumption. auto.
      * intros z Hz. assert (z <> x) by congruence. rewrite Hm1o by assumption. auto.
      * apply Hgrad_goal; assumption.
      * apply Hdone_goal; assumption.
    + apply bstate_eqb_neq in Hidle.
      assert (Hp : bst (m x) = Pending) by (destruct (H3 x Hop); congruence).
      assert (Hl : live g x = true).
      { apply (reached_live roots). apply H2; assumption. }
      set (m2 := modify m1 x (fun s => set_pend (pend s - 1) s)).
      assert (Hm2x : m2 x = set_pend (pend (m x) - 1) (set_grad (Some gone) (m x))).
      { unfold m2. rewrite modify_same, Hm1x. reflexivity. }
      assert (Hm2o : forall z, z <> x -> m2 z = m z).
      { intros z Hz. unfold m2. rewrite modify_other by assumption. auto. }
      assert (Hch : bch (m x) = OpenChan).
      { destruct (H4 x Hl Hp) as [?|(_ & _ & Hgn)]; [assumption|congruence]. }
      rewrite Hm2x. cbn [pend set_pend set_grad bch]. rewrite Hch.
      specialize (Hpend1 Hl).
      assert (Hxp : pend (m x) = (1 + cnt x todo + uses m x)%Z).
      { rewrite (H1 x Hl), cnt_cons, Nat.eqb_refl. lia. }
      assert (Hcommon : forall m', m' x = set_bch (bch (m' x)) (m2 x) ->
         (bch (m' x) = OpenChan \/ (bch (m' x) = ClosedChan /\ pend (m x) = 1%Z)) ->
         (forall z, z <> x -> m' z = m z) ->
         AInv m0 roots (done ++ [x]) todo m').
      { intros m' Hx' Hc' Ho'.
        assert (Hgx : grad (m' x) = Some gone) by (rewrite Hx', Hm2x; reflexivity).
        assert (Hbx : bst (m' x) = bst (m x)) by (rewrite Hx', Hm2x; reflexivity).
        assert (Hpx : pend (m' x) = (pend (m x) - 1)%Z) by (rewrite Hx', Hm2x; reflexivity).
        constructor.
        - intros z Hz. rewrite (Huses_goal m' Hbx Ho').
          destruct (Nat.eq_dec z x) as [->|Hne]; [rewrite Hpx; lia|].
          rewrite Ho' by assumption. specialize (H1 z Hz). rewrite cnt_cons in H1.
          destruct (Nat.eqb_spec x z); [congruence|]. lia.
        - intros z Hz. destruct (Nat.eq_dec z x) as [->|Hne]; [rewrite Hbx|rewrite Ho' by assumption]; auto.
        - intros z Hz. destruct (Nat.eq_dec z x) as [->|Hne]; [rewrite Hbx|rewrite Ho' by assumption]; auto.
        - intros z Hz. destruct (Nat.eq_dec z x) as [->|Hne]; [rewrite Hbx; congruence|rewrite Ho' by assumption; auto].
        - intros z Hz. destruct (Nat.eq_dec z x) as [->|Hne]; [|rewrite Ho' by assumption; auto].
          intros _. destruct Hc' as [?|[? ?]]; [now left|]. right. rewrite Hpx, Hgx.
          split; [assumption|]. split; [lia|discriminate].
        - apply Hgrad_goal; assumption.
        - apply Hdone_goal; assumption. }
      destruct (Z.eqb_spec (pend (m x) - 1) 0) as [Hz0|Hz0].
      * set (m3 := modify m2 x (set_bch ClosedChan)).
        assert (Hm3o : forall z, z <> x -> m3 z = m z).
        { intros z Hz. unfold m3. rewrite modify_other by assumption. auto. }
        exists m3. split; [reflexivity|]. split; [|exact Hm3o]. apply Hcommon; auto.
        -- unfold m3. rewrite modify_same. reflexivity.
        -- right. unfold m3. rewrite modify_same. split; [reflexivity|lia].
      * exists m2. split; [reflexivity|]. split; [|exact Hm2o]. apply Hcommon; auto.
        -- rewrite Hm2x. reflexivity.
        -- left. rewrite Hm2x. exact Hch.
Qed.

Lemma assign_missing m0 roots done x todo m :
  AInv m0 roots done todo m -> is_oper g x = true -> missing m0 x = true ->
  assign gadd gone g m x = AssignErr m.
Proof.
  intros HI Hop Hm. unfold assign. rewrite (ai_grad _ _ _ _ _ HI).
  unfold missing in Hm. destruct (grad (m0 x)) eqn:E; [discriminate|]. apply negb_true_iff in Hm.
  unfold seed. rewrite E, Hm, andb_false_r. cbn. reflexivity.
Qed.

Lemma assign_all_spec m0 roots : (forall x, In x roots -> is_oper g x = true) ->
  forall todo done m, incl todo roots ->
  AInv m0 roots done todo m ->
  (existsb (missing m0) todo = false ->
     exists m', assign_all gadd gone g m todo = AssignOk m' /\ AInv m0 roots (done ++ todo) [] m' /\
       (forall z, ~ In z todo -> m' z = m z))
  /\ (existsb (missing m0) todo = true ->
     exists m' done' todo', assign_all gadd gone g m todo = AssignErr m' /\
        todo = done' ++ todo' /\ AInv m0 roots (done ++ done') todo' m').
Proof.
  intros Hroots. induction todo as [|x todo IH]; intros done m Hincl HI; cbn [assign_all existsb].
  - split; [|discriminate]. intros _. exists m. rewrite app_nil_r. auto.
  - assert (Hop : is_oper g x = true) by (apply Hroots, Hincl; now left).
    destruct (missing m0 x) eqn:Hmx; cbn [orb].
    + split; [discriminate|]. intros _. rewrite (assign_missing m0 roots done x _ m HI Hop Hmx).
      exists m, [], (x :: todo). rewrite app_nil_r. auto.
    + destruct (assign_ok m0 roots done x todo m Hop Hmx HI) as (m1 & Hm1 & HI1 & Ho1).
      rewrite Hm1. destruct (IH (done ++ [x]) m1) as [IHa IHb].
      { intros z Hz. apply Hincl. now right. }
      { exact HI1. }
      split.
      * intros Hf. destruct (IHa Hf) as (m' & Hm' & HI' & Ho'). exists m'.
        split; [exact Hm'|]. split; [rewrite <- app_assoc in HI'; exact HI'|].
        intros z Hz. rewrite Ho' by (intros Hin; apply Hz; now right).
        apply Ho1. intros ->. apply Hz. now left.
      * intros Hf. destruct (IHb Hf) as (m' & d' & t' & Hm' & -> & HI').
        exists m', (x :: d'), t'. split; [exact Hm'|]. split; [reflexivity|].
        rewrite <- app_assoc in HI'. exact HI'.
Qed.

Lemma prepared_ainv m0 roots m : ready g m0 -> Prepared m0 roots m -> AInv m0 roots [] roots m.
Proof.
  intros Hr [H1 H2 H3 H4 H5 H6]. constructor; auto.
  - intros x Hx. destruct (live g x) eqn:E.
    + destruct (H3 x E) as [?|[? _]]; auto.
    + rewrite (H6 x E). right. now apply Hr.
  - intros x Hx Hi. destruct (H3 x Hx) as [?|[_ ?]]; [congruence|assumption].
  - intros x. rewrite H5. unfold seed. destruct (grad (m0 x)); reflexivity.
Qed.

End Seq.
