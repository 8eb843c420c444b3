(** * The concurrent phase of Backward: invariant, progress, termination *)
From Coq Require Import List Arith ZArith Bool Lia Permutation.
From Verif Require Import AgModel AgSpec AgLemmas AgSeq.
Import ListNotations.

(** A backward function never hands an operator more gradients than it lists
    occurrences of it. *)
Definition frugal {G} (g : @graph G) : Prop :=
  forall x t, is_oper g t = true -> requires g t = true ->
    count_occ Nat.eq_dec (map fst (sends_of g x)) t <=
    count_occ Nat.eq_dec (operands_of g x) t.

(** What phases 1 and 2 hand over to phase 3.  [ex x]: gradients announced to
    [x] that no operator of the pass will deliver (0 after a normal start). *)
Record SInv {G} (g : @graph G) (ex : nat -> Z) (roots : list nat) (m : @mem G) : Prop := {
  si_pend : forall x, live g x = true -> bst (m x) = Pending -> pend (m x) = (ex x + uses g m x)%Z;
  si_pending : forall x, is_oper g x = true -> (bst (m x) = Pending <-> reached g roots x);
  si_chan : forall x, live g x = true -> bst (m x) = Pending ->
      bch (m x) = OpenChan \/ (bch (m x) = ClosedChan /\ pend (m x) = 0%Z);
  si_done : forall x, In x roots -> grad (m x) <> None
}.

Lemma ainv_sinv {G} gadd gone (g : @graph G) m0 roots m :
  AInv gadd gone g m0 roots roots [] m -> SInv g (fun _ => 0%Z) roots m.
Proof.
  intros [H1 H2 H3 H3' H4 H5 H6]. constructor; auto.
  - intros x Hx _. rewrite (H1 x Hx), cnt_nil. lia.
  - intros x Hx Hp. destruct (H4 x Hx Hp) as [?|(? & ? & _)]; auto.
Qed.

Section Conc.
Context {G : Type}.
Variable gadd : G -> G -> G.
Notation graph := (@graph G).
Notation mem := (@mem G).
Notation oadd := (oadd gadd).
Notation osum := (osum gadd).
Notation osumn := (osumn gadd).
Notation step := (step gadd).
Notation steps := (steps gadd).
Notation contribution := (contribution gadd).

Hypothesis gadd_comm : forall a b, gadd a b = gadd b a.
Hypothesis gadd_assoc : forall a b c, gadd a (gadd b c) = gadd (gadd a b) c.

Variable g : graph.
Hypothesis Hacyc : acyclic g.
Hypothesis Hsto : sends_to_operands g.
Hypothesis Hfrugal : frugal g.

Let n := length g.

Variables (ex : nat -> Z) (mP : mem) (roots : list nat).
Hypothesis Hex : forall x, (0 <= ex x)%Z.
Hypothesis HP : SInv g ex roots mP.
Hypothesis Hroots : forall x, In x roots -> is_oper g x = true.

Definition Ab (x : nat) : bool := is_oper g x && pendingb mP x.

Lemma Ab_reached x : Ab x = true <-> reached g roots x.
Proof.
  unfold Ab, pendingb. rewrite andb_true_iff, bstate_eqb_eq. split.
  - intros [Ho Hp]. apply (si_pending _ _ _ _ HP); assumption.
  - intros Hr. assert (Ho : is_oper g x = true) by (destruct Hr; assumption).
    split; [assumption|]. now apply (si_pending _ _ _ _ HP).
Qed.

Lemma Ab_oper x : Ab x = true -> is_oper g x = true.
Proof. unfold Ab. rewrite andb_true_iff. tauto. Qed.
Lemma Ab_requires x : Ab x = true -> requires g x = true.
Proof.
  intros H. apply Ab_reached in H. apply requires_spec; [assumption|]. destruct H; assumption.
Qed.
Lemma Ab_live x : Ab x = true -> live g x = true.
Proof. intros H. apply live_iff. split; [now apply Ab_oper|now apply Ab_requires]. Qed.
Lemma Ab_lt x : Ab x = true -> x < n.
Proof. intros H. apply is_oper_lt. now apply Ab_oper. Qed.
Lemma Ab_operand y x : Ab y = true -> In x (operands_of g y) -> is_oper g x = true ->
  requires g x = true -> Ab x = true.
Proof.
  intros Hy Hin Ho Hr. apply Ab_reached. apply Ab_reached in Hy.
  eapply reach_operand; eauto. now apply requires_spec.
Qed.

(** Counting sends *)
Definition stargets (y : nat) : list nat := map fst (live_sends g y).

Lemma stargets_In y x : In x (stargets y) -> In x (operands_of g y) /\ requires g x = true.
Proof.
  unfold stargets, live_sends. intros H. apply in_map_iff in H. destruct H as [[t f] [<- Hin]].
  apply filter_In in Hin. destruct Hin as [Hin Hr]. cbn in *. split; [|assumption].
  apply Hsto. apply in_map_iff. exists (t, f). auto.
Qed.

Lemma stargets_cnt y x : requires g x = true ->
  cnt x (stargets y) = cnt x (map fst (sends_of g y)).
Proof.
  intros Hr. unfold stargets, live_sends. induction (sends_of g y) as [|[t f] l IH]; [reflexivity|].
  cbn [filter fst]. destruct (requires g t) eqn:E; cbn [map fst]; rewrite !cnt_cons, <- ?IH; [reflexivity|].
  destruct (Nat.eqb_spec t x) as [->|]; [congruence|]. lia.
Qed.

Definition def (x : nat) : Z :=
  (ex x + sumZ n (fun y => if Ab y then (cnt x (operands_of g y) - cnt x (stargets y))%Z else 0%Z))%Z.

Lemma def_term x y : Ab x = true -> (0 <= cnt x (operands_of g y) - cnt x (stargets y))%Z.
Proof.
  intros Hx. rewrite stargets_cnt by now apply Ab_requires.
  pose proof (Hfrugal y x (Ab_oper _ Hx) (Ab_requires _ Hx)). rewrite !cnt_count. lia.
Qed.

Lemma def_nonneg x : Ab x = true -> (0 <= def x)%Z.
Proof.
  intros Hx. unfold def. specialize (Hex x).
  assert (0 <= sumZ n (fun y => if Ab y then (cnt x (operands_of g y) - cnt x (stargets y))%Z else 0%Z))%Z;
    [|lia].
  apply sumZ_nonneg. intros y _. destruct (Ab y); [now apply def_term|lia].
Qed.

Lemma def_zero x y : Ab x = true -> def x = 0%Z -> Ab y = true ->
  cnt x (operands_of g y) = cnt x (stargets y).
Proof.
  intros Hx Hd Hy.
  assert (H : (if Ab y then (cnt x (operands_of g y) - cnt x (stargets y))%Z else 0%Z) = 0%Z).
  { apply (sumZ_eq0 n (fun y => if Ab y then (cnt x (operands_of g y) - cnt x (stargets y))%Z else 0%Z) y).
    - intros z _. destruct (Ab z); [now apply def_term|lia].
    - unfold def in Hd. specialize (Hex x).
      assert (0 <= sumZ n (fun y => if Ab y then (cnt x (operands_of g y) - cnt x (stargets y))%Z else 0%Z))%Z;
        [|lia].
      apply sumZ_nonneg. intros z _. destruct (Ab z); [now apply def_term|lia].
    - now apply Ab_lt. }
  rewrite Hy in H. lia.
Qed.

(** ** Entries of GSend *)
Definition entry := (nat * G * accpc)%type.
Definition tgt (e : entry) : nat := fst (fst e).

Definition isclose (p : accpc) : bool := match p with AClose => true | _ => false end.
Definition isval (p : accpc) : bool := match p with AVal => true | _ => false end.

Definition eo (x : nat) (e : entry) : Z :=
  let '(t, _, p) := e in if Nat.eqb t x && negb (isclose p) then 1%Z else 0%Z.
Definition ec (x : nat) (e : entry) : Z :=
  let '(t, _, p) := e in if Nat.eqb t x && isclose p then 1%Z else 0%Z.
Definition eu (x : nat) (e : entry) : option G :=
  let '(t, v, p) := e in if Nat.eqb t x && isval p then Some v else None.

Fixpoint sumL (f : entry -> Z) (l : list entry) : Z :=
  match l with [] => 0%Z | e :: r => (f e + sumL f r)%Z end.

Lemma sumL_app f l1 l2 : sumL f (l1 ++ l2) = (sumL f l1 + sumL f l2)%Z.
Proof. induction l1 as [|e l IH]; cbn; [reflexivity|]. lia. Qed.
Lemma sumL_nonneg f l : (forall e, (0 <= f e)%Z) -> (0 <= sumL f l)%Z.
Proof. intros H. induction l as [|e l IH]; cbn; [lia|]. specialize (H e). lia. Qed.
Lemma eo_nonneg x e : (0 <= eo x e)%Z.
Proof. destruct e as [[t v] p]; cbn. destruct (_ && _); lia. Qed.
Lemma ec_nonneg x e : (0 <= ec x e)%Z.
Proof. destruct e as [[t v] p]; cbn. destruct (_ && _); lia. Qed.
Lemma sumL_pos f l : (0 < sumL f l)%Z -> exists e, In e l /\ (0 < f e)%Z.
Proof.
  induction l as [|e l IH]; cbn; [lia|]. intros H.
  destruct (Z_lt_le_dec 0 (f e)) as [Hp|Hp]; [exists e; auto|].
  destruct IH as (e' & Hin & He'); [lia|]. exists e'. auto.
Qed.

(** Before the gradient has been read. *)
Definition preread (p : @gpc G) : bool :=
  match p with GNone | GIdleChk | GPendChk | GWait | GRead => true | _ => false end.

Definition outp (y : nat) (p : @gpc G) (x : nat) : Z :=
  match p with
  | GSend l => sumL (eo x) l
  | _ => if preread p && Ab y then cnt x (stargets y) else 0%Z
  end.
Definition clsp (p : @gpc G) (x : nat) : Z :=
  match p with GSend l => sumL (ec x) l | _ => 0%Z end.

Variable gam : nat -> option G.

Definition undp (y : nat) (p : @gpc G) (x : nat) : option G :=
  match p with
  | GSend l => osum (map (eu x) l)
  | _ => if preread p && Ab y then contribution g y (gam y) x else None
  end.
Definition wgp (p : @gpc G) : Z := match p with GNone | GDone => 0%Z | _ => 1%Z end.

Definition isclosed (s : @nstate G) : Z := match bch s with ClosedChan => 1%Z | _ => 0%Z end.

Hypothesis Hgam : forall x,
  gam x = oadd (grad (mP x)) (osumn n (fun y => if Ab y then contribution g y (gam y) x else None)).

Lemma outp_nonneg y p x : (0 <= outp y p x)%Z.
Proof.
  destruct p; cbn [outp preread andb]; try (apply sumL_nonneg; apply eo_nonneg);
    try (destruct (Ab y); [apply cnt_nonneg|lia]); lia.
Qed.
Lemma clsp_nonneg p x : (0 <= clsp p x)%Z.
Proof. destruct p; cbn; try lia. apply sumL_nonneg. apply ec_nonneg. Qed.
Lemma wgp_nonneg p : (0 <= wgp p)%Z.
Proof. destruct p; cbn; lia. Qed.

Lemma contribution_in y gy x : contribution g y gy x <> None -> In x (stargets y).
Proof.
  unfold AgSpec.contribution. destruct gy as [v|]; [|congruence]. intros H.
  destruct (filter (fun p => Nat.eqb (fst p) x && requires g x) (sends_of g y)) as [|[t f] l] eqn:E.
  { cbn in H. congruence. }
  assert (Hin : In (t, f) (filter (fun p => Nat.eqb (fst p) x && requires g x) (sends_of g y))).
  { rewrite E. now left. }
  apply filter_In in Hin. destruct Hin as [Hin Hb]. cbn in Hb. apply andb_true_iff in Hb.
  destruct Hb as [Ht Hr]. apply Nat.eqb_eq in Ht. subst t.
  unfold stargets, live_sends. apply in_map_iff. exists (x, f). split; [reflexivity|].
  apply filter_In. auto.
Qed.

Lemma contribution_some y v x : In x (stargets y) -> contribution g y (Some v) x <> None.
Proof.
  unfold stargets, live_sends. intros H. apply in_map_iff in H. destruct H as ([t f] & Ht & Hin).
  cbn in Ht. subst t. apply filter_In in Hin. destruct Hin as [Hin Hr]. cbn in Hr.
  unfold AgSpec.contribution.
  assert (Hin2 : In (x, f) (filter (fun p => Nat.eqb (fst p) x && requires g x) (sends_of g y))).
  { apply filter_In. cbn. rewrite Nat.eqb_refl, Hr. auto. }
  destruct (filter _ _) as [|[t' f'] l]; [contradiction|]. cbn.
  destruct (fold_right oadd None _); discriminate.
Qed.

Lemma undp_out y p x : undp y p x <> None -> (0 < outp y p x)%Z.
Proof.
  assert (Hpre : (if Ab y then contribution g y (gam y) x else None) <> None ->
                 (0 < if Ab y then cnt x (stargets y) else 0)%Z).
  { destruct (Ab y); [|congruence]. intros H. apply cnt_In. eapply contribution_in; eauto. }
  destruct p as [| | | | |l| | |]; cbn [undp outp preread andb]; auto; try congruence.
  induction l as [|[[t v] p] l IH]; cbn [map sumL AgSpec.osum fold_right]; [cbn; congruence|].
  pose proof (sumL_nonneg (eo x) l (eo_nonneg x)) as Hnn.
  cbn [eu eo]. destruct (Nat.eqb t x); cbn [andb].
  - destruct p; cbn [isval isclose negb]; try lia. cbn. intros H. apply IH in H. lia.
  - cbn. intros H. apply IH in H. lia.
Qed.

(** The messages sent by a fresh run of fn.Backward are the contribution. *)
Lemma fresh_out y v x :
  sumL (eo x) (map (fun p => (fst p, snd p v, AVal)) (live_sends g y)) = cnt x (stargets y).
Proof.
  unfold stargets. induction (live_sends g y) as [|[t f] l IH]; [reflexivity|].
  cbn [map sumL]. rewrite IH, cnt_cons. cbn [eo fst isclose negb]. rewrite andb_true_r. reflexivity.
Qed.
Lemma fresh_cls y v x :
  sumL (ec x) (map (fun p => (fst p, snd p v, AVal)) (live_sends g y)) = 0%Z.
Proof.
  induction (live_sends g y) as [|[t f] l IH]; [reflexivity|].
  cbn [map sumL]. rewrite IH. cbn [ec fst isclose]. rewrite andb_false_r. reflexivity.
Qed.
Lemma fresh_und y v x :
  osum (map (eu x) (map (fun p => (fst p, snd p v, AVal)) (live_sends g y)))
  = contribution g y (Some v) x.
Proof.
  unfold AgSpec.contribution, live_sends. induction (sends_of g y) as [|[t f] l IH]; [reflexivity|].
  cbn [filter fst]. destruct (requires g t) eqn:Er.
  - cbn [map AgSpec.osum fold_right eu fst snd isval]. rewrite andb_true_r.
    destruct (Nat.eqb_spec t x) as [->|Hne].
    + rewrite Er. cbn [andb map AgSpec.osum fold_right snd]. unfold AgSpec.osum in IH. rewrite IH.
      rewrite Er. reflexivity.
    + cbn [andb]. rewrite oadd_none_l. exact IH.
  - destruct (Nat.eqb_spec t x) as [->|Hne]; [|exact IH].
    rewrite Er. cbn [andb]. rewrite Er in IH. exact IH.
Qed.

Definition isMSpawn (st : list mainop) (x : nat) : Prop := exists r, st = MSpawn x :: r.

Definition postread (p : @gpc G) : bool :=
  match p with GRead | GSend _ | GIdle | GWgDone | GDone => true | _ => false end.
Definition ran (p : @gpc G) : bool :=
  match p with GSend _ | GIdle | GWgDone | GDone => true | _ => false end.

Record Inv (c : config) : Prop := {
  i_panic : cpanic c = false;
  i_pcA : forall x, Ab x = false -> cpc c x = GNone;
  i_bst : forall x, Ab x = true ->
     match cpc c x with
     | GNone => bst (cmem c x) = Pending \/ (bst (cmem c x) = Ongoing /\ isMSpawn (cstack c) x)
     | GWgDone | GDone => bst (cmem c x) = Idle
     | _ => bst (cmem c x) = Ongoing
     end;
  i_stack : forall x r, cstack c = MSpawn x :: r ->
     Ab x = true /\ cpc c x = GNone /\ bst (cmem c x) = Ongoing;
  i_tail : forall e l, cstack c = e :: l -> exists r, l = map MVisit r;
  i_visit : forall x, In (MVisit x) (cstack c) -> is_oper g x = true;
  i_frame : forall x, Ab x = false ->
     pend (cmem c x) = pend (mP x) /\ bst (cmem c x) = bst (mP x) /\ bch (cmem c x) = bch (mP x);
  i_pend : forall x, Ab x = true ->
     pend (cmem c x) = (def x + sumZ n (fun y => outp y (cpc c y) x))%Z;
  i_chan : forall x, Ab x = true -> bch (cmem c x) <> NilChan;
  i_close1 : forall x, Ab x = true ->
     (sumZ n (fun y => clsp (cpc c y) x) + isclosed (cmem c x) <= 1)%Z;
  i_close2 : forall x, Ab x = true ->
     (0 < sumZ n (fun y => clsp (cpc c y) x) + isclosed (cmem c x))%Z -> pend (cmem c x) = 0%Z;
  i_wait : forall x, Ab x = true -> cpc c x = GWait -> pend (cmem c x) = 0%Z ->
     (0 < sumZ n (fun y => clsp (cpc c y) x) + isclosed (cmem c x))%Z;
  i_read : forall x, postread (cpc c x) = true -> pend (cmem c x) = 0%Z;
  i_grad : forall x,
     oadd (grad (cmem c x)) (osumn n (fun y => undp y (cpc c y) x)) = gam x;
  i_send : forall y l, cpc c y = GSend l -> forall t v p, In (t, v, p) l ->
     In t (operands_of g y) /\ requires g t = true /\ (isval p = false -> is_oper g t = true);
  i_logd : NoDup (map fst (clog c));
  i_log : forall x v, In (x, v) (clog c) -> gam x = Some v /\ ran (cpc c x) = true;
  i_ran : forall x, ran (cpc c x) = true -> exists v, gam x = Some v /\ In (x, v) (clog c);
  i_wg : cwg c = sumZ n (fun y => wgp (cpc c y));
  i_cov : forall x, Ab x = true -> bst (cmem c x) = Pending ->
     In (MVisit x) (cstack c) \/
     (exists y, In (MSpawn y) (cstack c) /\ In x (operands_of g y)) \/
     (exists y, Ab y = true /\ bst (cmem c y) = Pending /\ In x (operands_of g y));
  i_ret : cret c = true -> cstack c = [] /\ cwg c = 0%Z
}.

Lemma inv_start : Inv (start mP roots).
Proof.
  assert (HAp : forall x, Ab x = true -> bst (mP x) = Pending).
  { intros x Hx. unfold Ab, pendingb in Hx. apply andb_true_iff in Hx. now apply bstate_eqb_eq. }
  constructor; cbn [start cmem cpc cstack cwg clog cret cpanic]; auto.
  - intros x r H. destruct roots; discriminate.
  - intros e l H. destruct roots as [|x r]; [discriminate|]. cbn in H. injection H as <- <-. eauto.
  - intros x H. apply in_map_iff in H. destruct H as (y & Hy & Hin). injection Hy as ->. auto.
  - intros x Hx. rewrite (si_pend _ _ _ _ HP) by (auto using Ab_live).
    unfold uses, def. cbn [outp preread andb]. rewrite <- Z.add_assoc, <- sumZ_add.
    f_equal. apply sumZ_ext. intros y Hy. unfold Ab.
    destruct (is_oper g y) eqn:Eo; cbn [andb].
    + destruct (pendingb mP y); lia.
    + destruct (pendingb mP y); [|lia].
      replace (operands_of g y) with (@nil nat); [reflexivity|].
      destruct (operands_of g y) as [|k l] eqn:El; [reflexivity|].
      assert (is_oper g y = true) by (apply (operands_oper g y k); rewrite El; now left). congruence.
  - intros x Hx. pose proof (si_chan _ _ _ _ HP x (Ab_live x Hx) (HAp x Hx)) as [H|[H _]]; congruence.
  - intros x Hx. cbn [clsp]. rewrite sumZ_zero by reflexivity. unfold isclosed. destruct (bch (mP x)); lia.
  - intros x Hx. cbn [clsp]. rewrite sumZ_zero by reflexivity. unfold isclosed.
    pose proof (si_chan _ _ _ _ HP x (Ab_live x Hx) (HAp x Hx)) as [H|[H H']].
    + rewrite H. lia.
    + intros _. exact H'.
  - intros x Hx H. discriminate.
  - intros x H. discriminate.
  - intros x. cbn [undp preread andb]. symmetry. apply Hgam.
  - intros y l H. discriminate.
  - constructor.
  - intros x v [].
  - intros x H. discriminate.
  - rewrite sumZ_zero by reflexivity. reflexivity.
  - intros x Hx Hp. apply Ab_reached in Hx. inversion Hx as [x' Hin Ho Hl|y x' Hy Hin Ho Hl]; subst.
    + left. apply in_map_iff. eauto.
    + right. right. exists y. split; [now apply Ab_reached|]. split; [|assumption].
      apply HAp. now apply Ab_reached.
  - discriminate.
Qed.

(** Changing the program counter of one goroutine in a sum. *)
Lemma pc_sum (f : nat -> @gpc G -> Z) pc y p : y < n ->
  sumZ n (fun z => f z (upd pc y p z)) = (sumZ n (fun z => f z (pc z)) - f y (pc y) + f y p)%Z.
Proof.
  intros Hy. rewrite (sumZ_change n (fun z => f z (pc z)) _ y Hy).
  - now rewrite upd_same.
  - intros z Hz. now rewrite upd_other.
Qed.

Lemma pc_sum_id (f : nat -> @gpc G -> Z) pc y p : f y p = f y (pc y) ->
  sumZ n (fun z => f z (upd pc y p z)) = sumZ n (fun z => f z (pc z)).
Proof.
  intros H. apply sumZ_ext. intros z _. destruct (Nat.eq_dec z y) as [->|Hne].
  - now rewrite upd_same.
  - now rewrite upd_other.
Qed.

Lemma pc_osum_id (f : nat -> @gpc G -> option G) pc y p : f y p = f y (pc y) ->
  osumn n (fun z => f z (upd pc y p z)) = osumn n (fun z => f z (pc z)).
Proof.
  intros H. apply osumn_ext. intros z _. destruct (Nat.eq_dec z y) as [->|Hne].
  - now rewrite upd_same.
  - now rewrite upd_other.
Qed.

Lemma inv_pc_A c x : Inv c -> cpc c x <> GNone -> Ab x = true.
Proof. intros HI H. destruct (Ab x) eqn:E; [reflexivity|]. elim H. now apply (i_pcA _ HI). Qed.

(** Steps that change only the program counter of [x], between two counters
    that agree on everything the invariant counts. *)
Lemma inv_pc_only c x p :
  Inv c -> Ab x = true -> cpc c x <> GNone -> p <> GNone ->
  (forall z, outp x p z = outp x (cpc c x) z) ->
  (forall z, clsp p z = clsp (cpc c x) z) ->
  (forall z, undp x p z = undp x (cpc c x) z) ->
  wgp p = wgp (cpc c x) -> ran p = ran (cpc c x) ->
  match p with GWgDone | GDone => bst (cmem c x) = Idle | _ => bst (cmem c x) = Ongoing end ->
  (p = GWait -> pend (cmem c x) <> 0%Z) ->
  (postread p = true -> pend (cmem c x) = 0%Z) ->
  (forall l, p = GSend l -> cpc c x = GSend l) ->
  Inv (with_pc c x p).
Proof.
  intros HI Hx Hn Hpn Ho Hc Hu Hw Hr Hb Hwait Hpr Hs.
  destruct HI; constructor; cbn [with_pc cmem cpc cstack cwg clog cret cpanic]; auto.
  - intros z Hz. rewrite upd_other by congruence. auto.
  - intros z Hz. destruct (Nat.eq_dec z x) as [->|Hne].
    + rewrite upd_same. destruct p; auto; congruence.
    + rewrite upd_other by assumption. apply i_bst0. assumption.
  - intros z r Hz. destruct (i_stack0 z r Hz) as (H1 & H2 & H3).
    rewrite upd_other by congruence. auto.
  - intros z Hz. rewrite (pc_sum_id (fun y p => outp y p z)) by apply Ho. auto.
  - intros z Hz. rewrite (pc_sum_id (fun y p => clsp p z)) by apply Hc. auto.
  - intros z Hz. rewrite (pc_sum_id (fun y p => clsp p z)) by apply Hc. auto.
  - intros z Hz. rewrite (pc_sum_id (fun y p => clsp p z)) by apply Hc.
    destruct (Nat.eq_dec z x) as [->|Hne].
    + rewrite upd_same. intros Hp H0. destruct (Hwait Hp H0).
    + rewrite upd_other by assumption. auto.
  - intros z. destruct (Nat.eq_dec z x) as [->|Hne].
    + rewrite upd_same. auto.
    + rewrite upd_other by assumption. auto.
  - intros z. rewrite (pc_osum_id (fun y p => undp y p z)) by apply Hu. auto.
  - intros y l. destruct (Nat.eq_dec y x) as [->|Hne].
    + rewrite upd_same. intros Hp. eauto.
    + rewrite upd_other by assumption. eauto.
  - intros z v Hin. destruct (i_log0 z v Hin) as [H1 H2]. split; [assumption|].
    destruct (Nat.eq_dec z x) as [->|Hne].
    + rewrite upd_same. congruence.
    + now rewrite upd_other.
  - intros z. destruct (Nat.eq_dec z x) as [->|Hne].
    + rewrite upd_same, Hr. auto.
    + rewrite upd_other by assumption. auto.
  - rewrite (pc_sum_id (fun y p => wgp p)) by assumption. assumption.
Qed.

Lemma out_zero c x : Inv c -> Ab x = true -> pend (cmem c x) = 0%Z ->
  def x = 0%Z /\ forall y, y < n -> outp y (cpc c y) x = 0%Z.
Proof.
  intros HI Hx Hp. rewrite (i_pend _ HI x Hx) in Hp.
  pose proof (def_nonneg x Hx) as Hd.
  assert (Hs : (0 <= sumZ n (fun y => outp y (cpc c y) x))%Z)
    by (apply sumZ_nonneg; intros; apply outp_nonneg).
  split; [lia|]. intros y Hy.
  apply (sumZ_eq0 n (fun y => outp y (cpc c y) x) y); [intros; apply outp_nonneg|lia|assumption].
Qed.

(** When nothing is pending the gradient is the final one. *)
Lemma grad_final c x : Inv c -> Ab x = true -> pend (cmem c x) = 0%Z ->
  grad (cmem c x) = gam x.
Proof.
  intros HI Hx Hp. destruct (out_zero c x HI Hx Hp) as [_ Ho].
  rewrite <- (i_grad _ HI x). rewrite osumn_none, oadd_none_r; [reflexivity|].
  intros y Hy. destruct (undp y (cpc c y) x) eqn:E; [|reflexivity].
  assert (0 < outp y (cpc c y) x)%Z by (apply undp_out; congruence).
  rewrite (Ho y Hy) in H. lia.
Qed.

Lemma gam_some c x : Inv c -> Ab x = true -> pend (cmem c x) = 0%Z -> gam x <> None.
Proof.
  intros HI Hx Hp. destruct (out_zero c x HI Hx Hp) as [Hd Ho].
  pose proof Hx as Hr. apply Ab_reached in Hr. rewrite Hgam.
  inversion Hr as [x' Hin Hop Hl|y x' Hy Hin Hop Hl]; subst x'.
  - pose proof (si_done _ _ _ _ HP x Hin) as Hg.
    destruct (grad (mP x)); [|congruence]. destruct (osumn n _); cbn; discriminate.
  - apply Ab_reached in Hy. pose proof (Ab_lt y Hy) as Hyn.
    pose proof (def_zero x y Hx Hd Hy) as Hdz.
    apply cnt_In in Hin. rewrite Hdz in Hin.
    specialize (Ho y Hyn).
    assert (Hran : ran (cpc c y) = true).
    { destruct (cpc c y); cbn [outp preread andb] in Ho; try rewrite Hy in Ho; try lia; reflexivity. }
    destruct (i_ran _ HI y Hran) as (v & Hv & _).
    assert (Hs : osumn n (fun y0 => if Ab y0 then contribution g y0 (gam y0) x else None) <> None).
    { apply (osumn_some gadd gadd_comm gadd_assoc n _ y Hyn). rewrite Hy, Hv.
      apply contribution_some. now apply cnt_In. }
    destruct (osumn n _); [|congruence]. destruct (grad (mP x)); cbn; discriminate.
Qed.

(** ** Preservation *)

Lemma oadd_acc o v r : oadd o (oadd (Some v) r) = oadd (acc gadd o v) r.
Proof.
  rewrite (oadd_assoc gadd gadd_assoc). reflexivity.
Qed.

Lemma inv_send c x l1 t v p l2 :
  Inv c -> cpc c x = GSend (l1 ++ (t, v, p) :: l2) ->
  Inv (let '(c', k) := acc_step gadd g c t v p in
       with_pc c' x (GSend (l1 ++ match k with Some p' => (t, v, p') :: l2 | None => l2 end))).
Proof.
  intros HI Hpc.
  assert (Hx : Ab x = true) by (apply (inv_pc_A c x HI); congruence).
  pose proof (Ab_lt x Hx) as Hxn.
  destruct (i_send c HI x _ Hpc t v p ltac:(apply in_or_app; right; now left)) as (Hin & Hreq & Hop).
  assert (Htx : t <> x) by (pose proof (Hacyc x t Hin); lia).
  assert (HAt : is_oper g t = true -> Ab t = true) by (intros; eapply Ab_operand; eauto).
  assert (Hbx : bst (cmem c x) = Ongoing).
  { pose proof (i_bst c HI x Hx) as H. rewrite Hpc in H. exact H. }
  assert (Hpx : pend (cmem c x) = 0%Z) by (apply (i_read c HI); rewrite Hpc; reflexivity).
  assert (Hout1 : isclose p = false -> Ab t = true -> (1 <= pend (cmem c t))%Z).
  { intros Hc HA. rewrite (i_pend c HI t HA). pose proof (def_nonneg t HA).
    pose proof (sumZ_ge n (fun y => outp y (cpc c y) t) x (fun z _ => outp_nonneg _ _ _) Hxn) as Hge.
    cbv beta in Hge. rewrite Hpc in Hge. cbn [outp] in Hge. rewrite sumL_app in Hge.
    cbn [sumL eo] in Hge. rewrite Nat.eqb_refl, Hc in Hge. cbn [andb negb] in Hge.
    pose proof (sumL_nonneg (eo t) l1 (eo_nonneg t)). pose proof (sumL_nonneg (eo t) l2 (eo_nonneg t)). lia. }
  (* the conditions that only depend on the entry list of x *)
  assert (Hmain : forall c' l',
    cpc c' = cpc c -> cstack c' = cstack c -> cwg c' = cwg c -> clog c' = clog c ->
    cret c' = cret c -> cpanic c' = cpanic c ->
    (forall z, z <> t -> cmem c' z = cmem c z) ->
    bst (cmem c' t) = bst (cmem c t) ->
    (Ab t = false -> pend (cmem c' t) = pend (cmem c t) /\ bch (cmem c' t) = bch (cmem c t)) ->
    (bch (cmem c t) <> NilChan -> bch (cmem c' t) <> NilChan) ->
    (forall z, z <> t -> sumL (eo z) l' = sumL (eo z) (l1 ++ (t, v, p) :: l2)) ->
    (forall z, z <> t -> sumL (ec z) l' = sumL (ec z) (l1 ++ (t, v, p) :: l2)) ->
    (forall z, z <> t -> osum (map (eu z) l') = osum (map (eu z) (l1 ++ (t, v, p) :: l2))) ->
    (Ab t = true -> (pend (cmem c' t) - pend (cmem c t) = sumL (eo t) l' - sumL (eo t) (l1 ++ (t, v, p) :: l2))%Z) ->
    (let d := (sumL (ec t) l' - sumL (ec t) (l1 ++ (t, v, p) :: l2) + isclosed (cmem c' t) - isclosed (cmem c t))%Z in
       Ab t = true ->
       (d = 0 /\ pend (cmem c' t) = pend (cmem c t))%Z \/
       (d = 0 /\ 0 < pend (cmem c t) /\ 0 < pend (cmem c' t))%Z \/
       (d = 1 /\ 0 < pend (cmem c t) /\ pend (cmem c' t) = 0)%Z) ->
    (oadd (grad (cmem c' t)) (osum (map (eu t) l')) = oadd (grad (cmem c t)) (osum (map (eu t) (l1 ++ (t, v, p) :: l2)))) ->
    (forall t' v' p', In (t', v', p') l' ->
        In t' (operands_of g x) /\ requires g t' = true /\ (isval p' = false -> is_oper g t' = true)) ->
    Inv (with_pc c' x (GSend l'))).
  { intros c' l' E1 E2 E3 E4 E5 E6 Hmo Hbt HtF Hnil Ho Hc Hu Hpt Hct Hgt Hsnd.
    assert (Hsum_o : forall z, sumZ n (fun y => outp y (upd (cpc c) x (GSend l') y) z)
       = (sumZ n (fun y => outp y (cpc c y) z) - sumL (eo z) (l1 ++ (t,v,p)::l2) + sumL (eo z) l')%Z).
    { intros z. rewrite (pc_sum (fun y p => outp y p z)) by assumption. rewrite Hpc. reflexivity. }
    assert (Hsum_c : forall z, sumZ n (fun y => clsp (upd (cpc c) x (GSend l') y) z)
       = (sumZ n (fun y => clsp (cpc c y) z) - sumL (ec z) (l1 ++ (t,v,p)::l2) + sumL (ec z) l')%Z).
    { intros z. rewrite (pc_sum (fun y p => clsp p z)) by assumption. rewrite Hpc. reflexivity. }
    assert (Hbst : forall z, bst (cmem c' z) = bst (cmem c z)).
    { intros z. destruct (Nat.eq_dec z t) as [->|Hne]; [assumption|]. now rewrite Hmo. }
    assert (Hcl_nn : forall z, (0 <= sumZ n (fun y => clsp (cpc c y) z))%Z)
      by (intros; apply sumZ_nonneg; intros; apply clsp_nonneg).
    assert (Hicl_nn : forall s : @nstate G, (0 <= isclosed s)%Z) by (intros s; unfold isclosed; destruct (bch s); lia).
    destruct HI; constructor; cbn [with_pc cmem cpc cstack cwg clog cret cpanic];
      rewrite ?E1, ?E2, ?E3, ?E4, ?E5, ?E6; auto.
    - intros z Hz. rewrite upd_other by congruence. auto.
    - intros z Hz. rewrite Hbst. destruct (Nat.eq_dec z x) as [->|Hne].
      + now rewrite upd_same.
      + rewrite upd_other by assumption. apply i_bst0. assumption.
    - intros z r Hz. rewrite Hbst. destruct (i_stack0 z r Hz) as (H1 & H2 & H3).
      rewrite upd_other by congruence. auto.
    - intros z Hz. rewrite Hbst. destruct (i_frame0 z Hz) as (H1 & H2 & H3).
      destruct (Nat.eq_dec z t) as [->|Hne].
      + destruct (HtF Hz) as [-> ->]. auto.
      + rewrite Hmo by assumption. auto.
    - intros z Hz. rewrite Hsum_o. destruct (Nat.eq_dec z t) as [->|Hne].
      + specialize (Hpt Hz). specialize (i_pend0 t Hz). lia.
      + rewrite Hmo, Ho by assumption. specialize (i_pend0 z Hz). lia.
    - intros z Hz. destruct (Nat.eq_dec z t) as [->|Hne]; [apply Hnil; auto|]. rewrite Hmo by assumption. auto.
    - intros z Hz. rewrite Hsum_c. destruct (Nat.eq_dec z t) as [->|Hne].
      + specialize (Hct Hz). cbv zeta in Hct. specialize (i_close3 t Hz). specialize (i_close4 t Hz).
        specialize (Hcl_nn t). pose proof (Hicl_nn (cmem c t)).
        destruct Hct as [[Hd1 Hd2]|[(Hd1 & Hd2 & Hd3)|(Hd1 & Hd2 & Hd3)]]; lia.
      + rewrite Hmo, Hc by assumption. specialize (i_close3 z Hz). lia.
    - intros z Hz. rewrite Hsum_c. destruct (Nat.eq_dec z t) as [->|Hne].
      + specialize (Hct Hz). cbv zeta in Hct. specialize (i_close4 t Hz).
        destruct Hct as [[Hd1 Hd2]|[(Hd1 & Hd2 & Hd3)|(Hd1 & Hd2 & Hd3)]]; lia.
      + rewrite Hmo, Hc by assumption. specialize (i_close4 z Hz). lia.
    - intros z Hz. rewrite Hsum_c. destruct (Nat.eq_dec z x) as [->|Hzx].
      + rewrite upd_same. discriminate.
      + rewrite upd_other by assumption. intros Hw. destruct (Nat.eq_dec z t) as [->|Hne].
        * specialize (Hct Hz). cbv zeta in Hct. specialize (i_wait0 t Hz Hw).
          specialize (Hcl_nn t). pose proof (Hicl_nn (cmem c t)). intros Hp0.
          destruct Hct as [[Hd1 Hd2]|[(Hd1 & Hd2 & Hd3)|(Hd1 & Hd2 & Hd3)]]; lia.
        * rewrite Hmo, Hc by assumption. specialize (i_wait0 z Hz Hw). lia.
    - intros z. destruct (Nat.eq_dec z x) as [->|Hzx].
      + intros _. rewrite Hmo by auto. assumption.
      + rewrite upd_other by assumption. intros Hpr. destruct (Nat.eq_dec z t) as [->|Hne].
        * assert (HA : Ab t = true).
          { destruct (Ab t) eqn:E; [reflexivity|]. rewrite (i_pcA0 t E) in Hpr. discriminate. }
          specialize (Hct HA). cbv zeta in Hct. specialize (i_read0 t Hpr).
          destruct Hct as [[Hd1 Hd2]|[(Hd1 & Hd2 & Hd3)|(Hd1 & Hd2 & Hd3)]]; lia.
        * rewrite Hmo by assumption. auto.
    - intros z. specialize (i_grad0 z).
      eapply (osumn_change gadd gadd_comm gadd_assoc n (fun y => undp y (cpc c y) z) _ x); [assumption| | |exact i_grad0].
      + intros y Hy. now rewrite upd_other.
      + rewrite upd_same, Hpc. cbn [undp]. destruct (Nat.eq_dec z t) as [->|Hne].
        * symmetry. exact Hgt.
        * rewrite Hmo, Hu by assumption. reflexivity.
    - intros y l. destruct (Nat.eq_dec y x) as [->|Hne].
      + rewrite upd_same. intros [= <-]. intros. eapply Hsnd; eauto.
      + rewrite upd_other by assumption. eauto.
    - intros z w Hz. destruct (i_log0 z w Hz) as [H1 H2]. split; [assumption|].
      destruct (Nat.eq_dec z x) as [->|Hne]; [now rewrite upd_same|now rewrite upd_other].
    - intros z. destruct (Nat.eq_dec z x) as [->|Hne].
      + rewrite upd_same. intros _. apply i_ran0. now rewrite Hpc.
      + rewrite upd_other by assumption. auto.
    - rewrite (pc_sum_id (fun y p => wgp p)); [assumption|]. now rewrite Hpc.
    - intros z Hz. rewrite Hbst. intros Hp. destruct (i_cov0 z Hz Hp) as [H|[H|(y & H1 & H2 & H3)]]; auto.
      right; right. exists y. rewrite Hbst. auto. }
  assert (Hsnd0 : forall t' v' p', In (t', v', p') (l1 ++ l2) ->
        In t' (operands_of g x) /\ requires g t' = true /\ (isval p' = false -> is_oper g t' = true)).
  { intros t' v' p' Hi. apply (i_send c HI x _ Hpc t' v' p').
    apply in_app_or in Hi. apply in_or_app. destruct Hi; [now left|right; now right]. }
  assert (Hsnd1 : forall p1, is_oper g t = true -> forall t' v' p', In (t', v', p') (l1 ++ (t, v, p1) :: l2) ->
        In t' (operands_of g x) /\ requires g t' = true /\ (isval p' = false -> is_oper g t' = true)).
  { intros p1 Hpo t' v' p' Hi. apply in_app_or in Hi.
    destruct Hi as [Hi|[Hi|Hi]]; [apply (Hsnd0 t' v' p'), in_or_app; now left| |apply (Hsnd0 t' v' p'), in_or_app; now right].
    injection Hi as <- <- <-. auto. }
  destruct p; cbn [acc_step].
  - (* AVal *)
    set (c' := with_mem c (modify (cmem c) t (fun s => set_grad (acc gadd (grad s) v) s))).
    assert (Hmt : cmem c' t = set_grad (acc gadd (grad (cmem c t)) v) (cmem c t)).
    { unfold c'. cbn [with_mem cmem]. now rewrite modify_same. }
    assert (Hgr : forall r, (forall z, z <> t -> osum (map (eu z) r) = None) -> osum (map (eu t) r) = None ->
        oadd (grad (cmem c' t)) (osum (map (eu t) (l1 ++ r ++ l2))) =
        oadd (grad (cmem c t)) (osum (map (eu t) (l1 ++ (t, v, AVal) :: l2)))).
    { intros r _ Hr. rewrite Hmt. cbn [grad set_grad].
      rewrite !map_app. cbn [map eu isval]. rewrite Nat.eqb_refl. cbn [andb].
      rewrite !(osum_app gadd gadd_assoc), Hr, oadd_none_l. cbn [AgSpec.osum fold_right].
      rewrite (oadd_assoc gadd gadd_assoc (osum (map (eu t) l1))).
      rewrite (oadd_comm gadd gadd_comm (osum (map (eu t) l1)) (Some v)).
      rewrite <- (oadd_assoc gadd gadd_assoc (Some v)).
      now rewrite oadd_acc. }
    destruct (is_oper g t) eqn:Eo.
    + apply (Hmain c' (l1 ++ (t, v, AChk) :: l2)); unfold c'; try reflexivity; fold c'.
      * intros z Hz. unfold c'. cbn [with_mem cmem]. now rewrite modify_other.
      * now rewrite Hmt.
      * rewrite Hmt. auto.
      * now rewrite Hmt.
      * intros z Hz. rewrite !sumL_app. cbn [sumL eo]. destruct (Nat.eqb_spec t z); [congruence|]. reflexivity.
      * intros z Hz. rewrite !sumL_app. cbn [sumL ec]. destruct (Nat.eqb_spec t z); [congruence|]. reflexivity.
      * intros z Hz. rewrite !map_app. cbn [map eu]. destruct (Nat.eqb_spec t z); [congruence|]. reflexivity.
      * intros _. rewrite Hmt. cbn [pend set_grad]. rewrite !sumL_app. cbn [sumL eo isclose]. lia.
      * cbv zeta. intros _. left. rewrite Hmt. split; [|reflexivity]. unfold isclosed. cbn [bch set_grad].
        rewrite !sumL_app. cbn [sumL ec isclose]. lia.
      * apply (Hgr [(t, v, AChk)]).
        -- intros z _. cbn. now rewrite andb_false_r.
        -- cbn. now rewrite andb_false_r.
      * apply Hsnd1. reflexivity.
    + assert (HnA : Ab t = false) by (unfold Ab; now rewrite Eo).
      apply (Hmain c' (l1 ++ l2)); unfold c'; try reflexivity; fold c'.
      * intros z Hz. unfold c'. cbn [with_mem cmem]. now rewrite modify_other.
      * now rewrite Hmt.
      * rewrite Hmt. auto.
      * now rewrite Hmt.
      * intros z Hz. rewrite !sumL_app. cbn [sumL eo]. destruct (Nat.eqb_spec t z); [congruence|]. cbn [andb]. lia.
      * intros z Hz. rewrite !sumL_app. cbn [sumL ec]. destruct (Nat.eqb_spec t z); [congruence|]. cbn [andb]. lia.
      * intros z Hz. rewrite !map_app. cbn [map eu]. destruct (Nat.eqb_spec t z); [congruence|].
        cbn [andb]. rewrite !(osum_app gadd gadd_assoc). reflexivity.
      * congruence.
      * cbv zeta. congruence.
      * apply (Hgr []); reflexivity.
      * exact Hsnd0.
  - (* AChk *)
    assert (Eo : is_oper g t = true) by (apply Hop; reflexivity).
    specialize (HAt Eo). specialize (Hout1 eq_refl HAt).
    assert (Hni : bstate_eqb (bst (cmem c t)) Idle = false).
    { apply bstate_eqb_neq. intros Hi. pose proof (i_bst c HI t HAt) as Hb.
      assert (Hpr : postread (cpc c t) = true).
      { destruct (cpc c t); try reflexivity; try congruence. destruct Hb as [?|[? _]]; congruence. }
      rewrite (i_read c HI t Hpr) in Hout1. lia. }
    rewrite Hni.
    apply (Hmain c (l1 ++ (t, v, ADec) :: l2)); auto.
    + intros z Hz. rewrite !sumL_app. reflexivity.
    + intros z Hz. rewrite !sumL_app. reflexivity.
    + intros z Hz. rewrite !map_app. reflexivity.
    + intros _. rewrite !sumL_app. cbn [sumL eo isclose]. lia.
    + cbv zeta. intros _. left. rewrite !sumL_app. cbn [sumL ec isclose]. lia.
    + rewrite !map_app. reflexivity.
    + apply Hsnd1. assumption.
  - (* ADec *)
    assert (Eo : is_oper g t = true) by (apply Hop; reflexivity).
    specialize (HAt Eo). specialize (Hout1 eq_refl HAt).
    set (m' := modify (cmem c) t (fun s => set_pend (pend s - 1) s)).
    assert (Hmt : m' t = set_pend (pend (cmem c t) - 1) (cmem c t)) by (unfold m'; now rewrite modify_same).
    assert (Hmo : forall z, z <> t -> m' z = cmem c z) by (intros; unfold m'; now rewrite modify_other).
    destruct (Z.eqb_spec (pend (m' t)) 0) as [H0|H0].
    + apply (Hmain (with_mem c m') (l1 ++ (t, v, AClose) :: l2)); cbn [with_mem cmem]; auto.
      * now rewrite Hmt.
      * congruence.
      * now rewrite Hmt.
      * intros z Hz. rewrite !sumL_app. cbn [sumL eo]. destruct (Nat.eqb_spec t z); [congruence|]. reflexivity.
      * intros z Hz. rewrite !sumL_app. cbn [sumL ec]. destruct (Nat.eqb_spec t z); [congruence|]. reflexivity.
      * intros z Hz. rewrite !map_app. reflexivity.
      * intros _. rewrite Hmt. cbn [pend set_pend]. rewrite !sumL_app. cbn [sumL eo isclose].
        rewrite Nat.eqb_refl. cbn [andb negb]. lia.
      * cbv zeta. intros _. right; right. split; [|split; [lia|assumption]].
        rewrite Hmt. unfold isclosed. cbn [bch set_pend]. rewrite !sumL_app. cbn [sumL ec isclose].
        rewrite Nat.eqb_refl. cbn [andb]. lia.
      * rewrite Hmt. rewrite !map_app. reflexivity.
      * apply Hsnd1. assumption.
    + apply (Hmain (with_mem c m') (l1 ++ l2)); cbn [with_mem cmem]; auto.
      * now rewrite Hmt.
      * congruence.
      * now rewrite Hmt.
      * intros z Hz. rewrite !sumL_app. cbn [sumL eo]. destruct (Nat.eqb_spec t z); [congruence|]. cbn [andb]. lia.
      * intros z Hz. rewrite !sumL_app. cbn [sumL ec]. destruct (Nat.eqb_spec t z); [congruence|]. cbn [andb]. lia.
      * intros z Hz. rewrite !map_app. cbn [map eu isval]. rewrite andb_false_r.
        rewrite !(osum_app gadd gadd_assoc). reflexivity.
      * intros _. rewrite Hmt. cbn [pend set_pend]. rewrite !sumL_app. cbn [sumL eo isclose].
        rewrite Nat.eqb_refl. cbn [andb negb]. lia.
      * cbv zeta. intros _. right; left. rewrite Hmt in *. cbn [pend set_pend] in *.
        split; [|split; lia].
        unfold isclosed. cbn [bch set_pend]. rewrite !sumL_app. cbn [sumL ec isclose].
        rewrite andb_false_r. lia.
      * rewrite Hmt. cbn [grad set_pend]. rewrite !map_app. cbn [map eu isval]. rewrite andb_false_r.
        rewrite !(osum_app gadd gadd_assoc). reflexivity.
  - (* AClose *)
    assert (Eo : is_oper g t = true) by (apply Hop; reflexivity).
    specialize (HAt Eo).
    assert (Hcls : (1 <= sumZ n (fun y => clsp (cpc c y) t))%Z).
    { pose proof (sumZ_ge n (fun y => clsp (cpc c y) t) x (fun z _ => clsp_nonneg _ _) Hxn) as Hge.
      cbv beta in Hge. rewrite Hpc in Hge. cbn [clsp] in Hge. rewrite sumL_app in Hge.
      cbn [sumL ec isclose] in Hge. rewrite Nat.eqb_refl in Hge. cbn [andb] in Hge.
      pose proof (sumL_nonneg (ec t) l1 (ec_nonneg t)). pose proof (sumL_nonneg (ec t) l2 (ec_nonneg t)). lia. }
    assert (Hopen : bch (cmem c t) = OpenChan).
    { pose proof (i_close1 c HI t HAt) as H1. pose proof (i_chan c HI t HAt) as H2.
      unfold isclosed in H1. destruct (bch (cmem c t)); [congruence|reflexivity|lia]. }
    rewrite Hopen.
    set (m' := modify (cmem c) t (set_bch ClosedChan)).
    assert (Hmt : m' t = set_bch ClosedChan (cmem c t)) by (unfold m'; now rewrite modify_same).
    assert (Hmo : forall z, z <> t -> m' z = cmem c z) by (intros; unfold m'; now rewrite modify_other).
    apply (Hmain (with_mem c m') (l1 ++ l2)); cbn [with_mem cmem]; auto.
    + now rewrite Hmt.
    + congruence.
    + rewrite Hmt. discriminate.
    + intros z Hz. rewrite !sumL_app. cbn [sumL eo]. destruct (Nat.eqb_spec t z); [congruence|]. cbn [andb]. lia.
    + intros z Hz. rewrite !sumL_app. cbn [sumL ec]. destruct (Nat.eqb_spec t z); [congruence|]. cbn [andb]. lia.
    + intros z Hz. rewrite !map_app. cbn [map eu isval]. rewrite andb_false_r.
      rewrite !(osum_app gadd gadd_assoc). reflexivity.
    + intros _. rewrite Hmt. cbn [pend set_bch]. rewrite !sumL_app. cbn [sumL eo isclose].
      rewrite andb_false_r. lia.
    + cbv zeta. intros _. left. rewrite Hmt. split; [|reflexivity].
      unfold isclosed. cbn [bch set_bch]. rewrite Hopen. rewrite !sumL_app. cbn [sumL ec isclose].
      rewrite Nat.eqb_refl. cbn [andb]. lia.
    + rewrite Hmt. cbn [grad set_bch]. rewrite !map_app. cbn [map eu isval]. rewrite andb_false_r.
      rewrite !(osum_app gadd gadd_assoc). reflexivity.
Qed.

Lemma tail_visits c e l : Inv c -> cstack c = e :: l -> forall x r, l <> MSpawn x :: r.
Proof.
  intros HI Hs x r ->. destruct (i_tail _ HI _ _ Hs) as (q & Hq). destruct q; discriminate.
Qed.

Lemma inv_skip c x st : Inv c -> cstack c = MVisit x :: st ->
  (requires g x && bstate_eqb (bst (cmem c x)) Pending) = false -> cret c = false ->
  Inv (with_stack c st).
Proof.
  intros HI Hst Hf Hret.
  pose proof (tail_visits c _ _ HI Hst) as Htv.
  destruct HI; constructor; cbn [with_stack cmem cpc cstack cwg clog cret cpanic]; auto.
  - intros z Hz. specialize (i_bst0 z Hz). destruct (cpc c z); auto.
    destruct i_bst0 as [H|[H (r & Hr)]]; [now left|]. rewrite Hst in Hr. discriminate.
  - intros z r Hz. destruct (Htv z r Hz).
  - intros e l Hz. destruct (i_tail0 _ _ Hst) as (q & Hq). rewrite Hq in Hz.
    destruct q as [|a q]; [discriminate|]. cbn in Hz. injection Hz as <- <-. eauto.
  - intros z Hz. apply i_visit0. rewrite Hst. now right.
  - intros z Hz Hp. rewrite Hst in i_cov0.
    destruct (i_cov0 z Hz Hp) as [H|[(y & Hy & Hin)|H]]; [left|right; left|right; now right].
    + destruct H as [H|H]; [|assumption]. injection H as ->.
      rewrite (Ab_requires z Hz), Hp in Hf. discriminate.
    + exists y. destruct Hy as [Hy|Hy]; [discriminate|]. auto.
  - congruence.
Qed.

Lemma inv_cas c x st : Inv c -> cstack c = MVisit x :: st ->
  (requires g x && bstate_eqb (bst (cmem c x)) Pending) = true -> cret c = false ->
  Inv (with_stack (with_mem c (modify (cmem c) x (set_bst Ongoing))) (MSpawn x :: st)).
Proof.
  intros HI Hst Hf Hret. apply andb_true_iff in Hf. destruct Hf as [Hreq Hp].
  apply bstate_eqb_eq in Hp.
  assert (Hop : is_oper g x = true) by (apply (i_visit _ HI); rewrite Hst; now left).
  assert (HA : Ab x = true).
  { destruct (Ab x) eqn:E; [reflexivity|]. destruct (i_frame _ HI x E) as (_ & Hb & _).
    unfold Ab in E. rewrite Hop in E. cbn [andb] in E. unfold pendingb in E.
    rewrite <- Hb, Hp in E. discriminate. }
  assert (Hpc : cpc c x = GNone).
  { pose proof (i_bst _ HI x HA) as H. rewrite Hp in H. destruct (cpc c x); try discriminate. reflexivity. }
  set (m' := modify (cmem c) x (set_bst Ongoing)).
  assert (Hmx : m' x = set_bst Ongoing (cmem c x)) by (unfold m'; now rewrite modify_same).
  assert (Hmo : forall z, z <> x -> m' z = cmem c z) by (intros; unfold m'; now rewrite modify_other).
  assert (Hpend : forall z, pend (m' z) = pend (cmem c z)).
  { intros z. destruct (Nat.eq_dec z x) as [->|Hne]; [now rewrite Hmx|now rewrite Hmo]. }
  assert (Hbch : forall z, bch (m' z) = bch (cmem c z)).
  { intros z. destruct (Nat.eq_dec z x) as [->|Hne]; [now rewrite Hmx|now rewrite Hmo]. }
  assert (Hgrad : forall z, grad (m' z) = grad (cmem c z)).
  { intros z. destruct (Nat.eq_dec z x) as [->|Hne]; [now rewrite Hmx|now rewrite Hmo]. }
  assert (Hcl : forall z, isclosed (m' z) = isclosed (cmem c z)).
  { intros z. unfold isclosed. now rewrite Hbch. }
  destruct HI; constructor; cbn [with_stack with_mem cmem cpc cstack cwg clog cret cpanic]; auto.
  - intros z Hz. destruct (Nat.eq_dec z x) as [->|Hne].
    + rewrite Hpc, Hmx. right. split; [reflexivity|]. now exists st.
    + rewrite Hmo by assumption. specialize (i_bst0 z Hz). destruct (cpc c z); auto.
      destruct i_bst0 as [H|[H (r & Hr)]]; [now left|]. rewrite Hst in Hr. discriminate.
  - intros z r [= <- <-]. rewrite Hmx. auto.
  - intros e l [= <- <-]. eauto.
  - intros z [Hz|Hz]; [discriminate|]. apply i_visit0. rewrite Hst. now right.
  - intros z Hz. rewrite Hpend, Hbch. destruct (i_frame0 z Hz) as (H1 & H2 & H3).
    rewrite Hmo by congruence. auto.
  - intros z Hz. rewrite Hpend. auto.
  - intros z Hz. rewrite Hbch. auto.
  - intros z Hz. rewrite Hcl. auto.
  - intros z Hz. rewrite Hcl, Hpend. auto.
  - intros z Hz. rewrite Hcl, Hpend. auto.
  - intros z. rewrite Hpend. auto.
  - intros z. rewrite Hgrad. auto.
  - intros z Hz. destruct (Nat.eq_dec z x) as [->|Hne]; [rewrite Hmx; discriminate|].
    rewrite Hmo by assumption. intros Hzp. rewrite Hst in i_cov0.
    destruct (i_cov0 z Hz Hzp) as [H|[(y & Hy & Hin)|(y & H1 & H2 & H3)]].
    + left. destruct H as [H|H]; [congruence|]. now right.
    + right; left. exists y. destruct Hy as [Hy|Hy]; [discriminate|]. split; [now right|assumption].
    + destruct (Nat.eq_dec y x) as [->|Hyx].
      * right; left. exists x. split; [now left|assumption].
      * right; right. exists y. rewrite Hmo by assumption. auto.
  - congruence.
Qed.

Lemma inv_spawn c x st : Inv c -> cstack c = MSpawn x :: st -> cret c = false ->
  Inv (with_stack (with_wg (with_pc c x GIdleChk) (cwg c + 1)) (map MVisit (op_operands g x) ++ st)).
Proof.
  intros HI Hst Hret. destruct (i_stack _ HI x st Hst) as (HA & Hpc & Hb).
  pose proof (Ab_lt x HA) as Hxn.
  pose proof (tail_visits c _ _ HI Hst) as Htv.
  destruct (i_tail _ HI _ _ Hst) as (q & Hq).
  assert (Hnew : map MVisit (op_operands g x) ++ st = map MVisit (op_operands g x ++ q)).
  { now rewrite map_app, Hq. }
  assert (Hids : forall z, outp x GIdleChk z = outp x (cpc c x) z) by (intros; rewrite Hpc; reflexivity).
  assert (Hidc : forall z, clsp GIdleChk z = clsp (cpc c x) z) by (intros; rewrite Hpc; reflexivity).
  assert (Hidu : forall z, undp x GIdleChk z = undp x (cpc c x) z) by (intros; rewrite Hpc; reflexivity).
  destruct HI; constructor; cbn [with_stack with_wg with_pc cmem cpc cstack cwg clog cret cpanic]; auto.
  - intros z Hz. rewrite upd_other by congruence. auto.
  - intros z Hz. destruct (Nat.eq_dec z x) as [->|Hne].
    + now rewrite upd_same.
    + rewrite upd_other by assumption. specialize (i_bst0 z Hz). destruct (cpc c z); auto.
      destruct i_bst0 as [H|[H (r & Hr)]]; [now left|]. rewrite Hst in Hr. congruence.
  - intros z r Hz. rewrite Hnew in Hz. destruct (op_operands g x ++ q); discriminate.
  - intros e l Hz. rewrite Hnew in Hz. destruct (op_operands g x ++ q); [discriminate|].
    cbn in Hz. injection Hz as <- <-. eauto.
  - intros z Hz. apply in_app_or in Hz. destruct Hz as [Hz|Hz].
    + apply in_map_iff in Hz. destruct Hz as (k & Hk & Hin). injection Hk as ->.
      unfold op_operands in Hin. apply filter_In in Hin. tauto.
    + apply i_visit0. rewrite Hst. now right.
  - intros z Hz. rewrite (pc_sum_id (fun y p => outp y p z)) by apply Hids. auto.
  - intros z Hz. rewrite (pc_sum_id (fun y p => clsp p z)) by apply Hidc. auto.
  - intros z Hz. rewrite (pc_sum_id (fun y p => clsp p z)) by apply Hidc. auto.
  - intros z Hz. rewrite (pc_sum_id (fun y p => clsp p z)) by apply Hidc.
    destruct (Nat.eq_dec z x) as [->|Hne]; [rewrite upd_same; discriminate|].
    rewrite upd_other by assumption. auto.
  - intros z. destruct (Nat.eq_dec z x) as [->|Hne]; [rewrite upd_same; discriminate|].
    rewrite upd_other by assumption. auto.
  - intros z. rewrite (pc_osum_id (fun y p => undp y p z)) by apply Hidu. auto.
  - intros y l. destruct (Nat.eq_dec y x) as [->|Hne]; [rewrite upd_same; discriminate|].
    rewrite upd_other by assumption. eauto.
  - intros z v Hz. destruct (i_log0 z v Hz) as [H1 H2]. split; [assumption|].
    destruct (Nat.eq_dec z x) as [->|Hne]; [rewrite Hpc in H2; discriminate|]. now rewrite upd_other.
  - intros z. destruct (Nat.eq_dec z x) as [->|Hne]; [rewrite upd_same; discriminate|].
    rewrite upd_other by assumption. auto.
  - rewrite (pc_sum (fun y p => wgp p)) by assumption. rewrite Hpc, i_wg0. cbn [wgp]. lia.
  - intros z Hz Hp. rewrite Hst in i_cov0.
    destruct (i_cov0 z Hz Hp) as [H|[(y & Hy & Hin)|H]]; [| |right; now right].
    + left. destruct H as [H|H]; [discriminate|]. apply in_or_app. now right.
    + destruct Hy as [Hy|Hy].
      * injection Hy as <-. left. apply in_or_app. left. apply in_map. unfold op_operands.
        apply filter_In. split; [assumption|]. now apply Ab_oper.
      * right; left. exists y. split; [|assumption]. apply in_or_app. now right.
  - congruence.
Qed.

Lemma inv_read c x v : Inv c -> cpc c x = GRead -> grad (cmem c x) = Some v ->
  Inv (with_log (with_pc c x (GSend (map (fun p => (fst p, snd p v, AVal)) (live_sends g x)))) ((x, v) :: clog c)).
Proof.
  intros HI Hpc Hg.
  assert (HA : Ab x = true) by (apply (inv_pc_A c x HI); congruence).
  pose proof (Ab_lt x HA) as Hxn.
  assert (Hp0 : pend (cmem c x) = 0%Z) by (apply (i_read _ HI); rewrite Hpc; reflexivity).
  assert (Hgam' : gam x = Some v) by (rewrite <- (grad_final c x HI HA Hp0); assumption).
  set (l := map (fun p => (fst p, snd p v, AVal)) (live_sends g x)).
  assert (Hids : forall z, outp x (GSend l) z = outp x (cpc c x) z).
  { intros z. rewrite Hpc. cbn [outp preread andb]. rewrite HA. unfold l. now rewrite fresh_out. }
  assert (Hidc : forall z, clsp (GSend l) z = clsp (cpc c x) z).
  { intros z. rewrite Hpc. cbn [clsp]. unfold l. now rewrite fresh_cls. }
  assert (Hidu : forall z, undp x (GSend l) z = undp x (cpc c x) z).
  { intros z. rewrite Hpc. cbn [undp preread andb]. rewrite HA, Hgam'. unfold l. now rewrite fresh_und. }
  assert (Hb : bst (cmem c x) = Ongoing).
  { pose proof (i_bst _ HI x HA) as H. now rewrite Hpc in H. }
  destruct HI; constructor; cbn [with_log with_pc cmem cpc cstack cwg clog cret cpanic]; auto.
  - intros z Hz. rewrite upd_other by congruence. auto.
  - intros z Hz. destruct (Nat.eq_dec z x) as [->|Hne]; [now rewrite upd_same|].
    rewrite upd_other by assumption. apply i_bst0. assumption.
  - intros z r Hz. destruct (i_stack0 z r Hz) as (H1 & H2 & H3). rewrite upd_other by congruence. auto.
  - intros z Hz. rewrite (pc_sum_id (fun y p => outp y p z)) by apply Hids. auto.
  - intros z Hz. rewrite (pc_sum_id (fun y p => clsp p z)) by apply Hidc. auto.
  - intros z Hz. rewrite (pc_sum_id (fun y p => clsp p z)) by apply Hidc. auto.
  - intros z Hz. rewrite (pc_sum_id (fun y p => clsp p z)) by apply Hidc.
    destruct (Nat.eq_dec z x) as [->|Hne]; [rewrite upd_same; discriminate|].
    rewrite upd_other by assumption. auto.
  - intros z. destruct (Nat.eq_dec z x) as [->|Hne]; [auto|]. rewrite upd_other by assumption. auto.
  - intros z. rewrite (pc_osum_id (fun y p => undp y p z)) by apply Hidu. auto.
  - intros y l'. destruct (Nat.eq_dec y x) as [->|Hne].
    + rewrite upd_same. intros [= <-] t w p Hin. unfold l in Hin. apply in_map_iff in Hin.
      destruct Hin as ([t' f] & Heq & Hin). injection Heq as <- <- <-.
      assert (Ht : In t' (stargets x)) by (unfold stargets; apply in_map_iff; exists (t', f); auto).
      apply stargets_In in Ht. destruct Ht. repeat split; auto. discriminate.
    + rewrite upd_other by assumption. eauto.
  - cbn [map fst]. constructor; [|assumption]. intros Hin. apply in_map_iff in Hin.
    destruct Hin as ([z w] & Hz & Hin). cbn in Hz. subst z. destruct (i_log0 x w Hin) as [_ Hr].
    rewrite Hpc in Hr. discriminate.
  - intros z w [Hz|Hz].
    + injection Hz as <- <-. rewrite upd_same. auto.
    + destruct (i_log0 z w Hz) as [H1 H2]. split; [assumption|].
      destruct (Nat.eq_dec z x) as [->|Hne]; [now rewrite upd_same|now rewrite upd_other].
  - intros z. destruct (Nat.eq_dec z x) as [->|Hne].
    + intros _. exists v. split; [assumption|now left].
    + rewrite upd_other by assumption. intros Hr. destruct (i_ran0 z Hr) as (w & Hw & Hin).
      exists w. split; [assumption|now right].
  - rewrite (pc_sum_id (fun y p => wgp p)); [assumption|]. now rewrite Hpc.
Qed.

Lemma inv_idle c x : Inv c -> cpc c x = GIdle ->
  Inv (with_pc (with_mem c (modify (cmem c) x (set_bst Idle))) x GWgDone).
Proof.
  intros HI Hpc.
  assert (HA : Ab x = true) by (apply (inv_pc_A c x HI); congruence).
  assert (Hb : bst (cmem c x) = Ongoing).
  { pose proof (i_bst _ HI x HA) as H. now rewrite Hpc in H. }
  set (m' := modify (cmem c) x (set_bst Idle)).
  assert (Hmx : m' x = set_bst Idle (cmem c x)) by (unfold m'; now rewrite modify_same).
  assert (Hmo : forall z, z <> x -> m' z = cmem c z) by (intros; unfold m'; now rewrite modify_other).
  assert (Hpend : forall z, pend (m' z) = pend (cmem c z)).
  { intros z. destruct (Nat.eq_dec z x) as [->|Hne]; [now rewrite Hmx|now rewrite Hmo]. }
  assert (Hbch : forall z, bch (m' z) = bch (cmem c z)).
  { intros z. destruct (Nat.eq_dec z x) as [->|Hne]; [now rewrite Hmx|now rewrite Hmo]. }
  assert (Hgrad : forall z, grad (m' z) = grad (cmem c z)).
  { intros z. destruct (Nat.eq_dec z x) as [->|Hne]; [now rewrite Hmx|now rewrite Hmo]. }
  assert (Hcl : forall z, isclosed (m' z) = isclosed (cmem c z)).
  { intros z. unfold isclosed. now rewrite Hbch. }
  assert (Hids : forall z, outp x GWgDone z = outp x (cpc c x) z) by (intros; rewrite Hpc; reflexivity).
  assert (Hidc : forall z, clsp GWgDone z = clsp (cpc c x) z) by (intros; rewrite Hpc; reflexivity).
  assert (Hidu : forall z, undp x GWgDone z = undp x (cpc c x) z) by (intros; rewrite Hpc; reflexivity).
  destruct HI; constructor; cbn [with_pc with_mem cmem cpc cstack cwg clog cret cpanic]; auto.
  - intros z Hz. rewrite upd_other by congruence. auto.
  - intros z Hz. destruct (Nat.eq_dec z x) as [->|Hne]; [now rewrite upd_same, Hmx|].
    rewrite upd_other, Hmo by assumption. apply i_bst0. assumption.
  - intros z r Hz. destruct (i_stack0 z r Hz) as (H1 & H2 & H3).
    assert (z <> x) by congruence. rewrite upd_other, Hmo by assumption. auto.
  - intros z Hz. rewrite Hpend, Hbch. destruct (i_frame0 z Hz) as (H1 & H2 & H3).
    rewrite Hmo by congruence. auto.
  - intros z Hz. rewrite Hpend, (pc_sum_id (fun y p => outp y p z)) by apply Hids. auto.
  - intros z Hz. rewrite Hbch. auto.
  - intros z Hz. rewrite Hcl, (pc_sum_id (fun y p => clsp p z)) by apply Hidc. auto.
  - intros z Hz. rewrite Hcl, Hpend, (pc_sum_id (fun y p => clsp p z)) by apply Hidc. auto.
  - intros z Hz. rewrite Hcl, Hpend, (pc_sum_id (fun y p => clsp p z)) by apply Hidc.
    destruct (Nat.eq_dec z x) as [->|Hne]; [rewrite upd_same; discriminate|].
    rewrite upd_other by assumption. auto.
  - intros z. rewrite Hpend. destruct (Nat.eq_dec z x) as [->|Hne].
    + intros _. apply i_read0. now rewrite Hpc.
    + rewrite upd_other by assumption. auto.
  - intros z. rewrite Hgrad, (pc_osum_id (fun y p => undp y p z)) by apply Hidu. auto.
  - intros y l. destruct (Nat.eq_dec y x) as [->|Hne]; [rewrite upd_same; discriminate|].
    rewrite upd_other by assumption. eauto.
  - intros z v Hz. destruct (i_log0 z v Hz) as [H1 H2]. split; [assumption|].
    destruct (Nat.eq_dec z x) as [->|Hne]; [now rewrite upd_same|now rewrite upd_other].
  - intros z. destruct (Nat.eq_dec z x) as [->|Hne].
    + intros _. apply i_ran0. now rewrite Hpc.
    + rewrite upd_other by assumption. auto.
  - rewrite (pc_sum_id (fun y p => wgp p)); [assumption|]. now rewrite Hpc.
  - intros z Hz Hp. destruct (Nat.eq_dec z x) as [->|Hne]; [rewrite Hmx in Hp; discriminate|].
    rewrite Hmo in Hp by assumption.
    destruct (i_cov0 z Hz Hp) as [H|[H|(y & H1 & H2 & H3)]]; auto.
    right; right. exists y. assert (y <> x) by congruence. rewrite Hmo by assumption. auto.
Qed.

Lemma wg_pos c x : Inv c -> Ab x = true -> (wgp (cpc c x) <= cwg c)%Z.
Proof.
  intros HI HA. rewrite (i_wg _ HI).
  apply (sumZ_ge n (fun y => wgp (cpc c y)) x); [intros; apply wgp_nonneg|now apply Ab_lt].
Qed.

Lemma inv_wgdone c x : Inv c -> cpc c x = GWgDone ->
  Inv (with_wg (with_pc c x GDone) (cwg c - 1)).
Proof.
  intros HI Hpc.
  assert (HA : Ab x = true) by (apply (inv_pc_A c x HI); congruence).
  pose proof (Ab_lt x HA) as Hxn.
  pose proof (wg_pos c x HI HA) as Hwg. rewrite Hpc in Hwg. cbn [wgp] in Hwg.
  assert (Hids : forall z, outp x GDone z = outp x (cpc c x) z) by (intros; rewrite Hpc; reflexivity).
  assert (Hidc : forall z, clsp GDone z = clsp (cpc c x) z) by (intros; rewrite Hpc; reflexivity).
  assert (Hidu : forall z, undp x GDone z = undp x (cpc c x) z) by (intros; rewrite Hpc; reflexivity).
  assert (Hb : bst (cmem c x) = Idle).
  { pose proof (i_bst _ HI x HA) as H. now rewrite Hpc in H. }
  destruct HI; constructor; cbn [with_pc with_wg cmem cpc cstack cwg clog cret cpanic]; auto.
  - intros z Hz. rewrite upd_other by congruence. auto.
  - intros z Hz. destruct (Nat.eq_dec z x) as [->|Hne]; [now rewrite upd_same|].
    rewrite upd_other by assumption. apply i_bst0. assumption.
  - intros z r Hz. destruct (i_stack0 z r Hz) as (H1 & H2 & H3).
    assert (z <> x) by congruence. rewrite upd_other by assumption. auto.
  - intros z Hz. rewrite (pc_sum_id (fun y p => outp y p z)) by apply Hids. auto.
  - intros z Hz. rewrite (pc_sum_id (fun y p => clsp p z)) by apply Hidc. auto.
  - intros z Hz. rewrite (pc_sum_id (fun y p => clsp p z)) by apply Hidc. auto.
  - intros z Hz. rewrite (pc_sum_id (fun y p => clsp p z)) by apply Hidc.
    destruct (Nat.eq_dec z x) as [->|Hne]; [rewrite upd_same; discriminate|].
    rewrite upd_other by assumption. auto.
  - intros z. destruct (Nat.eq_dec z x) as [->|Hne].
    + intros _. apply i_read0. now rewrite Hpc.
    + rewrite upd_other by assumption. auto.
  - intros z. rewrite (pc_osum_id (fun y p => undp y p z)) by apply Hidu. auto.
  - intros y l. destruct (Nat.eq_dec y x) as [->|Hne]; [rewrite upd_same; discriminate|].
    rewrite upd_other by assumption. eauto.
  - intros z v Hz. destruct (i_log0 z v Hz) as [H1 H2]. split; [assumption|].
    destruct (Nat.eq_dec z x) as [->|Hne]; [now rewrite upd_same|now rewrite upd_other].
  - intros z. destruct (Nat.eq_dec z x) as [->|Hne].
    + intros _. apply i_ran0. now rewrite Hpc.
    + rewrite upd_other by assumption. auto.
  - rewrite (pc_sum (fun y p => wgp p)) by assumption. rewrite Hpc, i_wg0. cbn [wgp]. lia.
  - intros Hr. destruct (i_ret0 Hr). lia.
Qed.

Lemma inv_step c c' : Inv c -> step g c c' -> Inv c'.
Proof.
  intros HI Hstep.
  assert (Hbst : forall x, cpc c x <> GNone -> cpc c x <> GWgDone -> cpc c x <> GDone ->
     bst (cmem c x) = Ongoing).
  { intros x H1 H2 H3. pose proof (i_bst _ HI x (inv_pc_A c x HI H1)) as H.
    destruct (cpc c x); auto; congruence. }
  destruct Hstep.
  - eapply inv_skip; eauto.
  - eapply inv_cas; eauto.
  - eapply inv_spawn; eauto.
  - (* return *)
    destruct HI; constructor; cbn [with_ret cmem cpc cstack cwg clog cret cpanic]; auto.
  - (* idlechk *)
    assert (HA : Ab x = true) by (apply (inv_pc_A c x HI); congruence).
    assert (Hb : bst (cmem c x) = Ongoing) by (apply Hbst; congruence).
    rewrite Hb. cbn [bstate_eqb].
    apply inv_pc_only; rewrite ?H0; auto; try discriminate; reflexivity.
  - (* pendchk *)
    assert (HA : Ab x = true) by (apply (inv_pc_A c x HI); congruence).
    assert (Hb : bst (cmem c x) = Ongoing) by (apply Hbst; congruence).
    destruct (Z.eqb_spec (pend (cmem c x)) 0) as [Hp|Hp].
    + apply inv_pc_only; rewrite ?H0; auto; try discriminate; reflexivity.
    + apply inv_pc_only; rewrite ?H0; auto; try discriminate; reflexivity.
  - (* wait *)
    assert (HA : Ab x = true) by (apply (inv_pc_A c x HI); congruence).
    assert (Hb : bst (cmem c x) = Ongoing) by (apply Hbst; congruence).
    assert (Hp : pend (cmem c x) = 0%Z).
    { apply (i_close2 _ HI x HA). unfold isclosed. rewrite H1.
      assert (0 <= sumZ n (fun y => clsp (cpc c y) x))%Z by (apply sumZ_nonneg; intros; apply clsp_nonneg). lia. }
    apply inv_pc_only; rewrite ?H0; auto; try discriminate; reflexivity.
  - apply inv_read; assumption.
  - (* read none: impossible *)
    assert (HA : Ab x = true) by (apply (inv_pc_A c x HI); congruence).
    assert (Hp : pend (cmem c x) = 0%Z) by (apply (i_read _ HI); rewrite H0; reflexivity).
    elim (gam_some c x HI HA Hp). rewrite <- (grad_final c x HI HA Hp). assumption.
  - apply inv_send; assumption.
  - (* sent *)
    assert (HA : Ab x = true) by (apply (inv_pc_A c x HI); congruence).
    assert (Hb : bst (cmem c x) = Ongoing) by (apply Hbst; congruence).
    apply inv_pc_only; rewrite ?H0; auto; try discriminate; try reflexivity.
    intros _. apply (i_read _ HI). now rewrite H0.
  - apply inv_idle; assumption.
  - apply inv_wgdone; assumption.
Qed.

Lemma inv_steps c c' : Inv c -> steps g c c' -> Inv c'.
Proof. intros HI H. induction H as [|c1 c2 H IH Hs]; [assumption|]. eapply inv_step; eauto. Qed.

Lemma inv_reach c : steps g (start mP roots) c -> Inv c.
Proof. apply inv_steps. apply inv_start. Qed.

(** ** What holds when Backward has returned *)

Lemma no_pending c : Inv c -> cstack c = [] -> forall x, Ab x = true -> bst (cmem c x) <> Pending.
Proof.
  intros HI Hst.
  assert (H : forall k x, n - x <= k -> Ab x = true -> bst (cmem c x) <> Pending).
  { induction k as [|k IH]; intros x Hk Hx Hp.
    - pose proof (Ab_lt x Hx). lia.
    - destruct (i_cov _ HI x Hx Hp) as [H|[(y & Hy & _)|(y & H1 & H2 & H3)]].
      + rewrite Hst in H. contradiction.
      + rewrite Hst in Hy. contradiction.
      + pose proof (Hacyc y x H3). pose proof (Ab_lt y H1). apply (IH y); auto. lia. }
  intros x. apply (H n). lia.
Qed.

Lemma not_gnone c x : Inv c -> cstack c = [] -> Ab x = true -> cpc c x <> GNone.
Proof.
  intros HI Hst HA Hpc. pose proof (i_bst _ HI x HA) as H. rewrite Hpc in H.
  destruct H as [H|[_ (r & Hr)]].
  - revert H. now apply no_pending.
  - rewrite Hst in Hr. discriminate.
Qed.

Lemma all_done c x : Inv c -> cret c = true -> Ab x = true -> cpc c x = GDone.
Proof.
  intros HI Hr HA. destruct (i_ret _ HI Hr) as [Hst Hw].
  pose proof (not_gnone c x HI Hst HA) as Hn.
  pose proof (wg_pos c x HI HA) as Hg. rewrite Hw in Hg.
  destruct (cpc c x); try congruence; cbn [wgp] in Hg; lia.
Qed.

(** An operator that lacks a gradient for good prevents the return. *)
Lemma deficit_hangs c x : Inv c -> Ab x = true -> (0 < def x)%Z -> cret c = false.
Proof.
  intros HI HA Hd. destruct (cret c) eqn:Hr; [|reflexivity].
  pose proof (all_done c x HI Hr HA) as Hpc.
  assert (Hp : pend (cmem c x) = 0%Z) by (apply (i_read _ HI); now rewrite Hpc).
  destruct (out_zero c x HI HA Hp). lia.
Qed.

Lemma final_und c : Inv c -> cret c = true -> forall x y, y < n -> undp y (cpc c y) x = None.
Proof.
  intros HI Hr x y Hy. destruct (Ab y) eqn:HA.
  - now rewrite (all_done c y HI Hr HA).
  - rewrite (i_pcA _ HI y HA). cbn [undp preread andb]. now rewrite HA.
Qed.

Lemma final_grad c : Inv c -> cret c = true -> forall x, grad (cmem c x) = gam x.
Proof.
  intros HI Hr x. rewrite <- (i_grad _ HI x). rewrite osumn_none, oadd_none_r; [reflexivity|].
  intros y Hy. now apply final_und.
Qed.

Lemma final_state c : Inv c -> cret c = true -> forall x, Ab x = true ->
  bst (cmem c x) = Idle /\ pend (cmem c x) = 0%Z.
Proof.
  intros HI Hr x HA. pose proof (all_done c x HI Hr HA) as Hpc. split.
  - pose proof (i_bst _ HI x HA) as H. now rewrite Hpc in H.
  - apply (i_read _ HI). now rewrite Hpc.
Qed.

(** ** Progress *)
Lemma progress c : Inv c -> (forall x, Ab x = true -> def x = 0%Z) -> cret c = false ->
  exists c', step g c c'.
Proof.
  intros HI Hdef Hret. pose proof (i_panic _ HI) as Hpan.
  destruct (cstack c) as [|[x|x] st] eqn:Hst.
  2:{ destruct (requires g x && bstate_eqb (bst (cmem c x)) Pending) eqn:E;
      eexists; [eapply st_cas|eapply st_skip]; eauto. }
  2:{ eexists; eapply st_spawn; eauto. }
  destruct (Z.eq_dec (cwg c) 0) as [Hw|Hw].
  { eexists. apply st_return; auto. }
  (* the topmost unfinished operator *)
  assert (Hmax : forall k, (forall y, k <= y -> Ab y = true -> cpc c y = GDone) ->
             exists c', step g c c').
  { induction k as [|k IH]; intros Hk.
    - exfalso. apply Hw. rewrite (i_wg _ HI). apply sumZ_zero. intros y _.
      destruct (Ab y) eqn:E; [now rewrite (Hk y (Nat.le_0_l y) E)|now rewrite (i_pcA _ HI y E)].
    - destruct (Ab k) eqn:HA.
      2:{ apply IH. intros y Hy HyA. apply Hk; [|assumption].
          destruct (Nat.eq_dec y k) as [->|]; [congruence|lia]. }
      pose proof (not_gnone c k HI Hst HA) as Hng.
      destruct (cpc c k) as [| | | | |l| | |] eqn:Hpc.
      + congruence.
      + eexists. eapply st_idlechk; eauto.
      + eexists. eapply st_pendchk; eauto.
      + (* waiting *)
        destruct (Z.eq_dec (pend (cmem c k)) 0) as [Hp|Hp].
        * pose proof (i_wait _ HI k HA Hpc Hp) as Hcl.
          destruct (bch (cmem c k)) eqn:Hch.
          -- elim (i_chan _ HI k HA Hch).
          -- unfold isclosed in Hcl. rewrite Hch, Z.add_0_r in Hcl.
             apply sumZ_pos in Hcl. destruct Hcl as (z & Hz & Hpos).
             destruct (cpc c z) as [| | | | |l| | |] eqn:Hzpc; cbn [clsp] in Hpos; try lia.
             apply sumL_pos in Hpos. destruct Hpos as (e & Hin & He).
             apply in_split in Hin. destruct Hin as (l1 & l2 & ->). destruct e as [[t v] p].
             eexists. eapply st_send; eauto.
          -- eexists. eapply st_wait; eauto.
        * pose proof (i_pend _ HI k HA) as Hpe. rewrite (Hdef k HA) in Hpe.
          assert (Hs : (0 < sumZ n (fun y => outp y (cpc c y) k))%Z).
          { assert (0 <= sumZ n (fun y => outp y (cpc c y) k))%Z by (apply sumZ_nonneg; intros; apply outp_nonneg). lia. }
          apply sumZ_pos in Hs. destruct Hs as (z & Hz & Hpos).
          assert (HAz : Ab z = true).
          { destruct (Ab z) eqn:E; [reflexivity|]. rewrite (i_pcA _ HI z E) in Hpos.
            cbn [outp preread andb] in Hpos. rewrite E in Hpos. lia. }
          assert (Hkz : k < z).
          { destruct (cpc c z) as [| | | | |l| | |] eqn:Hzpc; cbn [outp preread andb] in Hpos; try lia;
              try (rewrite HAz in Hpos; apply cnt_In in Hpos; apply stargets_In in Hpos;
                   destruct Hpos as [Hin _]; exact (Hacyc z k Hin)).
            apply sumL_pos in Hpos. destruct Hpos as ([[t v] p] & Hin & He).
            cbn [eo] in He. destruct (Nat.eqb_spec t k) as [->|]; [|cbn in He; lia].
            destruct (i_send _ HI z _ Hzpc k v p Hin) as [Hin' _]. exact (Hacyc z k Hin'). }
          rewrite (Hk z ltac:(lia) HAz) in Hpos. cbn in Hpos. lia.
      + destruct (grad (cmem c k)) eqn:Hg; eexists; [eapply st_read_some|eapply st_read_none]; eauto.
      + destruct l as [|[[t v] p] l].
        * eexists. eapply st_sent; eauto.
        * eexists. eapply (st_send gadd g c k [] t v p l); eauto.
      + eexists. eapply st_idle; eauto.
      + eexists. eapply st_wgdone; eauto.
      + apply IH. intros y Hy HyA. destruct (Nat.eq_dec y k) as [->|]; [assumption|]. apply Hk; [lia|assumption]. }
  apply (Hmax n). intros y Hy HyA. pose proof (Ab_lt y HyA). lia.
Qed.

(** ** Termination *)
Definition we (e : entry) : Z :=
  let '(_, _, p) := e in match p with AVal => 4%Z | AChk => 3%Z | ADec => 2%Z | AClose => 1%Z end.
Definition lenZ {A} (l : list A) : Z := Z.of_nat (length l).
Definition wpc (y : nat) (p : @gpc G) : Z :=
  match p with
  | GNone => (11 + 4 * lenZ (live_sends g y) + 2 * lenZ (op_operands g y))%Z
  | GIdleChk => (9 + 4 * lenZ (live_sends g y))%Z
  | GPendChk => (8 + 4 * lenZ (live_sends g y))%Z
  | GWait => (7 + 4 * lenZ (live_sends g y))%Z
  | GRead => (6 + 4 * lenZ (live_sends g y))%Z
  | GSend l => (3 + sumL we l)%Z
  | GIdle => 2%Z
  | GWgDone => 1%Z
  | GDone => 0%Z
  end.
Fixpoint wstack (l : list mainop) : Z :=
  match l with
  | [] => 0%Z
  | MVisit _ :: r => (2 + wstack r)%Z
  | MSpawn _ :: r => (1 + wstack r)%Z
  end.
Definition mu (c : config) : Z :=
  (sumZ n (fun y => wpc y (cpc c y)) + wstack (cstack c) + (if cret c then 0 else 1))%Z.

Lemma lenZ_nonneg {A} (l : list A) : (0 <= lenZ l)%Z. Proof. unfold lenZ. lia. Qed.
Lemma we_pos e : (1 <= we e)%Z. Proof. destruct e as [[t v] []]; cbn; lia. Qed.
Lemma we_sum_nonneg l : (0 <= sumL we l)%Z.
Proof. apply sumL_nonneg. intros e. pose proof (we_pos e). lia. Qed.
Lemma wpc_nonneg y p : (0 <= wpc y p)%Z.
Proof.
  pose proof (lenZ_nonneg (live_sends g y)). pose proof (lenZ_nonneg (op_operands g y)).
  destruct p; cbn [wpc]; try lia. pose proof (we_sum_nonneg l). lia.
Qed.
Lemma wstack_nonneg l : (0 <= wstack l)%Z.
Proof. induction l as [|[|] l IH]; cbn [wstack]; lia. Qed.
Lemma wstack_app l1 l2 : wstack (l1 ++ l2) = (wstack l1 + wstack l2)%Z.
Proof. induction l1 as [|[|] l IH]; cbn [wstack app]; lia. Qed.
Lemma wstack_visits l : wstack (map MVisit l) = (2 * lenZ l)%Z.
Proof. unfold lenZ. induction l as [|x l IH]; [reflexivity|]. cbn [map wstack length]. lia. Qed.
Lemma mu_nonneg c : (0 <= mu c)%Z.
Proof.
  unfold mu. assert (0 <= sumZ n (fun y => wpc y (cpc c y)))%Z by (apply sumZ_nonneg; intros; apply wpc_nonneg).
  pose proof (wstack_nonneg (cstack c)). destruct (cret c); lia.
Qed.
Lemma fresh_we y v :
  sumL we (map (fun p => (fst p, snd p v, AVal)) (live_sends g y)) = (4 * lenZ (live_sends g y))%Z.
Proof.
  unfold lenZ. induction (live_sends g y) as [|[t f] l IH]; [reflexivity|].
  cbn [map sumL length we]. rewrite IH. lia.
Qed.

Lemma mu_pc c c' x p : x < n -> cpc c' = upd (cpc c) x p -> cstack c' = cstack c -> cret c' = cret c ->
  (wpc x p < wpc x (cpc c x))%Z -> (mu c' < mu c)%Z.
Proof.
  intros Hx E1 E2 E3 H. unfold mu. rewrite E1, E2, E3, (pc_sum wpc) by assumption. lia.
Qed.

Lemma mu_step c c' : Inv c -> step g c c' -> (mu c' < mu c)%Z.
Proof.
  intros HI Hstep.
  assert (Hlt : forall x, cpc c x <> GNone -> x < n).
  { intros x Hx. apply Ab_lt. now apply (inv_pc_A c x HI). }
  destruct Hstep.
  - unfold mu. cbn [with_stack cpc cstack cret]. rewrite H1. cbn [wstack]. lia.
  - unfold mu. cbn [with_stack with_mem cpc cstack cret]. rewrite H1. cbn [wstack]. lia.
  - destruct (i_stack _ HI x st H1) as (HA & Hpc & Hb). pose proof (Ab_lt x HA) as Hx.
    unfold mu. cbn [with_stack with_wg with_pc cpc cstack cret]. rewrite H1.
    rewrite wstack_app, wstack_visits. cbn [wstack].
    rewrite (pc_sum wpc) by assumption. rewrite Hpc. cbn [wpc]. lia.
  - unfold mu. cbn [with_ret cpc cstack cret]. rewrite H. lia.
  - apply (mu_pc c _ x (if bstate_eqb (bst (cmem c x)) Idle then GRead else GPendChk)); auto.
    + apply Hlt. congruence.
    + rewrite H0. destruct (bstate_eqb _ _); cbn [wpc]; lia.
  - apply (mu_pc c _ x (if Z.eqb (pend (cmem c x)) 0 then GRead else GWait)); auto.
    + apply Hlt. congruence.
    + rewrite H0. destruct (Z.eqb _ _); cbn [wpc]; lia.
  - apply (mu_pc c _ x GRead); auto; [apply Hlt; congruence|]. rewrite H0. cbn [wpc]. lia.
  - eapply (mu_pc c _ x); [apply Hlt; congruence|reflexivity|reflexivity|reflexivity|].
    rewrite H0. cbn [wpc]. rewrite fresh_we. lia.
  - apply (mu_pc c _ x GIdle); auto; [apply Hlt; congruence|]. rewrite H0. cbn [wpc].
    pose proof (lenZ_nonneg (live_sends g x)). lia.
  - assert (Hg : exists k, (let '(c', k0) := acc_step gadd g c t v p in
              with_pc c' x (GSend (l1 ++ match k0 with Some p' => (t, v, p') :: l2 | None => l2 end))) =
              with_pc (fst (acc_step gadd g c t v p)) x (GSend (l1 ++ match k with Some p' => (t, v, p') :: l2 | None => l2 end))
            /\ cpc (fst (acc_step gadd g c t v p)) = cpc c /\ cstack (fst (acc_step gadd g c t v p)) = cstack c
            /\ cret (fst (acc_step gadd g c t v p)) = cret c
            /\ match k with Some p' => (we (t, v, p') < we (t, v, p))%Z | None => True end).
    { exists (snd (acc_step gadd g c t v p)). destruct p; cbn [acc_step].
      - repeat split; try reflexivity. cbn [snd]. destruct (is_oper g t); cbn; [lia|exact I].
      - repeat split; try reflexivity. cbn [snd]. destruct (bstate_eqb _ _); cbn; [exact I|lia].
      - repeat split; try reflexivity. cbn [snd]. destruct (Z.eqb _ _); cbn; [lia|exact I].
      - destruct (bch (cmem c t)); repeat split; reflexivity. }
    destruct Hg as (k & -> & E1 & E2 & E3 & Hk).
    eapply (mu_pc c _ x); [apply Hlt; congruence|cbn [with_pc cpc]; rewrite E1; reflexivity|exact E2|exact E3|].
    rewrite H0. cbn [wpc]. rewrite !sumL_app. cbn [sumL]. pose proof (we_pos (t, v, p)).
    destruct k as [p'|]; cbn [sumL]; lia.
  - apply (mu_pc c _ x GIdle); auto; [apply Hlt; congruence|]. rewrite H0. cbn [wpc sumL]. lia.
  - apply (mu_pc c _ x GWgDone); auto; [apply Hlt; congruence|]. rewrite H0. cbn [wpc]. lia.
  - apply (mu_pc c _ x GDone); auto; [apply Hlt; congruence|]. rewrite H0. cbn [wpc]. lia.
Qed.

Lemma no_infinite (f : nat -> config) : Inv (f 0) -> (forall i, step g (f i) (f (S i))) -> False.
Proof.
  intros H0 Hs.
  assert (HI : forall i, Inv (f i)) by (induction i as [|i IH]; [assumption|eapply inv_step; eauto]).
  assert (Hm : forall i, (mu (f i) + Z.of_nat i <= mu (f O))%Z).
  { induction i as [|i IH]; [lia|]. pose proof (mu_step _ _ (HI i) (Hs i)). lia. }
  specialize (Hm (S (Z.to_nat (mu (f 0))))). pose proof (mu_nonneg (f (S (Z.to_nat (mu (f 0)))))).
  pose proof (mu_nonneg (f 0)). lia.
Qed.

(** A maximal execution exists from every state. *)
Lemma can_finish c : (forall x, Ab x = true -> def x = 0%Z) -> Inv c ->
  exists c', steps g c c' /\ cret c' = true.
Proof.
  intros Hd HI. remember (Z.to_nat (mu c)) as k eqn:Hk.
  assert (Hkk : (mu c <= Z.of_nat k)%Z) by (pose proof (mu_nonneg c); lia). clear Hk.
  revert c HI Hkk. induction k as [|k IH]; intros c HI Hk.
  - destruct (cret c) eqn:Hr; [exists c; split; [constructor|assumption]|].
    destruct (progress c HI Hd Hr) as (c' & Hc'). pose proof (mu_step c c' HI Hc').
    pose proof (mu_nonneg c'). lia.
  - destruct (cret c) eqn:Hr; [exists c; split; [constructor|assumption]|].
    destruct (progress c HI Hd Hr) as (c' & Hc'). pose proof (mu_step c c' HI Hc').
    destruct (IH c') as (c2 & Hs2 & Hr2); [eapply inv_step; eauto|lia|].
    exists c2. split; [|assumption].
    clear - Hc' Hs2. induction Hs2 as [|c1 c2 Hs IH Hst].
    + econstructor; [constructor|assumption].
    + econstructor; eassumption.
Qed.

(** An operator that is still to receive a gradient has not been read. *)
Lemma send_not_ran c x l t v p : Inv c -> cpc c x = GSend l -> In (t, v, p) l -> isclose p = false ->
  ran (cpc c t) = false.
Proof.
  intros HI Hpc Hin Hc. destruct (ran (cpc c t)) eqn:Hr; [|reflexivity].
  assert (Hx : Ab x = true) by (apply (inv_pc_A c x HI); congruence).
  assert (Ht : Ab t = true).
  { apply (inv_pc_A c t HI). intros E. rewrite E in Hr. discriminate. }
  assert (Hp : pend (cmem c t) = 0%Z).
  { apply (i_read _ HI). destruct (cpc c t); try discriminate Hr; reflexivity. }
  destruct (out_zero c t HI Ht Hp) as [_ Ho]. specialize (Ho x (Ab_lt x Hx)).
  rewrite Hpc in Ho. cbn [outp] in Ho. apply in_split in Hin. destruct Hin as (l1 & l2 & ->).
  rewrite sumL_app in Ho. cbn [sumL eo] in Ho. rewrite Nat.eqb_refl, Hc in Ho. cbn [andb negb] in Ho.
  pose proof (sumL_nonneg (eo t) l1 (eo_nonneg t)). pose proof (sumL_nonneg (eo t) l2 (eo_nonneg t)). lia.
Qed.

End Conc.

(** ** The backprop equations have a solution *)
Section Solve.
Context {G : Type}.
Variable gadd : G -> G -> G.
Variable g : @graph G.
Hypothesis Hacyc : acyclic g.
Hypothesis Hsto : sends_to_operands g.
Variable A : nat -> bool.
Variable base : nat -> option G.

Fixpoint gamf (k x : nat) : option G :=
  match k with
  | O => base x
  | S k => AgSpec.oadd gadd (base x)
             (osumn gadd (length g) (fun y => if A y then AgSpec.contribution gadd g y (gamf k y) x else None))
  end.

Lemma contribution_lt y gy x : AgSpec.contribution gadd g y gy x <> None -> x < y.
Proof.
  intros H. apply Hacyc. eapply stargets_In; [assumption|].
  eapply contribution_in. exact H.
Qed.

Lemma contribution_congr y a b x : (x < y -> a = b) ->
  AgSpec.contribution gadd g y a x = AgSpec.contribution gadd g y b x.
Proof.
  intros H. destruct (le_lt_dec y x) as [Hle|Hlt]; [|now rewrite H].
  destruct (AgSpec.contribution gadd g y a x) eqn:Ea.
  { assert (x < y) by (apply (contribution_lt y a); congruence). lia. }
  destruct (AgSpec.contribution gadd g y b x) eqn:Eb; [|reflexivity].
  assert (x < y) by (apply (contribution_lt y b); congruence). lia.
Qed.

Lemma gamf_stable k k' x : length g - x <= k -> length g - x <= k' -> gamf k x = gamf k' x.
Proof.
  revert k' x. induction k as [|k IH]; intros k' x H1 H2; destruct k' as [|k']; cbn [gamf]; auto.
  - rewrite osumn_none; [now destruct (base x)|]. intros y Hy. destruct (A y); [|reflexivity].
    destruct (AgSpec.contribution gadd g y (gamf k' y) x) eqn:E; [|reflexivity].
    assert (x < y) by (apply (contribution_lt y (gamf k' y)); congruence). lia.
  - rewrite osumn_none; [now destruct (base x)|]. intros y Hy. destruct (A y); [|reflexivity].
    destruct (AgSpec.contribution gadd g y (gamf k y) x) eqn:E; [|reflexivity].
    assert (x < y) by (apply (contribution_lt y (gamf k y)); congruence). lia.
  - f_equal. apply osumn_ext. intros y Hy. destruct (A y); [|reflexivity].
    apply contribution_congr. intros Hxy. apply IH; lia.
Qed.

Definition gamma (x : nat) : option G := gamf (length g) x.

Lemma gamma_eq x : gamma x = AgSpec.oadd gadd (base x)
  (osumn gadd (length g) (fun y => if A y then AgSpec.contribution gadd g y (gamma y) x else None)).
Proof.
  unfold gamma. rewrite (gamf_stable (length g) (S (length g)) x) by lia. reflexivity.
Qed.

(** Any two solutions agree. *)
Lemma solution_unique g1 g2 :
  (forall x, g1 x = AgSpec.oadd gadd (base x) (osumn gadd (length g) (fun y => if A y then AgSpec.contribution gadd g y (g1 y) x else None))) ->
  (forall x, g2 x = AgSpec.oadd gadd (base x) (osumn gadd (length g) (fun y => if A y then AgSpec.contribution gadd g y (g2 y) x else None))) ->
  forall x, g1 x = g2 x.
Proof.
  intros H1 H2 x. remember (length g - x) as k eqn:Hk.
  revert x Hk. induction k as [k IH] using lt_wf_ind. intros x Hk.
  rewrite H1, H2. f_equal. apply osumn_ext. intros y Hy. destruct (A y); [|reflexivity].
  apply contribution_congr. intros Hxy. apply (IH (length g - y)); lia.
Qed.
End Solve.
