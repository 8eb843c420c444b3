(** * Concrete graphs: satisfiable hypotheses, and the graphs that refute the
    unguarded claims *)
From Coq Require Import List Arith ZArith Bool Lia Permutation.
From Verif Require Import AgModel AgSpec AgLemmas AgSeq AgConc AgErase AgProofs AgMain.
Import ListNotations.

Definition idZ (v : Z) : Z := v.

(** x (requires gradients), k (does not), p = x*k with k = 3 and x = 5,
    d = p + p, r = d + x. *)
Definition diamond : @graph Z :=
  [ mkNode (Leaf true) true;
    mkNode (Leaf false) true;
    mkNode (Oper [0;1] [(0, Z.mul 3); (1, Z.mul 5)]) true;
    mkNode (Oper [2;2] [(2, idZ); (2, idZ)]) true;
    mkNode (Oper [3;0] [(3, idZ); (0, idZ)]) true ].

Definition blank : @mem Z := fun _ => fresh.

Ltac dnode x := do 8 (try (destruct x as [|x])).

Lemma diamond_wf : well_formed diamond.
Proof.
  split; [|split].
  - intros x k. dnode x; cbn; intuition lia.
  - intros x t. dnode x; cbn; intuition lia.
  - intros x t. dnode x; dnode t; cbn; intros; try congruence; reflexivity.
Qed.

Lemma blank_ready (g : graph) : ready g blank.
Proof. intros x Hx. split; reflexivity. Qed.

Lemma diamond_reached : lists_reached diamond [4] [2;3;4].
Proof.
  assert (L0 : leads_to_grad diamond 0) by (eapply ltg_leaf; reflexivity).
  assert (L2 : leads_to_grad diamond 2) by (apply (ltg_op _ 2 0); [cbn; auto|assumption]).
  assert (L3 : leads_to_grad diamond 3) by (apply (ltg_op _ 3 2); [cbn; auto|assumption]).
  assert (L4 : leads_to_grad diamond 4) by (apply (ltg_op _ 4 3); [cbn; auto|assumption]).
  assert (R4 : reached diamond [4] 4) by (apply reach_root; [cbn; auto|reflexivity|assumption]).
  assert (R3 : reached diamond [4] 3) by (apply (reach_operand _ _ 4); [assumption|cbn; auto|reflexivity|assumption]).
  assert (R2 : reached diamond [4] 2) by (apply (reach_operand _ _ 3); [assumption|cbn; auto|reflexivity|assumption]).
  split.
  - repeat constructor; cbn; intuition lia.
  - intros y. split.
    + cbn. intros [<-|[<-|[<-|[]]]]; assumption.
    + intros H. assert (Ho : is_oper diamond y = true) by (destruct H; assumption).
      dnode y; cbn in Ho; try discriminate; cbn; auto.
Qed.

Lemma diamond_no_lack : ~ exists x, lacks_gradient diamond blank [4] x.
Proof. intros (x & [<-|[]] & _ & _ & H). discriminate H. Qed.

Lemma diamond_runs : exists m', backward Z.add 1%Z diamond blank [4] m'.
Proof. apply backward_possible; [apply diamond_wf|apply blank_ready|apply diamond_no_lack]. Qed.

(** d(2*3*x + x)/dx = 7 on every schedule. *)
Lemma diamond_value m' : backward Z.add 1%Z diamond blank [4] m' -> grad (m' 0) = Some 7%Z.
Proof.
  intros H.
  pose proof (fun x => grad_sum Z.add 1%Z Z.add_comm Z.add_assoc diamond blank [4] m' [2;3;4] x
                diamond_wf (blank_ready _) H diamond_reached) as E.
  pose proof (E 4) as E4. pose proof (E 3) as E3. pose proof (E 2) as E2. pose proof (E 0) as E0.
  assert (C : forall y x, x <= y -> forall gy, contribution Z.add diamond x gy y = None).
  { intros y x Hxy gy. destruct (contribution Z.add diamond x gy y) eqn:Ec; [|reflexivity].
    assert (Hn : contribution Z.add diamond x gy y <> None) by congruence.
    apply (contribution_lt Z.add diamond (proj1 diamond_wf) (proj1 (proj2 diamond_wf))) in Hn. lia. }
  cbn [map osum fold_right] in E4, E3, E2, E0.
  rewrite (C 4 2), (C 4 3), (C 4 4) in E4 by lia. cbn in E4.
  rewrite (C 3 2), (C 3 3), E4 in E3 by lia. cbn in E3.
  rewrite (C 2 2), E4, E3 in E2 by lia. cbn in E2.
  rewrite E4, E3, E2 in E0. cbn in E0. exact E0.
Qed.

(** ** An operator that lists an operand it never sends a gradient to

    x; a = f(x) ; y = ELU(x, a): ELU lists its alpha operand and calls AccGrad
    on x only (mat/gradfn/elu.go). *)
Definition elu_graph : @graph Z :=
  [ mkNode (Leaf true) true;
    mkNode (Oper [0] [(0, idZ)]) true;
    mkNode (Oper [0;1] [(0, idZ)]) true ].

Lemma elu_acyclic : acyclic elu_graph.
Proof. intros x k. dnode x; cbn; intuition lia. Qed.
Lemma elu_sends : sends_to_operands elu_graph.
Proof. intros x t. dnode x; cbn; intuition lia. Qed.
Lemma elu_frugal : frugal elu_graph.
Proof. intros x t. dnode x; dnode t; cbn; intros; try discriminate; lia. Qed.

Lemma elu_reached : reached elu_graph [2] 1 /\ reached elu_graph [2] 2.
Proof.
  assert (L0 : leads_to_grad elu_graph 0) by (eapply ltg_leaf; reflexivity).
  assert (L1 : leads_to_grad elu_graph 1) by (apply (ltg_op _ 1 0); [cbn; auto|assumption]).
  assert (L2 : leads_to_grad elu_graph 2) by (apply (ltg_op _ 2 1); [cbn; auto|assumption]).
  assert (R2 : reached elu_graph [2] 2) by (apply reach_root; [cbn; auto|reflexivity|assumption]).
  split; [|assumption]. apply (reach_operand _ _ 2); [assumption|cbn; auto|reflexivity|assumption].
Qed.

Lemma elu_hangs :
  (exists c, backward_seq Z.add 1%Z elu_graph blank [2] = SConc c) /\
  (forall m', ~ backward Z.add 1%Z elu_graph blank [2] m').
Proof.
  split; [eexists; reflexivity|].
  intros m' H. destruct H as [H|c c' H1 H2 H3]; [discriminate|].
  assert (E : cret c' = false).
  { apply (undersending_hangs Z.add 1%Z elu_graph blank [2] c 1 2); try assumption.
    - apply elu_acyclic.
    - apply elu_sends.
    - apply elu_frugal.
    - apply blank_ready.
    - apply elu_reached.
    - apply elu_reached.
    - cbn. lia. }
  congruence.
Qed.

(** ** After a "missing gradient" error

    v = f(x) is not a scalar, s = sum(v) is.  Backward(v) fails, and then
    Backward(s) never returns. *)
Definition chain_graph : @graph Z :=
  [ mkNode (Leaf true) true;
    mkNode (Oper [0] [(0, idZ)]) false;
    mkNode (Oper [1] [(1, idZ)]) true ].

Lemma chain_wf : well_formed chain_graph.
Proof.
  split; [|split].
  - intros x k. dnode x; cbn; intuition lia.
  - intros x t. dnode x; cbn; intuition lia.
  - intros x t. dnode x; dnode t; cbn; intros; try congruence; reflexivity.
Qed.

Lemma chain_reached : reached chain_graph [2] 1 /\ reached chain_graph [2] 2.
Proof.
  assert (L0 : leads_to_grad chain_graph 0) by (eapply ltg_leaf; reflexivity).
  assert (L1 : leads_to_grad chain_graph 1) by (apply (ltg_op _ 1 0); [cbn; auto|assumption]).
  assert (L2 : leads_to_grad chain_graph 2) by (apply (ltg_op _ 2 1); [cbn; auto|assumption]).
  assert (R2 : reached chain_graph [2] 2) by (apply reach_root; [cbn; auto|reflexivity|assumption]).
  split; [|assumption]. apply (reach_operand _ _ 2); [assumption|cbn; auto|reflexivity|assumption].
Qed.

Definition extra (x : nat) : Z := if Nat.eqb x 1 then 1%Z else 0%Z.

(** The state left by the failed call. *)
Definition failed : @mem Z :=
  match backward_seq Z.add 1%Z chain_graph blank [1] with SError m => m | _ => blank end.

Lemma failed_is : backward_seq Z.add 1%Z chain_graph blank [1] = SError failed.
Proof. reflexivity. Qed.

Lemma failed_blocks : grad_blocks chain_graph failed 1 = true.
Proof. reflexivity. Qed.

Lemma retry_hangs :
  (exists c, backward_seq Z.add 1%Z chain_graph failed [2] = SConc c) /\
  (forall m', ~ backward Z.add 1%Z chain_graph failed [2] m').
Proof.
  split; [eexists; reflexivity|].
  intros m' H. destruct H as [H|c c' H1 H2 H3]; [discriminate|].
  set (mP := match backward_seq Z.add 1%Z chain_graph failed [2] with SConc c => cmem c | _ => blank end).
  assert (Hc : c = start mP [2]).
  { assert (SConc c = SConc (start mP [2])) by (rewrite <- H1; reflexivity). congruence. }
  subst c.
  assert (HS : SInv chain_graph extra (filter_operators chain_graph [2]) mP).
  { constructor.
    - intros x Hl Hp. dnode x; cbn in Hl; try discriminate; vm_compute; reflexivity.
    - intros x Ho. dnode x; cbn in Ho; try discriminate.
      + split; [intros _; apply chain_reached|reflexivity].
      + split; [intros _; apply chain_reached|reflexivity].
    - intros x Hl Hp. dnode x; cbn in Hl; try discriminate; vm_compute; auto.
    - intros x [<-|[]]. vm_compute. discriminate. }
  assert (He : forall x, (0 <= extra x)%Z) by (intros x; unfold extra; destruct (Nat.eqb x 1); lia).
  destruct chain_wf as (Ha & Hs & Hd).
  rewrite (U_hang_extra Z.add 1%Z chain_graph Ha [2] (dutiful_frugal _ Hd) mP extra He HS c' 1) in H3.
  - discriminate.
  - apply (U_reach Z.add 1%Z chain_graph Ha [2] Hs (dutiful_frugal _ Hd) mP extra He HS). assumption.
  - apply chain_reached.
  - reflexivity.
Qed.

Lemma elu_refutes :
  exists (g : @graph Z) (m : @mem Z) (xs : list nat),
  acyclic g /\ sends_to_operands g /\ ready g m /\
  (exists c, backward_seq Z.add 1%Z g m xs = SConc c) /\
  forall m', ~ backward Z.add 1%Z g m xs m'.
Proof.
  exists elu_graph, blank, [2]. split; [apply elu_acyclic|]. split; [apply elu_sends|].
  split; [apply blank_ready|]. apply elu_hangs.
Qed.

Lemma diamond_returns :
  exists c c', backward_seq Z.add 1%Z diamond blank [4] = SConc c /\
    steps Z.add diamond c c' /\ cret c' = true.
Proof.
  destruct diamond_runs as (m' & H). destruct H as [H|c c' H1 H2 H3]; [discriminate|].
  exists c, c'. auto.
Qed.

Lemma wf_prefix : well_formed (firstn 4 diamond).
Proof. apply (well_formed_app (firstn 4 diamond) (nth 4 diamond (mkNode (Leaf false) false))). exact diamond_wf. Qed.

Lemma scalars_never_lack (g : @graph Z) m xs : (forall x, In x xs -> is_scalar g x = true) -> ~ exists x, lacks_gradient g m xs x.
Proof. intros H (x & Hx & _ & _ & Hs). rewrite (H x Hx) in Hs. discriminate. Qed.

Lemma diamond_history :
  exists m', urun Z.add 1%Z (firstn 3 diamond) blank
     [UAcc 0 11%Z; UNew (nth 3 diamond (mkNode (Leaf false) false));
      UBackward [3]; UZero 3; UNew (nth 4 diamond (mkNode (Leaf false) false)); UBackward [4]; UBackward [4]]
     diamond m'.
Proof.
  assert (W3 : well_formed (firstn 3 diamond)).
  { apply (well_formed_app (firstn 3 diamond) (nth 3 diamond (mkNode (Leaf false) false))). exact wf_prefix. }
  set (m1 := modify blank 0 (fun s => set_grad (acc Z.add (grad s) 11%Z) s)).
  assert (R1 : ready (firstn 4 diamond) (upd m1 3 fresh)).
  { apply (ready_new (firstn 3 diamond) (nth 3 diamond (mkNode (Leaf false) false))).
    apply ready_modify; [intros s; split; reflexivity|apply blank_ready]. }
  destruct (backward_possible Z.add 1%Z (firstn 4 diamond) (upd m1 3 fresh) [3] wf_prefix R1) as (m2 & H2).
  { apply scalars_never_lack. intros x [<-|[]]. reflexivity. }
  pose proof (ready_after Z.add 1%Z _ _ _ _ wf_prefix R1 H2) as R2.
  set (m3 := upd (zero_grad m2 3) 4 fresh).
  assert (R3 : ready diamond m3).
  { apply (ready_new (firstn 4 diamond) (nth 4 diamond (mkNode (Leaf false) false))).
    apply ready_modify; [intros s; split; reflexivity|assumption]. }
  destruct (backward_possible Z.add 1%Z diamond m3 [4] diamond_wf R3) as (m4 & H4).
  { apply scalars_never_lack. intros x [<-|[]]. reflexivity. }
  pose proof (ready_after Z.add 1%Z _ _ _ _ diamond_wf R3 H4) as R4.
  destruct (backward_possible Z.add 1%Z diamond m4 [4] diamond_wf R4) as (m5 & H5).
  { apply scalars_never_lack. intros x [<-|[]]. reflexivity. }
  exists m5.
  eapply ur_acc; [reflexivity|]. eapply ur_new. eapply ur_backward; [exact H2|].
  eapply ur_zero; [now apply not_blocked|]. eapply ur_new. eapply ur_backward; [exact H4|].
  eapply ur_backward; [exact H5|]. apply ur_nil.
Qed.

Lemma diamond_constant :
  ~ In 1 [4] /\ ~ leads_to_grad diamond 1 /\ In 1 (operands_of diamond 2) /\ reached diamond [4] 2.
Proof.
  split; [cbn; intuition lia|]. split.
  - intros H. apply requires_spec in H; [discriminate|apply diamond_wf].
  - split; [cbn; auto|]. apply diamond_reached. cbn. auto.
Qed.

Lemma after_error :
  exists (g : @graph Z) (m m1 : @mem Z) (x y : nat),
  well_formed g /\ ready g m /\
  backward_seq Z.add 1%Z g m [x] = SError m1 /\
  grad_blocks g m1 x = true /\
  (~ exists z, lacks_gradient g m1 [y] z) /\
  (exists m2, backward Z.add 1%Z g m [y] m2) /\
  (forall m2, ~ backward Z.add 1%Z g m1 [y] m2).
Proof.
  exists chain_graph, blank, failed, 1, 2.
  assert (Hn : forall m, ~ exists z, lacks_gradient chain_graph m [2] z).
  { intros m. apply scalars_never_lack. intros x [<-|[]]. reflexivity. }
  split; [exact chain_wf|]. split; [apply blank_ready|]. split; [exact failed_is|].
  split; [exact failed_blocks|]. split; [apply Hn|]. split; [|apply retry_hangs].
  apply backward_possible; [exact chain_wf|apply blank_ready|apply Hn].
Qed.
