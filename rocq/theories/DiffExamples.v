(** * A program that meets the hypotheses of the C05 theorems *)
From Coq Require Import Reals List Arith Bool Permutation Lia Lra.
From Coquelicot Require Import Coquelicot.
From Verif Require Import DenseModel DenseSpec AgModel AgSpec AgMain ArithSpec GradModel GradSpec GradLemmas GradProofs GradProofs2 GradProofs13 DiffSpec DiffProofs.
Import ListNotations.
Open Scope R_scope.

Lemma backward_exists p env v g m r : ordered p -> computes p env v -> (forall x, (x < length p)%nat -> wf (v x)) ->
  engine_graph p v g -> all_correct p v g -> ready g m -> is_one (v r) = true ->
  well_formed g /\ exists m', backward padd pone g m [r] m'.
Proof.
  intros Ho HV HW HG HC Hr H1. assert (W : well_formed g) by exact (graph_well_formed p v g Ho HG HC env HV HW). split; [exact W|].
  apply backward_possible; auto. intros (x & [<-|[]] & Hop & _ & Hs). destruct (op_node p v g HG r Hop) as (f & ops & Ex).
  destruct HG as (_ & HG'). specialize (HG' r _ Ex). cbn in HG'. destruct HG' as (s & En & _). unfold is_scalar in Hs. rewrite En in Hs. cbn in Hs. congruence.
Qed.

(** y = W x; z = y * y; d = y . z, with W (a parameter) used by z and d through y *)
Definition sample : program := [PVar true; PVar false; POp (mul_fn true) [0; 1]; POp prod_fn [2; 2]; POp dot_fn [2; 3]]%nat.
Definition sample_W : mat := mkDense 2 3 [1; 2; 3; 4; 5; 6].
Definition sample_x : mat := mkDense 3 1 [1; 0; -1].
Definition sample_env (x : nat) : mat := if (x =? 0)%nat then sample_W else sample_x.
Definition empty_mem : @mem pgrad := fun _ => fresh.

Lemma sample_met : exists v, let g := compile sample v in
  ordered sample /\ computes sample sample_env v /\ (forall x, (x < length sample)%nat -> wf (v x)) /\ engine_graph sample v g /\ all_correct sample v g /\
  ready g empty_mem /\ (forall x, grad (empty_mem x) = None) /\ is_oper g 4 = true /\ is_one (v 4%nat) = true /\
  nth_error sample 0 = Some (PVar true) /\ rows (v 0%nat) = 2%nat /\ cols (v 0%nat) = 3%nat.
Proof.
  assert (FW : fits sample_W 2 3) by (repeat split). assert (Fx : fits sample_x 3 1) by (repeat split).
  destruct (mul_gives true sample_W sample_x 2 3 1 FW Fx) as (y & Ey & Y1 & Y2 & Y3 & _). assert (Fy : fits y 2 1) by (repeat split; auto).
  destruct (prod_gives y y 2 1 Fy Fy) as (z & Ez & Z1 & Z2 & Z3 & _). assert (Fz : fits z 2 1) by (repeat split; auto).
  destruct (dot_gives y z 2 1 Fy Fz) as (d & Ed & D1 & D2 & D3 & _).
  set (v := fun x => nth x [sample_W; sample_x; y; z; d] sample_W). exists v. cbv zeta.
  assert (Ho : ordered sample).
  { intros x f ops k Hx Hk. do 5 (destruct x as [|x]; [cbn in Hx; try discriminate; injection Hx as <- <-; cbn in Hk; lia|]). destruct x; discriminate. }
  assert (HV : computes sample sample_env v).
  { intros x nd Hx. do 5 (destruct x as [|x]; [cbn in Hx; injection Hx as <-; first [reflexivity|assumption]|]). destruct x; discriminate. }
  assert (HC : all_correct sample v (compile sample v)).
  { intros x f ops Hx _. destruct x as [|[|[|[|[|x]]]]]; cbn in Hx; try discriminate; [| | |destruct x; discriminate]; injection Hx as <- <-.
    - cbn. apply mul_correct; [apply FW|apply Fx|reflexivity].
    - cbn. apply prod_correct; auto. split; reflexivity.
    - cbn. apply dot_correct; auto. split; congruence. }
  assert (HW : forall x, (x < length sample)%nat -> wf (v x)).
  { intros x Hx. cbn in Hx. do 5 (destruct x as [|x]; [cbn; first [assumption|apply FW|apply Fx]|]). lia. }
  split; [exact Ho|]. split; [exact HV|]. split; [exact HW|]. split; [exact (compile_graph sample sample_env v HV Ho HC)|]. split; [exact HC|].
  split; [intros x _; split; reflexivity|]. split; [reflexivity|]. split; [reflexivity|]. split; [|auto].
  cbn. unfold is_one. rewrite D1, D2, D3. reflexivity.
Qed.
