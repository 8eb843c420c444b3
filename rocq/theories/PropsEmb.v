(** * C38: which embeddings have gradients *)
From Coq Require Import List Arith Bool ZArith.
From Verif Require Import EmbModel EmbSpec EmbProofs.
Import ListNotations.

(** As long as gradients go through embeddings and the model: the history runs,
    every embedding's gradient is the sum of what it was given since it was last
    cleared, the embeddings traversed are those with a gradient, each once, and
    the count is their number. *)
Theorem C38_exact_partial : forall (G : Type) (gadd : G -> G -> G) n os, Forall through_embeddings os ->
  exists m, history gadd (new n) os = Some m /\
    (forall i, grad m i = sum_of gadd (since i os)) /\
    NoDup (traverse_params m) /\ (forall i, In i (traverse_params m) <-> since i os <> []) /\
    (forall l, NoDup l -> (forall i, In i l <-> since i os <> []) -> count_embed_with_grad m = length l).
Proof.
  intros G gadd n os F. destruct (inv_history gadd true n os) as (m & E & [Hg (l & El & Nd & Hl & Hx)] & _); [|auto|].
  { eapply Forall_impl; [|exact F]. intros []; cbn; auto. }
  assert (X : forall i, In i l <-> since i os <> []).
  { intros i. split.
    - intros H Q. apply (Hx eq_refl i H). rewrite Hg, Q. reflexivity.
    - intros H. apply Hl. rewrite Hg. destruct (since i os); [congruence|discriminate]. }
  exists m. unfold count_embed_with_grad, traverse_params. rewrite El. repeat split; auto; try (apply X; assumption); try (now apply X).
  intros l' N' H'. apply nodup_same; auto. intros i. rewrite X. now rewrite H'.
Qed.
Print Assumptions C38_exact_partial.

(** With optimizers and nn.ZeroGrad clearing parameters too, nothing with a gradient
    is missed, and Model.ZeroGrad clears everything. *)
Theorem C38_none_missed_partial : forall (G : Type) (gadd : G -> G -> G) n os, Forall not_direct os ->
  exists m, history gadd (new n) os = Some m /\
    (forall i, grad m i = sum_of gadd (since i os)) /\
    NoDup (traverse_params m) /\ (forall i, since i os <> [] -> In i (traverse_params m)) /\
    (forall i, grad (model_zero m) i = None) /\ traverse_params (model_zero m) = [].
Proof.
  intros G gadd n os F. destruct (inv_history gadd false n os) as (m & E & I & _); [exact F|discriminate|].
  pose proof I as [Hg (l & El & Nd & Hl & _)].
  exists m. unfold traverse_params. rewrite El. repeat split; auto.
  - intros i H. apply Hl. rewrite Hg. destruct (since i os); [congruence|discriminate].
  - destruct (inv_step gadd false m os ZeroAll I Logic.I) as (m' & Em & [Hg' _] & _); [discriminate|]. injection Em as <-.
    intros i. rewrite Hg', since_snoc. reflexivity.
  - unfold model_zero. rewrite El. reflexivity.
Qed.
Print Assumptions C38_none_missed_partial.

(** But then the count is stale: the optimizer cleared the gradient and it is still counted. *)
Theorem C38_count_after_optimizer_refuted : exists os m i, history Nat.add (new 2) os = Some m /\
  (forall j, grad m j = None) /\ count_embed_with_grad m = 1 /\ In i (traverse_params m).
Proof. exists [Acc 1 5; Cleared 1]. eexists. exists 1. split; [reflexivity|]. cbn. repeat split; [|now left]. intros [|[|j]]; reflexivity. Qed.
Print Assumptions C38_count_after_optimizer_refuted.

(** A gradient accumulated on the weight itself is neither traversed nor cleared. *)
Theorem C38_direct_refuted : exists os m, history Nat.add (new 2) os = Some m /\ grad m 1 = Some 5 /\
  traverse_params m = [] /\ grad (model_zero m) 1 = Some 5.
Proof. exists [Direct 1 5]. eexists. split; [reflexivity|]. cbn. auto. Qed.
Print Assumptions C38_direct_refuted.

(** A model read back with encoding/gob panics at the first gradient. *)
Theorem C38_decoded_refuted : forall (G : Type) (gadd : G -> G -> G) (m : emb G) i g os, history gadd (decoded m) (Acc i g :: os) = None.
Proof. reflexivity. Qed.
Print Assumptions C38_decoded_refuted.

(** Encode fails exactly when some index is out of range, and otherwise gives the embeddings asked for, in order. *)
Theorem C38_encode : forall (G : Type) (m : emb G) input,
  (forall es, encode m input = Some es -> map Z.of_nat es = input /\ Forall (fun i => i < size m) es) /\
  (encode m input = None <-> Exists (fun i => ~ (0 <= i < Z.of_nat (size m))%Z) input).
Proof. intros. apply encode_spec. Qed.
Print Assumptions C38_encode.

(** A non-trivial history: two embeddings, one cleared and used again. *)
Definition some_history : list (op nat) := [Acc 0 1; Acc 2 5; Zero 0; Acc 2 6; Acc 0 7; Acc 1 3; Zero 1].
Example C38_case : exists m, history Nat.add (new 3) some_history = Some m /\
  Forall through_embeddings some_history /\ traverse_params m = [0; 2] /\ grad m 2 = Some 11 /\ grad m 0 = Some 7 /\ since 2 some_history = [5; 6].
Proof. eexists. split; [reflexivity|]. repeat split. repeat constructor. Qed.
Example C38_case_optimizer : exists m, history Nat.add (new 3) (some_history ++ [Cleared 2; Acc 1 1]) = Some m /\
  Forall not_direct (some_history ++ [Cleared 2; Acc 1 1]) /\ traverse_params m = [1; 0; 2] /\ grad m 2 = None.
Proof. eexists. split; [reflexivity|]. repeat split. repeat constructor. Qed.
