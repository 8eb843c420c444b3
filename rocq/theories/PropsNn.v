(** * C37, C51: traversing and streaming the parameters of a model *)
From Coq Require Import List Arith Bool Permutation Lia.
From Verif Require Import WalkModel WalkSpec WalkProofs.
Import ListNotations.

(** ** C37 *)
(** Each occurrence of a parameter is visited once, in field order. *)
Theorem C37_for_each_param_partial : forall m id fs, m = GModel id fs -> tidy m ->
  exists es, for_each_param m = Some es /\ params_seen es = params_of true m.
Proof. exact for_each_exact. Qed.
Print Assumptions C37_for_each_param_partial.
(** Whatever the model: nothing else is visited, and no occurrence twice. *)
Theorem C37_visits_nothing_else : forall m es, for_each_param m = Some es -> subseq (params_seen es) (params_of true m).
Proof. exact for_each_sub. Qed.
Print Assumptions C37_visits_nothing_else.
(** What is visited does not depend on the order in which maps are iterated. *)
Theorem C37_map_order_irrelevant : forall m m' es es', same_but_order m m' -> tidy m -> tidy m' ->
  for_each_param m = Some es -> for_each_param m' = Some es' -> Permutation (params_seen es) (params_seen es').
Proof.
  intros m m' es es' S T T' E E'. pose proof (order_params _ _ S) as P.
  destruct m as [| | | |o ps|id fs| | |]; try discriminate.
  - inversion S; subst. rewrite E in E'. injection E' as ->. apply Permutation_refl.
  - destruct (for_each_exact _ id fs eq_refl T) as (e1 & E1 & H1). rewrite E in E1. injection E1 as <-.
    destruct m' as [| | | | |id' fs'| | |]; try (inversion S; fail).
    destruct (for_each_exact _ id' fs' eq_refl T') as (e2 & E2 & H2). rewrite E' in E2. injection E2 as <-. now rewrite H1, H2.
Qed.
Print Assumptions C37_map_order_irrelevant.
(** A nil pointer, or any other value that is not looked into, hides what follows it in a slice or map. *)
Theorem C37_for_each_param_refuted : exists m es, for_each_param m = Some es /\ params_of true m = [7] /\ params_seen es = [].
Proof. exists (GModel 0 [(true, GSlice [GNil; GParam 7])]). eexists. split; [reflexivity|]. split; reflexivity. Qed.
Print Assumptions C37_for_each_param_refuted.
Theorem C37_strict_partial : forall m id fs, m = GModel id fs -> tidy m -> Forall no_own_traversal (fields_of m) ->
  exists es, for_each_param_strict m = Some es /\ params_seen es = params_of false m.
Proof. exact strict_exact. Qed.
Print Assumptions C37_strict_partial.
(** The parameters of a sub-model with its own TraverseParams are visited by ForEachParamStrict too. *)
Theorem C37_strict_refuted : exists m es, tidy m /\ for_each_param_strict m = Some es /\ params_of false m = [] /\ params_seen es = [3; 4].
Proof. exists (GModel 0 [(true, GTraverser (Some 1) [3; 4])]). eexists. split; [cbn; auto|]. split; [reflexivity|]. split; reflexivity. Qed.
Print Assumptions C37_strict_refuted.
Theorem C37_zero_grad_partial : forall (G : Type) m id fs (g : nat -> option G), m = GModel id fs -> tidy m ->
  exists g', zero_grad m g = Some g' /\ forall p, (In p (params_of true m) -> g' p = None) /\ (~ In p (params_of true m) -> g' p = g p).
Proof. exact @zero_exact. Qed.
Print Assumptions C37_zero_grad_partial.
(** Apply visits the model, then every sub-model once, outermost first. *)
Theorem C37_apply_partial : forall m id fs, m = GModel id fs -> tidy m ->
  exists es, apply m id = Some es /\ models_seen es = models m /\ params_seen es = [].
Proof. exact apply_exact. Qed.
Print Assumptions C37_apply_partial.
(** Apply panics on a model with its own TraverseParams (an embedding.Model with gradients). *)
Theorem C37_apply_refuted : apply (GTraverser (Some 0) [3]) 0 = None.
Proof. reflexivity. Qed.
Print Assumptions C37_apply_refuted.
Definition c37_model : gval := GModel 0
  [(true, GModule); (true, GParam 1); (false, GParam 2); (true, GNil); (true, GSlice [GOther; GOther]);
   (true, GSlice [GParam 3; GModel 1 [(true, GModule); (true, GParam 4); (true, GMap [(true, GParam 5); (true, GParam 6)])]; GTraverser None [7; 8]]);
   (true, GTraverser (Some 2) [9]); (true, GSync [(true, GParam 1)])].
Example C37_case : tidy c37_model /\ params_of true c37_model = [1; 3; 4; 5; 6; 7; 8; 9; 1] /\ models c37_model = [0; 1; 2] /\
  option_map params_seen (for_each_param c37_model) = Some [1; 3; 4; 5; 6; 7; 8; 9; 1].
Proof. split; [cbn; repeat split; auto; discriminate|]. repeat split. Qed.

(** ** C51 *)
(** While the context is not cancelled everything received so far is the beginning of the parameters, and when the channel is closed it is all of them. *)
Theorem C51_complete : forall ps s, run parameters_step ps s \/ run stream_params_step ps s -> cancelled s = false ->
  ps = got s ++ todo s /\ (closed s = true -> got s = ps).
Proof.
  intros ps s [R|R] C; destruct (run_sub _ _ _ R) as (sk & _ & _ & E & D); specialize (E C); (split; [exact E|]); intros X; rewrite (D X), app_nil_r in E; now symmetry.
Qed.
Print Assumptions C51_complete.
(** Whenever cancelled: no parameter is received twice or out of order, *)
Theorem C51_in_order : forall ps s, run parameters_step ps s -> subseq (got s ++ todo s) ps.
Proof. intros ps s R. destruct (run_sub _ _ _ R) as (sk & _ & U & _). exact U. Qed.
Print Assumptions C51_in_order.
(** with StreamParams none is left out before one that is received, *)
Theorem C51_stream_prefix : forall ps s, run stream_params_step ps s -> exists rest, ps = got s ++ rest.
Proof. intros ps s R. destruct (stream_prefix _ _ R) as (r & E & _). eauto. Qed.
Print Assumptions C51_stream_prefix.
(** with Parameters one may be; *)
Theorem C51_parameters_prefix_refuted : exists ps s, run parameters_step ps s /\ closed s = true /\ ~ exists rest, ps = got s ++ rest.
Proof.
  exists [1; 2], (mkStream [] [2] true true). split; [|split; [reflexivity|intros (r & E); discriminate]].
  eapply run_step; [|apply (s_close false [2] true)]. eapply run_step; [|apply (s_send false 2 [] [] true)].
  eapply run_step; [|apply (s_done false 1 [2] [])]. eapply run_step; [|apply (s_cancel false [1; 2] [] false)]. apply run_start.
Qed.
Print Assumptions C51_parameters_prefix_refuted.
(** and the sending goroutine can end without the receiver. *)
Theorem C51_cancelled_ends : forall ps s, (run parameters_step ps s -> cancelled s = true -> closed s = false ->
    runs parameters_step s (mkStream [] (got s) true true)) /\
  (run stream_params_step ps s -> cancelled s = true -> closed s = false -> runs stream_params_step s (mkStream [] (got s) true true)).
Proof. intros ps [t g c d]; split; intros _ C D; cbn in *; subst; apply cancelled_closes. Qed.
Print Assumptions C51_cancelled_ends.
Example C51_case : exists s, run parameters_step [1; 2] s /\ closed s = true /\ cancelled s = false /\ got s = [1; 2].
Proof.
  exists (mkStream [] [1; 2] false true). split; [|auto].
  eapply run_step; [|apply (s_close false [1; 2] false)]. eapply run_step; [|apply (s_send false 2 [] [1] false)].
  eapply run_step; [|apply (s_send false 1 [2] [] false)]. apply run_start.
Qed.
