(** * Properties of the back-propagation engine: C01-C04, C06, C07, C09 (engine side)

    [gadd] and [gone] are arbitrary in most statements: they hold for floating
    point addition, which is neither associative nor (with NaN) well behaved. *)
From Coq Require Import List Arith ZArith Bool Permutation.
From Verif Require Import AgModel AgSpec AgConc AgMain AgExamples.
Import ListNotations.

(** C01.  Every call of Backward ends: it returns at once, reports a missing
    gradient, or starts goroutines none of whose schedules is infinite, panics
    or gets stuck before Backward has returned. *)
Theorem C01_backward_returns :
  forall (G : Type) (gadd : G -> G -> G) (gone : G) (g : @graph G) (m : @mem G) (xs : list nat),
  well_formed g -> ready g m ->
  backward_seq gadd gone g m xs = SReturn m \/
  (exists m', backward_seq gadd gone g m xs = SError m') \/
  (exists c, backward_seq gadd gone g m xs = SConc c /\
     (forall c', steps gadd g c c' ->
        cpanic c' = false /\ (cret c' = false -> exists c'', step gadd g c' c'')) /\
     (forall f, f 0 = c -> (forall i, step gadd g (f i) (f (S i))) -> False)).
Proof. exact @backward_ends. Qed.
Print Assumptions C01_backward_returns.

Example C01_hypotheses_met :
  well_formed diamond /\ ready diamond blank /\
  exists c, backward_seq Z.add 1%Z diamond blank [4] = SConc c.
Proof. split; [exact diamond_wf|split; [exact (blank_ready _)|eexists; reflexivity]]. Qed.

(** C01, refuted without the guard on backward functions: an operator that
    lists an operand it never hands a gradient to makes Backward hang for ever
    on every schedule (ELU, CELU, LeakyReLU, ... with computed parameters). *)
Theorem C01_unguarded_refuted :
  exists (g : @graph Z) (m : @mem Z) (xs : list nat),
  acyclic g /\ sends_to_operands g /\ ready g m /\
  (exists c, backward_seq Z.add 1%Z g m xs = SConc c) /\
  forall m', ~ backward Z.add 1%Z g m xs m'.
Proof. exact elu_refutes. Qed.
Print Assumptions C01_unguarded_refuted.

(** The general form: whenever a reached operator hands a reached operand
    fewer gradients than the number of times it lists it, Backward never
    returns. *)
Theorem C09_undersending_hangs :
  forall (G : Type) (gadd : G -> G -> G) (gone : G) (g : @graph G) (m : @mem G) (xs : list nat) c x y,
  acyclic g -> sends_to_operands g -> frugal g -> ready g m ->
  backward_seq gadd gone g m xs = SConc c ->
  reached g xs x -> reached g xs y ->
  count_occ Nat.eq_dec (map fst (sends_of g y)) x < count_occ Nat.eq_dec (operands_of g y) x ->
  forall c', steps gadd g c c' -> cret c' = false.
Proof. exact @undersending_hangs. Qed.
Print Assumptions C09_undersending_hangs.

Example C09_hang_hypotheses_met :
  acyclic elu_graph /\ sends_to_operands elu_graph /\ frugal elu_graph /\ ready elu_graph blank /\
  reached elu_graph [2] 1 /\ reached elu_graph [2] 2 /\
  count_occ Nat.eq_dec (map fst (sends_of elu_graph 2)) 1 < count_occ Nat.eq_dec (operands_of elu_graph 2) 1.
Proof.
  split; [exact elu_acyclic|]. split; [exact elu_sends|]. split; [exact elu_frugal|].
  split; [exact (blank_ready _)|]. split; [exact (proj1 elu_reached)|]. split; [exact (proj2 elu_reached)|].
  cbn. auto.
Qed.

(** C02, for any addition: the final gradient is the initial one (plus the
    seed), to which the contributions of all uses by reached operators are
    added one by one, each exactly once, in some order. *)
Theorem C02_each_contribution_added_once :
  forall (G : Type) (gadd : G -> G -> G) (gone : G) (g : @graph G) m xs m' ys x,
  well_formed g -> ready g m -> backward gadd gone g m xs m' -> lists_reached g xs ys ->
  exists order, Permutation order (gradients_received g m' ys x) /\
    grad (m' x) = added_in_order gadd (oadd gadd (grad (m x)) (seed gone g m xs x)) order.
Proof. exact @grad_order. Qed.
Print Assumptions C02_each_contribution_added_once.

(** C02, for a commutative and associative addition: the sum. *)
Theorem C02_gradient_is_sum :
  forall (G : Type) (gadd : G -> G -> G) (gone : G),
  (forall a b, gadd a b = gadd b a) -> (forall a b c, gadd a (gadd b c) = gadd (gadd a b) c) ->
  forall (g : @graph G) m xs m' ys x,
  well_formed g -> ready g m -> backward gadd gone g m xs m' -> lists_reached g xs ys ->
  grad (m' x) = osum gadd (grad (m x) :: seed gone g m xs x ::
                  map (fun y => contribution gadd g y (grad (m' y)) x) ys).
Proof. exact @grad_sum. Qed.
Print Assumptions C02_gradient_is_sum.

Theorem C02_schedule_independent :
  forall (G : Type) (gadd : G -> G -> G) (gone : G),
  (forall a b, gadd a b = gadd b a) -> (forall a b c, gadd a (gadd b c) = gadd (gadd a b) c) ->
  forall (g : @graph G) m xs m1 m2,
  well_formed g -> ready g m -> backward gadd gone g m xs m1 -> backward gadd gone g m xs m2 ->
  forall x, grad (m1 x) = grad (m2 x).
Proof. exact @schedule_independent. Qed.
Print Assumptions C02_schedule_independent.

(** The reached operators can always be listed, and the call does return. *)
Theorem C02_reached_listable :
  forall (G : Type) (g : @graph G) xs, acyclic g -> exists ys, lists_reached g xs ys.
Proof. exact @reached_listable. Qed.
Print Assumptions C02_reached_listable.

Example C02_hypotheses_met :
  well_formed diamond /\ ready diamond blank /\ lists_reached diamond [4] [2;3;4] /\
  (exists m', backward Z.add 1%Z diamond blank [4] m') /\
  (forall m', backward Z.add 1%Z diamond blank [4] m' -> grad (m' 0) = Some 7%Z).
Proof.
  split; [exact diamond_wf|]. split; [exact (blank_ready _)|]. split; [exact diamond_reached|].
  split; [exact diamond_runs|exact diamond_value].
Qed.

(** C03.  When Backward returns, the backward function of every reached
    operator has been called exactly once, no other was called, and the
    gradient it was given is the operator's final gradient. *)
Theorem C03_called_once_with_complete_gradient :
  forall (G : Type) (gadd : G -> G -> G) (gone : G) (g : @graph G) m xs c c',
  well_formed g -> ready g m -> backward_seq gadd gone g m xs = SConc c ->
  steps gadd g c c' -> cret c' = true ->
  NoDup (map fst (clog c')) /\ (forall y, In y (map fst (clog c')) <-> reached g xs y) /\
  (forall y v, In (y, v) (clog c') -> grad (cmem c' y) = Some v).
Proof. exact @called_once. Qed.
Print Assumptions C03_called_once_with_complete_gradient.

Example C03_hypotheses_met :
  exists c c', backward_seq Z.add 1%Z diamond blank [4] = SConc c /\
    steps Z.add diamond c c' /\ cret c' = true.
Proof. exact diamond_returns. Qed.

(** C04.  After any history of node creations, AccGrad, ZeroGrad and successful
    Backward calls, starting from an idle state, the graph is idle again: no
    AccGrad panics, no Grad or ZeroGrad blocks, and Backward can be called
    again, with the guarantees of C01-C03. *)
Theorem C04_reusable :
  forall (G : Type) (gadd : G -> G -> G) (gone : G) (g : @graph G) m ops g' m',
  urun gadd gone g m ops g' m' -> well_formed g' -> ready g m ->
  ready g' m' /\
  (forall x v, exists m1, acc_grad_seq gadd g' m' x v = Some m1) /\
  (forall x, grad_blocks g' m' x = false) /\
  (forall xs, (~ exists x, lacks_gradient g' m' xs x) -> exists m1, backward gadd gone g' m' xs m1).
Proof. exact @reusable. Qed.
Print Assumptions C04_reusable.

Example C04_hypotheses_met :
  exists m', urun Z.add 1%Z (firstn 3 diamond) blank
     [UAcc 0 11%Z; UNew (nth 3 diamond (mkNode (Leaf false) false));
      UBackward [3]; UZero 3; UNew (nth 4 diamond (mkNode (Leaf false) false)); UBackward [4]; UBackward [4]]
     diamond m'.
Proof. exact diamond_history. Qed.

(** C06.  A tensor that is not a root keeps its gradient if it does not require
    gradients or if no reached operator uses it. *)
Theorem C06_gradients_stop :
  forall (G : Type) (gadd : G -> G -> G) (gone : G) (g : @graph G) m xs m' x,
  well_formed g -> ready g m -> backward gadd gone g m xs m' -> ~ In x xs ->
  (~ leads_to_grad g x \/ forall y, reached g xs y -> ~ In x (operands_of g y)) ->
  grad (m' x) = grad (m x).
Proof. exact @gradients_stop. Qed.
Print Assumptions C06_gradients_stop.

(** StopGrad wraps a tensor in a node that does not require gradients and
    exposes no operands (ag/gradientblocker.go): an operator all of whose
    operands are such nodes requires no gradient and is never reached. *)
Theorem C06_blocked_operator_not_reached :
  forall (G : Type) (g : @graph G) xs y,
  (forall k, In k (operands_of g y) -> exists sc, nth_error g k = Some (mkNode (Leaf false) sc)) ->
  ~ reached g xs y.
Proof. exact @blocked_not_reached. Qed.
Print Assumptions C06_blocked_operator_not_reached.

Example C06_hypotheses_met :
  ~ In 1 [4] /\ ~ leads_to_grad diamond 1 /\ In 1 (operands_of diamond 2) /\ reached diamond [4] 2.
Proof. exact diamond_constant. Qed.

Example C06_blocked_met :
  let g : @graph Z := [mkNode (Leaf false) true; mkNode (Oper [0] [(0, idZ)]) true] in
  is_oper g 1 = true /\
  forall k, In k (operands_of g 1) -> exists sc, nth_error g k = Some (mkNode (Leaf false) sc).
Proof. cbn. split; [reflexivity|]. intros k [<-|[]]. eexists. reflexivity. Qed.

(** C07.  Backward reports a missing gradient exactly when some operator among
    the roots has no gradient and is not a scalar; it has then changed no
    gradient except the seeds of the roots before the offending one. *)
Theorem C07_error_iff_missing :
  forall (G : Type) (gadd : G -> G -> G) (gone : G) (g : @graph G) m xs,
  acyclic g -> ready g m ->
  ((exists m', backward_seq gadd gone g m xs = SError m') <-> exists x, lacks_gradient g m xs x).
Proof. exact @error_iff. Qed.
Print Assumptions C07_error_iff_missing.

Theorem C07_error_changes_only_seeds :
  forall (G : Type) (gadd : G -> G -> G) (gone : G) (g : @graph G) m xs m',
  acyclic g -> ready g m -> backward_seq gadd gone g m xs = SError m' ->
  exists before after, filter_operators g xs = before ++ after /\
    forall x, grad (m' x) = oadd gadd (grad (m x)) (seed gone g m before x).
Proof. exact @error_grads. Qed.
Print Assumptions C07_error_changes_only_seeds.

Example C07_hypotheses_met :
  acyclic chain_graph /\ ready chain_graph blank /\
  backward_seq Z.add 1%Z chain_graph blank [1] = SError failed.
Proof. split; [exact (proj1 chain_wf)|split; [exact (blank_ready _)|exact failed_is]]. Qed.

(** C07, refuted part: the graph is not usable after the error.  Grad() on the
    root blocks for ever, and a later, well-posed Backward on the same graph
    never returns. *)
Theorem C07_usable_after_error_refuted :
  exists (g : @graph Z) (m m1 : @mem Z) (x y : nat),
  well_formed g /\ ready g m /\
  backward_seq Z.add 1%Z g m [x] = SError m1 /\
  grad_blocks g m1 x = true /\
  (~ exists z, lacks_gradient g m1 [y] z) /\
  (exists m2, backward Z.add 1%Z g m [y] m2) /\
  (forall m2, ~ backward Z.add 1%Z g m1 [y] m2).
Proof. exact after_error. Qed.
Print Assumptions C07_usable_after_error_refuted.
