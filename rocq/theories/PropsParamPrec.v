(** * C77: a matrix and its gradient keep one precision *)
From Coq Require Import List Arith Bool Lia.
From Verif Require Import ParamModel ParamSpec ParamProofs ParamPrecProofs.
Import ListNotations.

(** calls that give [x] another matrix *)
Definition gives_another {T S} (x : ref) (c : call T S) : bool :=
  match x, c with Par k, ReplaceValue j _ => j =? k | _, _ => false end.

Section Props.
Context {T S : Type}.
Variable add : T -> T -> T.
Variable conv : precision -> precision -> T -> T.
Notation state := (state T S).

(** Whatever the program does, what it holds stays of the precision it had, unless it is a parameter whose value is replaced: then
    it has from that moment the precision of the new value. *)
Theorem C77_precision_kept : forall before (s s' : state) x p after, run add conv start before = Some s -> precision_of s x = Some p ->
  run add conv s after = Some s' ->
  (existsb (gives_another x) after = false -> precision_of s' x = Some p) /\
  (forall k v q s1, precision_of s' (Var v) = Some q -> step add conv s' (ReplaceValue k v) = Some s1 -> precision_of s1 (Par k) = Some q).
Proof.
  intros before s s' x p after H P A. split.
  - intros X. unfold precision_of, tensor_at in *. destruct (resolve s x) as [i|] eqn:R; [|discriminate].
    destruct (nth_error (tensors s) i) as [t|] eqn:E; [|discriminate]. cbn in P. injection P as <-.
    assert (resolve s' x = Some i) as ->.
    { eapply resolve_run; [|exact A|exact R]. transitivity (existsb (gives_another x) after); [|exact X]. clear. induction after as [|c cs IH]; [reflexivity|]. cbn [existsb]. rewrite IH. now destruct x, c. }
    pose proof (extends_at _ _ _ _ (proj1 (good_run _ _ _ _ _ A)) (precs_at _ _ _ E)) as Q. unfold precs in Q. rewrite nth_error_map in Q. exact Q.
  - intros k v q s1 Q. cbn. unfold on, replace_value. unfold precision_of, tensor_at in *. cbn in *. destruct (nth_error (vars s') v) as [i|]; [|discriminate].
    destruct (nth_error (params s') k) as [r|] eqn:K; [|discriminate]. intros [= <-]. cbn. rewrite nth_upd_same by (eapply nth_lt; eauto). exact Q.
Qed.

(** After any history, the matrix Grad gives is of the precision of what it is the gradient of. *)
Theorem C77_gradient_precision : forall before (s s' : state) x d, run add conv start before = Some s -> gradient s x = Some (Some d) ->
  step add conv s (Grad x) = Some s' -> precision_of s' (Var (length (vars s))) = precision_of s x /\ precision_of s x <> None.
Proof.
  intros before s s' x d H G N. pose proof (alike_reached _ _ _ _ H) as L. unfold gradient, tensor_at in G. destruct (resolve s x) as [i|] eqn:R; [|discriminate].
  destruct (nth_error (tensors s) i) as [t|] eqn:E; [|discriminate]. destruct (grad t) as [g|] eqn:P; [|discriminate].
  cbn in N. unfold on in N. rewrite R in N. unfold get_grad in N. rewrite E, P in N. injection N as <-.
  pose proof (L _ _ _ E P) as Q. unfold precs in Q. rewrite nth_error_map in Q.
  unfold precision_of, tensor_at. cbn [resolve]. cbn. rewrite nth_error_app2, Nat.sub_diag by lia. cbn. rewrite R, E. cbn. split; [exact Q|discriminate].
Qed.
End Props.

(** a gradient of float64 added to a parameter of float32, whose gradient stays of float32; and a value of the other precision *)
Example C77_precision_case : exists s s' : state nat unit,
  run Nat.add (fun p q v => match q with Float32 => v | Float64 => 2 * v end) start
    [New Float32 1 1 [3]; New Float64 1 1 [4]; NewParam (Var 0); AccGrad (Par 0) (Var 0); AccGrad (Par 0) (Var 1)] = Some s /\
  gradient s (Par 0) = Some (Some [7]) /\
  run Nat.add (fun p q v => match q with Float32 => v | Float64 => 2 * v end) s [Grad (Par 0); ReplaceValue 0 1] = Some s' /\
  precision_of s' (Var 2) = Some Float32 /\ precision_of s (Par 0) = Some Float32 /\ precision_of s' (Par 0) = Some Float64.
Proof. do 2 eexists. repeat (split; [cbv; reflexivity|]); cbv; reflexivity. Qed.

Print Assumptions C77_precision_kept.
Print Assumptions C77_gradient_precision.
