(** * C08: asynchronous forward execution *)
From Coq Require Import List Arith Bool.
From Verif Require Import FwdModel FwdProofs.
Import ListNotations.

(** No schedule goes on for ever. *)
Theorem C08_terminates :
  forall (V : Type) (p : @program V) cap builders, buildable p builders -> 1 <= cap ->
  forall f, f 0 = fstart builders -> (forall i, fstep p cap (f i) (f (S i))) -> False.
Proof. exact @fwd_no_infinite. Qed.
Print Assumptions C08_terminates.

(** At any moment: no nil value is read, no channel is closed twice, any value
    present is the one of sequential evaluation, and at most [cap] goroutines
    are executing asynchronous operators. *)
Theorem C08_values_never_wrong :
  forall (V : Type) (p : @program V) cap builders c, buildable p builders -> 1 <= cap ->
  fsteps p cap (fstart builders) c ->
  fpanic c = false /\ (forall x v, fval c x = Some v -> evaluates p x v) /\ ftok c <= cap.
Proof. exact @fwd_safe. Qed.
Print Assumptions C08_values_never_wrong.

(** A state in which nothing can happen any more is one where every builder has
    finished and every operator has its (unique) value, available to readers:
    there is no deadlock. *)
Theorem C08_no_deadlock :
  forall (V : Type) (p : @program V) cap builders c, buildable p builders -> 1 <= cap ->
  fsteps p cap (fstart builders) c -> (forall c', ~ fstep p cap c c') ->
  Forall (fun l => l = []) (ftodo c) /\
  forall x, In x (concat builders) ->
    exists v, fval c x = Some v /\ evaluates p x v /\ (asy p x = true -> fclosed c x = true) /\
      (forall w, evaluates p x w -> w = v).
Proof. exact @fwd_complete. Qed.
Print Assumptions C08_no_deadlock.

Example C08_hypotheses_met :
  buildable demo demo_builders /\ 1 <= 1 /\ asy demo 2 = true /\ asy demo 3 = false /\ evaluates demo 4 63.
Proof. split; [exact demo_buildable|]. repeat split; auto. exact demo_value. Qed.
