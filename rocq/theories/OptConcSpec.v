(** * What Optimize should guarantee, over all schedules *)
From Coq Require Import List Arith Bool.
From Verif Require Import OptConcModel.
Import ListNotations.

(** Optimize has returned r. *)
Definition returned (s : state) (r : option nat) : Prop := s_main s = MRet r.
(** The goroutine of parameter i exists and has not finished. *)
Definition running (s : state) (i : nat) : Prop := s_ws s i <> Idle /\ s_ws s i <> Ended.
(** It is inside the strategy. *)
Definition updating (s : state) (i : nat) : Prop := s_ws s i = Updating.
(** An execution of n steps. *)
Inductive steps (cf : config) : nat -> state -> Prop :=
| steps_0 : steps cf 0 init
| steps_S n s s' : steps cf n s -> step cf s s' -> steps cf (S n) s'.
(** The executions in which the goroutines happen to be finished when errCh is closed. *)
Inductive reachable_late_close (cf : config) : state -> Prop :=
| late_init : reachable_late_close cf init
| late_step s s' : reachable_late_close cf s -> step cf s s' ->
    (s_closed s = false -> s_closed s' = true -> forall i, ~ running s i) -> reachable_late_close cf s'.
