(** * Model of Optimizer.Optimize (optimizers/optimizer.go:36-79)

    One step of the relation is one communication, counter operation or call of
    the goroutine running Optimize or of one of the goroutines it starts; any
    goroutine that can move may move next.  [OptimizeParams] on a parameter starts
    when its goroutine enters [Updating] and is complete when it leaves it.
    Simplification: the strategy's result depends on the parameter only, and errors
    are numbers.  The parameter channel (Parameters and StreamParams, nn/model.go:29-70: a goroutine sending the
    parameters one by one until its context is cancelled) delivers parameters
    0 .. N-1 in order and is then closed. *)
From Coq Require Import List Arith Bool.
Import ListNotations.

(** What Optimize is called on. *)
Record config := mkConfig {
  cf_params : nat;                 (** number of parameters the channel delivers *)
  cf_grad : nat -> bool;           (** param.HasGrad() *)
  cf_strategy : nat -> option nat; (** strategy.OptimizeParams(param): [None] is nil *)
  cf_cap : nat                     (** runtime.NumCPU()*2 *)
}.

(** The goroutine of a parameter, optimizer.go:54-66.  The deferred calls run in the
    order <-guard, wg.Done(). *)
Inductive wpc :=
| Idle        (** not started *)
| Start       (** started *)
| Updating    (** inside OptimizeParams *)
| Sending (e : nat)  (** at the select that sends on errCh *)
| Releasing   (** at <-guard *)
| Finishing   (** at wg.Done() *)
| Ended.

(** Optimize itself. *)
Inductive mpc :=
| MRecv             (** receiving the next parameter, line 45 *)
| MSelect (i : nat) (** the select of line 46, with parameter i *)
| MAcquire (i : nat) (** after wg.Add(1), at guard <- struct{}{}, line 53 *)
| MSpawn (i : nat)  (** at the go statement, line 54 *)
| MWait (e : nat)   (** wg.Wait(), line 49 *)
| MClose            (** close(errCh), line 72 *)
| MDrain            (** reading the closed errCh, line 74 *)
| MRet (r : option nat). (** returned: nil or an error *)

Record state := mkState {
  s_main : mpc;
  s_next : nat;             (** parameters received so far *)
  s_ws : nat -> wpc;
  s_updates : nat -> nat;   (** completed updates of each parameter *)
  s_guard : nat;            (** elements in the guard channel *)
  s_wg : nat;               (** the wait group's counter *)
  s_err : option nat;       (** the buffer of errCh, of size one *)
  s_closed : bool;          (** errCh closed *)
  s_panic : bool            (** a goroutine panicked: the program is dead *)
}.

Definition init : state := mkState MRecv 0 (fun _ => Idle) (fun _ => 0) 0 0 None false false.

Definition upd {A} (f : nat -> A) (i : nat) (v : A) (k : nat) : A := if k =? i then v else f k.
Definition at_main (s : state) (m : mpc) : state :=
  mkState m (s_next s) (s_ws s) (s_updates s) (s_guard s) (s_wg s) (s_err s) (s_closed s) (s_panic s).
Definition at_worker (s : state) (i : nat) (w : wpc) : state :=
  mkState (s_main s) (s_next s) (upd (s_ws s) i w) (s_updates s) (s_guard s) (s_wg s) (s_err s) (s_closed s) (s_panic s).
Definition set_err (s : state) (e : option nat) : state :=
  mkState (s_main s) (s_next s) (s_ws s) (s_updates s) (s_guard s) (s_wg s) e (s_closed s) (s_panic s).
Definition set_wg (s : state) (n : nat) : state :=
  mkState (s_main s) (s_next s) (s_ws s) (s_updates s) (s_guard s) n (s_err s) (s_closed s) (s_panic s).
Definition set_guard (s : state) (n : nat) : state :=
  mkState (s_main s) (s_next s) (s_ws s) (s_updates s) n (s_wg s) (s_err s) (s_closed s) (s_panic s).
Definition set_next (s : state) (n : nat) : state :=
  mkState (s_main s) n (s_ws s) (s_updates s) (s_guard s) (s_wg s) (s_err s) (s_closed s) (s_panic s).
Definition did_update (s : state) (i : nat) : state :=
  mkState (s_main s) (s_next s) (s_ws s) (upd (s_updates s) i (S (s_updates s i))) (s_guard s) (s_wg s) (s_err s) (s_closed s) (s_panic s).
Definition set_closed (s : state) : state :=
  mkState (s_main s) (s_next s) (s_ws s) (s_updates s) (s_guard s) (s_wg s) (s_err s) true (s_panic s).
Definition set_panic (s : state) : state :=
  mkState (s_main s) (s_next s) (s_ws s) (s_updates s) (s_guard s) (s_wg s) (s_err s) (s_closed s) true.

(** A step of Optimize (optimizer.go:45-78); the select of line 46 has a default, so it
    takes the error if there is one and goes on otherwise. *)
Inductive main_step (cf : config) (s : state) : state -> Prop :=
| m_recv : s_main s = MRecv -> s_next s < cf_params cf ->
    main_step cf s (set_next (at_main s (MSelect (s_next s))) (S (s_next s)))
| m_over : s_main s = MRecv -> s_next s = cf_params cf -> main_step cf s (at_main s MClose)
| m_error i e : s_main s = MSelect i -> s_err s = Some e -> main_step cf s (set_err (at_main s (MWait e)) None)
| m_default i : s_main s = MSelect i -> s_err s = None -> main_step cf s (set_wg (at_main s (MAcquire i)) (S (s_wg s)))
| m_acquire i : s_main s = MAcquire i -> s_guard s < cf_cap cf -> main_step cf s (set_guard (at_main s (MSpawn i)) (S (s_guard s)))
| m_spawn i : s_main s = MSpawn i -> main_step cf s (at_worker (at_main s MRecv) i Start)
| m_wait e : s_main s = MWait e -> s_wg s = 0 -> main_step cf s (at_main s (MRet (Some e)))
| m_close : s_main s = MClose -> main_step cf s (set_closed (at_main s MDrain))
| m_drain : s_main s = MDrain -> main_step cf s (at_main s (MRet (s_err s))).

(** A step of the goroutine of parameter i (optimizer.go:54-67).  A send on a closed
    channel panics, also in a select. *)
Inductive worker_step (cf : config) (s : state) (i : nat) : state -> Prop :=
| w_no_grad : s_ws s i = Start -> cf_grad cf i = false -> worker_step cf s i (at_worker s i Releasing)
| w_grad : s_ws s i = Start -> cf_grad cf i = true -> worker_step cf s i (at_worker s i Updating)
| w_updated : s_ws s i = Updating -> cf_strategy cf i = None -> worker_step cf s i (did_update (at_worker s i Releasing) i)
| w_failed e : s_ws s i = Updating -> cf_strategy cf i = Some e -> worker_step cf s i (did_update (at_worker s i (Sending e)) i)
| w_send e : s_ws s i = Sending e -> s_closed s = false -> s_err s = None -> worker_step cf s i (set_err (at_worker s i Releasing) (Some e))
| w_full e e' : s_ws s i = Sending e -> s_closed s = false -> s_err s = Some e' -> worker_step cf s i (at_worker s i Releasing)
| w_crash e : s_ws s i = Sending e -> s_closed s = true -> worker_step cf s i (set_panic s)
| w_release : s_ws s i = Releasing -> worker_step cf s i (set_guard (at_worker s i Finishing) (s_guard s - 1))
| w_done : s_ws s i = Finishing -> worker_step cf s i (set_wg (at_worker s i Ended) (s_wg s - 1)).

Inductive step (cf : config) (s : state) : state -> Prop :=
| step_main s' : s_panic s = false -> main_step cf s s' -> step cf s s'
| step_worker i s' : s_panic s = false -> worker_step cf s i s' -> step cf s s'.

(** The executions of Optimize. *)
Inductive reachable (cf : config) : state -> Prop :=
| reach_init : reachable cf init
| reach_step s s' : reachable cf s -> step cf s s' -> reachable cf s'.
