(** * The forward engine of spago (package ag)

    Model of [Operator.Run], [executeForward], [Value] and of the semaphore
    [forwardGuard] (ag/operator.go:75-86, 136-176), with any number of
    goroutines building the graph (user code, or nn/birnn/birnn.go:61-68).

    Operators are numbered; [deps x] are the operands of [x] that are operators
    themselves; [fn x] is its [Forward] as a function of their values (other
    operands are constants).  [asy x] tells whether it is run asynchronously
    ([isAsync], operator.go:140).  A builder is the list of operators it runs,
    in order.  A builder that waits for a value ([Value()], birnn.go:96) is a
    builder running a synchronous operator with that operand.

    Simplifications: [Forward] reads the operands one after the other and then
    computes in one step; an error of [Forward] ([log.Fatalf]) is not
    represented; memory is sequentially consistent. *)
From Coq Require Import List Arith Bool.
From Verif Require Import AgModel.
Import ListNotations.

Section Fwd.
Context {V : Type}.

Record program := mkProgram {
  deps : nat -> list nat;
  fn : nat -> list V -> V;
  asy : nat -> bool
}.

(** Where the execution of an operator stands. *)
Inductive opc :=
| ONew                                (* Run not called *)
| OAcq                                (* forwardGuard <- struct{}{}, :145 *)
| ORead (r : list nat) (vs : list V)  (* in fn.Forward: operands left, values read; :159 *)
| OStored                             (* o.value = value done, :163 *)
| OClosed                             (* close(o.broadcast) done, :166; <-forwardGuard next, :148 *)
| ODone.

Record fconfig := mkF {
  fpc : nat -> opc;
  fval : nat -> option V;       (* o.value *)
  fclosed : nat -> bool;        (* o.broadcast is closed *)
  ftok : nat;                   (* slots of forwardGuard in use *)
  ftodo : list (list nat);      (* what each builder still has to run *)
  fpanic : bool                 (* nil value read, or channel closed twice *)
}.

(** [Run] has returned the operator to the builder (operator.go:150, 154). *)
Definition returned (p : program) (c : fconfig) (x : nat) : bool :=
  match fpc c x with
  | ONew | OAcq => false
  | ODone => true
  | _ => asy p x
  end.

Definition set_pc (c : fconfig) (x : nat) (q : opc) : fconfig :=
  mkF (upd (fpc c) x q) (fval c) (fclosed c) (ftok c) (ftodo c) (fpanic c).

(** [l] with its element [b] replaced. *)
Fixpoint replace {A} (l : list A) (b : nat) (a : A) : list A :=
  match l, b with
  | [], _ => []
  | _ :: l, O => a :: l
  | y :: l, S b => y :: replace l b a
  end.

Inductive fstep (p : program) (cap : nat) (c : fconfig) : fconfig -> Prop :=
(* builder b calls Run on the next operator; it holds its operands, so their
   own Run calls have returned *)
| fs_start b x l :
    fpanic c = false ->
    nth_error (ftodo c) b = Some (x :: l) -> fpc c x = ONew ->
    (forall d, In d (deps p x) -> returned p c d = true) ->
    fstep p cap c (set_pc c x (if asy p x then OAcq else ORead (deps p x) []))
(* the builder enters the semaphore and starts the goroutine *)
| fs_acquire x :
    fpanic c = false -> fpc c x = OAcq -> ftok c < cap ->
    fstep p cap c (mkF (upd (fpc c) x (ORead (deps p x) [])) (fval c) (fclosed c) (S (ftok c)) (ftodo c) (fpanic c))
(* Run has returned: the builder goes on *)
| fs_next b x l :
    fpanic c = false ->
    nth_error (ftodo c) b = Some (x :: l) -> returned p c x = true ->
    fstep p cap c (mkF (fpc c) (fval c) (fclosed c) (ftok c) (replace (ftodo c) b l) (fpanic c))
(* Forward reads an operand: Value, operator.go:171-176 *)
| fs_read x d r vs v :
    fpanic c = false -> fpc c x = ORead (d :: r) vs ->
    (asy p d = true -> fclosed c d = true) -> fval c d = Some v ->
    fstep p cap c (set_pc c x (ORead r (vs ++ [v])))
| fs_read_nil x d r vs :
    fpanic c = false -> fpc c x = ORead (d :: r) vs ->
    (asy p d = true -> fclosed c d = true) -> fval c d = None ->
    fstep p cap c (mkF (fpc c) (fval c) (fclosed c) (ftok c) (ftodo c) true)
| fs_compute x vs :
    fpanic c = false -> fpc c x = ORead [] vs ->
    fstep p cap c (mkF (upd (fpc c) x OStored) (upd (fval c) x (Some (fn p x vs))) (fclosed c) (ftok c) (ftodo c) (fpanic c))
(* operator.go:165-167 *)
| fs_close x :
    fpanic c = false -> fpc c x = OStored -> asy p x = true -> fclosed c x = false ->
    fstep p cap c (mkF (upd (fpc c) x OClosed) (fval c) (upd (fclosed c) x true) (ftok c) (ftodo c) (fpanic c))
| fs_close_twice x :
    fpanic c = false -> fpc c x = OStored -> asy p x = true -> fclosed c x = true ->
    fstep p cap c (mkF (fpc c) (fval c) (fclosed c) (ftok c) (ftodo c) true)
| fs_sync x :
    fpanic c = false -> fpc c x = OStored -> asy p x = false ->
    fstep p cap c (set_pc c x ODone)
(* operator.go:148 *)
| fs_release x :
    fpanic c = false -> fpc c x = OClosed ->
    fstep p cap c (mkF (upd (fpc c) x ODone) (fval c) (fclosed c) (pred (ftok c)) (ftodo c) (fpanic c)).

Inductive fsteps (p : program) (cap : nat) (c : fconfig) : fconfig -> Prop :=
| fsteps_refl : fsteps p cap c c
| fsteps_step c1 c2 : fsteps p cap c c1 -> fstep p cap c1 c2 -> fsteps p cap c c2.

Definition fstart (builders : list (list nat)) : fconfig :=
  mkF (fun _ => ONew) (fun _ => None) (fun _ => false) 0 builders false.

(** ** Specification *)

(** The value of an operator by plain sequential evaluation. *)
Inductive evaluates (p : program) : nat -> V -> Prop :=
| ev x vs : Forall2 (evaluates p) (deps p x) vs -> evaluates p x (fn p x vs).

Fixpoint increasing (l : list nat) : Prop :=
  match l with
  | [] => True
  | x :: l => (forall y, In y l -> x < y) /\ increasing l
  end.

(** The builders, between them, run every operator once, and none of them
    needs an operator created later (in some numbering of the operators). *)
Definition buildable (p : program) (builders : list (list nat)) : Prop :=
  NoDup (concat builders) /\
  Forall increasing builders /\
  (forall x d, In x (concat builders) -> In d (deps p x) -> d < x /\ In d (concat builders)).

End Fwd.
