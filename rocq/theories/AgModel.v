(** * The back-propagation engine of spago (package ag)

    Model of [ag/operator.go] and [ag/backward.go].  Definitions only.

    Nodes of the computation graph are numbered by creation order.  A node that
    is not an [*Operator] ([mat.Dense], [nn.Param], [embedding.Embedding],
    [ag.GradientBlocker], [nn.Buffer]) is a [Leaf]; it carries the answer of its
    [RequiresGrad] method (always [false] for the last two,
    ag/gradientblocker.go:40-41).

    An operator carries the list its function returns from [Operands] and the
    list of [AccGrad] calls its [Backward] makes: a target and the gradient
    handed to it as a function of the gradient received.  Every function of
    mat/gradfn guards each call with [RequiresGrad] of the target; the guard is
    in [live_sends] below.

    Simplifications:
    - a gradient is an element of an arbitrary type [G] with an addition; shapes
      are not represented here (see the shape model for C16);
    - [Forward] has completed for all nodes: [Value()] does not block (the
      forward engine is modelled in FwdModel.v);
    - an error of a backward function ([log.Fatalf], operator.go:297) is not
      represented;
    - memory is sequentially consistent; one model step performs one atomic
      load, store, compare-and-swap, add, channel operation or mutex-protected
      section. *)

From Coq Require Import List Arith ZArith Bool Lia.
Import ListNotations.

(** Pointwise update of a map from nodes. *)
Definition upd {A} (f : nat -> A) (x : nat) (v : A) : nat -> A :=
  fun y => if Nat.eqb y x then v else f y.

(** ag/operator.go:31-61, the three values of [backwardState]. *)
Inductive bstate := Idle | Pending | Ongoing.

Definition bstate_eqb (a b : bstate) : bool :=
  match a, b with
  | Idle, Idle | Pending, Pending | Ongoing, Ongoing => true
  | _, _ => false
  end.

(** A channel used as a one-shot signal: [NilChan] before [make], then open,
    then closed (ag/operator.go:102, 263). *)
Inductive chan := NilChan | OpenChan | ClosedChan.

Section Engine.

Context {G : Type}.
Variable gadd : G -> G -> G.   (* Dense.AddInPlace on gradients *)
Variable gone : G.             (* NewScalar(1.), operator.go:245 *)

Inductive kind :=
| Leaf (req : bool)
| Oper (operands : list nat) (sends : list (nat * (G -> G))).

(** [scalar] is [Value().Size() == 1] (operator.go:244). *)
Record node := mkNode { nkind : kind; scalar : bool }.

Definition graph := list node.

(** ** Static facts *)

Definition is_oper (g : graph) (x : nat) : bool :=
  match nth_error g x with
  | Some (mkNode (Oper _ _) _) => true
  | _ => false
  end.

Definition operands_of (g : graph) (x : nat) : list nat :=
  match nth_error g x with
  | Some (mkNode (Oper ops _) _) => ops
  | _ => []
  end.

Definition sends_of (g : graph) (x : nat) : list (nat * (G -> G)) :=
  match nth_error g x with
  | Some (mkNode (Oper _ ss) _) => ss
  | _ => []
  end.

Definition is_scalar (g : graph) (x : nat) : bool :=
  match nth_error g x with
  | Some nd => scalar nd
  | None => false
  end.

(** ag/operator.go:198-209 [RequiresGrad]: true as soon as one operand requires
    gradients; memoised.  Operands are created before the operator, so the
    answers are computed in creation order. *)
Definition req_step (acc : list bool) (nd : node) : list bool :=
  acc ++ [match nkind nd with
          | Leaf r => r
          | Oper ops _ => existsb (fun k => nth k acc false) ops
          end].

Definition req_list (g : graph) : list bool := fold_left req_step g [].

Definition requires (g : graph) (x : nat) : bool := nth x (req_list g) false.

(** Operators that take part in the backward pass. *)
Definition live (g : graph) (x : nat) : bool := is_oper g x && requires g x.

(** The operands visited by prepare/processBackwardPass: those that are
    [*Operator] (operator.go:265-269, 280-284). *)
Definition op_operands (g : graph) (x : nat) : list nat :=
  filter (is_oper g) (operands_of g x).

(** The [AccGrad] calls of one run of [fn.Backward]: guarded by the target's
    [RequiresGrad]. *)
Definition live_sends (g : graph) (x : nat) : list (nat * (G -> G)) :=
  filter (fun p => requires g (fst p)) (sends_of g x).

(** ** Mutable state of a node *)
Record nstate := mkN {
  grad : option G;     (* Value().Grad(); None is nil *)
  pend : Z;            (* pendingGrads *)
  bst  : bstate;       (* backwardState *)
  bch  : chan          (* broadcastGrad *)
}.

Definition mem := nat -> nstate.

Definition set_grad (v : option G) (s : nstate) := mkN v (pend s) (bst s) (bch s).
Definition set_pend (v : Z) (s : nstate) := mkN (grad s) v (bst s) (bch s).
Definition set_bst (v : bstate) (s : nstate) := mkN (grad s) (pend s) v (bch s).
Definition set_bch (v : chan) (s : nstate) := mkN (grad s) (pend s) (bst s) v.

Definition modify (m : mem) (x : nat) (f : nstate -> nstate) : mem :=
  upd m x (f (m x)).

(** mat/dense_grad.go:21-29 [Dense.AccGrad]: clone the first gradient, add the
    following ones in place. *)
Definition acc (o : option G) (v : G) : option G :=
  match o with None => Some v | Some a => Some (gadd a v) end.

(** ** Phase 1: prepareBackwardPass (operator.go:252-270)

    The recursion is bounded by [fuel]; [None] means that it ran out (proved
    impossible when operands precede their operator). *)
Fixpoint prepare (g : graph) (fuel : nat) (m : mem) (x : nat) : option mem :=
  match fuel with
  | O => None
  | S fuel =>
      if requires g x then
        let m1 := modify m x (fun s => set_pend (pend s + 1) s) in
        if bstate_eqb (bst (m1 x)) Idle then
          let m2 := modify m1 x (fun s => set_bch OpenChan (set_bst Pending s)) in
          fold_left (fun om k => match om with
                                 | Some m' => prepare g fuel m' k
                                 | None => None
                                 end)
                    (op_operands g x) (Some m2)
        else Some m1
      else Some m
  end.

Definition prepare_all (g : graph) (m : mem) (roots : list nat) : option mem :=
  fold_left (fun om x => match om with
                         | Some m' => prepare g (S (length g)) m' x
                         | None => None
                         end) roots (Some m).

(** ** AccGrad run without interference (operator.go:227-234)

    Used by the main goroutine in phase 2 and by user code between two
    Backward calls.  [None]: panic, close of a nil or closed channel. *)
Definition acc_grad_seq (g : graph) (m : mem) (x : nat) (v : G) : option mem :=
  let m1 := modify m x (fun s => set_grad (acc (grad s) v) s) in
  if is_oper g x && negb (bstate_eqb (bst (m1 x)) Idle) then
    let m2 := modify m1 x (fun s => set_pend (pend s - 1) s) in
    if Z.eqb (pend (m2 x)) 0 then
      match bch (m2 x) with
      | OpenChan => Some (modify m2 x (set_bch ClosedChan))
      | _ => None
      end
    else Some m2
  else Some m1.

(** ** Phase 2: assignOutputGradient (operator.go:236-250) *)
Inductive assign_res :=
| AssignOk (m : mem)
| AssignErr (m : mem)      (* "ag: missing gradient" *)
| AssignPanic.

Definition assign (g : graph) (m : mem) (x : nat) : assign_res :=
  match grad (m x) with
  | Some _ => AssignOk (modify m x (fun s => set_pend (pend s - 1) s))
  | None =>
      if is_scalar g x then
        match acc_grad_seq g m x gone with
        | Some m' => AssignOk m'
        | None => AssignPanic
        end
      else AssignErr m
  end.

Fixpoint assign_all (g : graph) (m : mem) (roots : list nat) : assign_res :=
  match roots with
  | [] => AssignOk m
  | x :: rest =>
      match assign g m x with
      | AssignOk m' => assign_all g m' rest
      | r => r
      end
  end.

(** ** Phase 3: processBackwardPass and the executeBackward goroutines *)

(** Program counter of one [AccGrad] call in flight. *)
Inductive accpc :=
| AVal     (* about to run Value().AccGrad, operator.go:228 *)
| AChk     (* about to load backwardState, operator.go:231 *)
| ADec     (* about to decrement pendingGrads, operator.go:231 *)
| AClose.  (* about to close broadcastGrad, operator.go:232 *)

(** Program counter of the goroutine executing [executeBackward] for a node
    (operator.go:287-299; Grad is operator.go:183-190).  [GSend l] holds the
    AccGrad calls of [fn.Backward] that have not completed; they may run in
    any order and concurrently, which covers the functions that spawn one
    goroutine per operand (mat/gradfn/mul.go:44-61, affine.go:97-125,
    mult.go:43-60) as well as the sequential ones. *)
Inductive gpc :=
| GNone                                   (* not started *)
| GIdleChk                                (* Grad: isBackwardIdle *)
| GPendChk                                (* Grad: pendingGrads == 0 *)
| GWait                                   (* Grad: <-broadcastGrad *)
| GRead                                   (* Value().Grad(), then fn.Backward *)
| GSend (l : list (nat * G * accpc))      (* inside fn.Backward *)
| GIdle                                   (* deferred setBackwardIdle *)
| GWgDone                                 (* deferred wg.Done *)
| GDone.

(** What the main goroutine still has to do in processBackwardPass
    (operator.go:272-285): the recursion made explicit as a stack. *)
Inductive mainop :=
| MVisit (x : nat)    (* call processBackwardPass on x *)
| MSpawn (x : nat).   (* CAS succeeded: wg.Add, go, loop over the operands *)

Record config := mkC {
  cmem   : mem;
  cpc    : nat -> gpc;
  cstack : list mainop;
  cwg    : Z;                   (* the WaitGroup counter *)
  clog   : list (nat * G);      (* ghost: calls of fn.Backward, latest first *)
  cret   : bool;                (* Backward has returned nil *)
  cpanic : bool                 (* a goroutine panicked *)
}.

Definition with_mem (c : config) (m : mem) :=
  mkC m (cpc c) (cstack c) (cwg c) (clog c) (cret c) (cpanic c).
Definition with_pc (c : config) (x : nat) (p : gpc) :=
  mkC (cmem c) (upd (cpc c) x p) (cstack c) (cwg c) (clog c) (cret c) (cpanic c).
Definition with_stack (c : config) (st : list mainop) :=
  mkC (cmem c) (cpc c) st (cwg c) (clog c) (cret c) (cpanic c).
Definition with_wg (c : config) (w : Z) :=
  mkC (cmem c) (cpc c) (cstack c) w (clog c) (cret c) (cpanic c).
Definition with_log (c : config) (l : list (nat * G)) :=
  mkC (cmem c) (cpc c) (cstack c) (cwg c) l (cret c) (cpanic c).
Definition with_ret (c : config) :=
  mkC (cmem c) (cpc c) (cstack c) (cwg c) (clog c) true (cpanic c).
Definition with_panic (c : config) :=
  mkC (cmem c) (cpc c) (cstack c) (cwg c) (clog c) (cret c) true.

(** One atomic step of one AccGrad call with target [t], value [v], at [p].
    The result is the new state and the continuation of the call ([None] when
    the call has returned). *)
Definition acc_step (g : graph) (c : config) (t : nat) (v : G) (p : accpc)
  : config * option accpc :=
  match p with
  | AVal =>
      (with_mem c (modify (cmem c) t (fun s => set_grad (acc (grad s) v) s)),
       if is_oper g t then Some AChk else None)
  | AChk =>
      (c, if bstate_eqb (bst (cmem c t)) Idle then None else Some ADec)
  | ADec =>
      let m := modify (cmem c) t (fun s => set_pend (pend s - 1) s) in
      (with_mem c m, if Z.eqb (pend (m t)) 0 then Some AClose else None)
  | AClose =>
      match bch (cmem c t) with
      | OpenChan => (with_mem c (modify (cmem c) t (set_bch ClosedChan)), None)
      | _ => (with_panic c, None)
      end
  end.

(** One atomic step of the whole system.  [step g c c'] for each possible
    choice of the scheduler. *)
Inductive step (g : graph) (c : config) : config -> Prop :=
(* main: processBackwardPass, operator.go:273: not requiring gradients, or the
   compare-and-swap Pending -> Ongoing fails *)
| st_skip x st :
    cret c = false -> cpanic c = false ->
    cstack c = MVisit x :: st ->
    (requires g x && bstate_eqb (bst (cmem c x)) Pending) = false ->
    step g c (with_stack c st)
(* main: the compare-and-swap succeeds *)
| st_cas x st :
    cret c = false -> cpanic c = false ->
    cstack c = MVisit x :: st ->
    (requires g x && bstate_eqb (bst (cmem c x)) Pending) = true ->
    step g c (with_stack (with_mem c (modify (cmem c) x (set_bst Ongoing)))
                         (MSpawn x :: st))
(* main: operator.go:277-284 *)
| st_spawn x st :
    cret c = false -> cpanic c = false ->
    cstack c = MSpawn x :: st ->
    step g c (with_stack (with_wg (with_pc c x GIdleChk) (cwg c + 1))
                         (map MVisit (op_operands g x) ++ st))
(* main: backward.go:49-51: wg.Wait returns *)
| st_return :
    cret c = false -> cpanic c = false ->
    cstack c = [] -> cwg c = 0%Z ->
    step g c (with_ret c)
(* goroutine x: Grad, operator.go:184, first operand of || *)
| st_idlechk x :
    cpanic c = false -> cpc c x = GIdleChk ->
    step g c (with_pc c x (if bstate_eqb (bst (cmem c x)) Idle then GRead else GPendChk))
(* goroutine x: Grad, operator.go:184, second operand of || *)
| st_pendchk x :
    cpanic c = false -> cpc c x = GPendChk ->
    step g c (with_pc c x (if Z.eqb (pend (cmem c x)) 0 then GRead else GWait))
(* goroutine x: operator.go:188; receiving from a nil or open channel blocks *)
| st_wait x :
    cpanic c = false -> cpc c x = GWait ->
    bch (cmem c x) = ClosedChan ->
    step g c (with_pc c x GRead)
(* goroutine x: operator.go:291-296: read the gradient, call fn.Backward *)
| st_read_some x v :
    cpanic c = false -> cpc c x = GRead -> grad (cmem c x) = Some v ->
    step g c (with_log (with_pc c x
                 (GSend (map (fun p => (fst p, snd p v, AVal)) (live_sends g x))))
               ((x, v) :: clog c))
(* goroutine x: operator.go:292-294; a nil gradient skips fn.Backward *)
| st_read_none x :
    cpanic c = false -> cpc c x = GRead -> grad (cmem c x) = None ->
    step g c (with_pc c x GIdle)
(* goroutine x: one step of one of its AccGrad calls *)
| st_send x l1 t v p l2 :
    cpanic c = false ->
    cpc c x = GSend (l1 ++ (t, v, p) :: l2) ->
    step g c (let '(c', k) := acc_step g c t v p in
              with_pc c' x (GSend (l1 ++ match k with
                                         | Some p' => (t, v, p') :: l2
                                         | None => l2
                                         end)))
(* goroutine x: fn.Backward has returned *)
| st_sent x :
    cpanic c = false -> cpc c x = GSend [] ->
    step g c (with_pc c x GIdle)
(* goroutine x: operator.go:289 *)
| st_idle x :
    cpanic c = false -> cpc c x = GIdle ->
    step g c (with_pc (with_mem c (modify (cmem c) x (set_bst Idle))) x GWgDone)
(* goroutine x: operator.go:288 *)
| st_wgdone x :
    cpanic c = false -> cpc c x = GWgDone ->
    step g c (with_wg (with_pc c x GDone) (cwg c - 1)).

Inductive steps (g : graph) (c : config) : config -> Prop :=
| steps_refl : steps g c c
| steps_step c1 c2 : steps g c c1 -> step g c1 c2 -> steps g c c2.

(** backward.go:48-49: the state in which phase 3 starts. *)
Definition start (m : mem) (roots : list nat) : config :=
  mkC m (fun _ => GNone) (map MVisit roots) 0 [] false false.

(** backward.go:24, 55-63 [filterOperators]. *)
Definition filter_operators (g : graph) (xs : list nat) : list nat :=
  filter (is_oper g) xs.

(** The sequential part of [Backward] (backward.go:23-46): either it ends the
    call, or it hands over to phase 3. *)
Inductive seq_outcome :=
| SReturn (m : mem)         (* no operators: nil, nothing done *)
| SError (m : mem)          (* missing gradient *)
| SPanic
| SNoFuel                   (* artefact of the fuel; proved impossible *)
| SConc (c : config).       (* phase 3 starts *)

Definition backward_seq (g : graph) (m : mem) (xs : list nat) : seq_outcome :=
  let ops := filter_operators g xs in
  match ops with
  | [] => SReturn m
  | _ =>
      match prepare_all g m ops with
      | None => SNoFuel
      | Some m1 =>
          match assign_all g m1 ops with
          | AssignErr m2 => SError m2
          | AssignPanic => SPanic
          | AssignOk m2 => SConc (start m2 ops)
          end
      end
  end.

(** [backward g m xs m'] : some schedule makes [Backward(xs...)], called in
    state [m], return nil in state [m']. *)
Inductive backward (g : graph) (m : mem) (xs : list nat) : mem -> Prop :=
| bw_none : backward_seq g m xs = SReturn m -> backward g m xs m
| bw_conc c c' : backward_seq g m xs = SConc c -> steps g c c' ->
    cret c' = true -> backward g m xs (cmem c').

(** [Grad()] called by user code on an operator (operator.go:183-190): it
    blocks when a gradient is pending and the channel is not closed. *)
Definition grad_blocks (g : graph) (m : mem) (x : nat) : bool :=
  is_oper g x
  && negb (bstate_eqb (bst (m x)) Idle || Z.eqb (pend (m x)) 0)
  && match bch (m x) with ClosedChan => false | _ => true end.

(** [ZeroGrad()] by user code when [Grad] does not block (operator.go:220-224,
    mat/dense_grad.go:49-53). *)
Definition zero_grad (m : mem) (x : nat) : mem := modify m x (set_grad None).

(** ** Histories of user operations between and including Backward calls *)
Inductive uop :=
| UNew (nd : node)             (* ag.NewOperator / a new leaf *)
| UAcc (x : nat) (v : G)       (* x.AccGrad(v) *)
| UZero (x : nat)              (* x.ZeroGrad() *)
| UBackward (xs : list nat).   (* ag.Backward(xs...) returning nil *)

(** A new node: no gradient, idle (operator.go:64-75). *)
Definition fresh : nstate := mkN None 0 Idle NilChan.

Inductive urun : graph -> mem -> list uop -> graph -> mem -> Prop :=
| ur_nil g m : urun g m [] g m
| ur_new g m nd ops g' m' :
    urun (g ++ [nd]) (upd m (length g) fresh) ops g' m' ->
    urun g m (UNew nd :: ops) g' m'
| ur_acc g m x v m1 ops g' m' :
    acc_grad_seq g m x v = Some m1 -> urun g m1 ops g' m' ->
    urun g m (UAcc x v :: ops) g' m'
| ur_zero g m x ops g' m' :
    grad_blocks g m x = false -> urun g (zero_grad m x) ops g' m' ->
    urun g m (UZero x :: ops) g' m'
| ur_backward g m xs m1 ops g' m' :
    backward g m xs m1 -> urun g m1 ops g' m' ->
    urun g m (UBackward xs :: ops) g' m'.

End Engine.

Arguments Leaf {G}.
Arguments Oper {G}.
Arguments mkNode {G}.
