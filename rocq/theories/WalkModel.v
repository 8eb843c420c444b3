(** * Traversal of the parameters of a model: nn/traversal.go, nn/model.go

    A Go value is a finite tree.  Simplifications: values are told apart as far
    as the traversal does; a parameter is identified by a number (its address);
    a model that contains itself through a pointer (on which the traversal does
    not end) is not representable; the entries of a map are listed in the order
    in which this traversal's iteration meets them, which Go leaves open: the
    theorems hold for every order; a ParamsTraverser is a struct or a pointer to
    one, and its TraverseParams calls the callback on a given list. *)
From Coq Require Import List Arith Bool.
Import ListNotations.

Inductive gval :=
| GOther                                     (* a number, string, function, ..., a nil interface, a plain struct, a pointer to no struct *)
| GNil                                       (* a nil pointer *)
| GModule                                    (* nn.Module or *nn.Module *)
| GParam (p : nat)                           (* *nn.Param *)
| GTraverser (model : option nat) (ps : list nat) (* a ParamsTraverser; its identity if it is a Model too *)
| GModel (id : nat) (fields : list (bool * gval)) (* a Model: its fields, exported or not *)
| GSync (entries : list (bool * gval))       (* *sync.Map: entries whose key is, or is not, a string or an int *)
| GSlice (elems : list gval)                 (* a slice or an array *)
| GMap (entries : list (bool * gval)).

Inductive event := EParam (p : nat) | EModel (id : nat).

(** paramsTraversal (traversal.go:24-28): is paramsFunc, modelsFunc not nil; exploreSubModels *)
Record traversal := mkT { on_params : bool; on_models : bool; sub_models : bool }.

Section Walk.
Variable pt : traversal.
Section With.
Variable item : gval -> list event * bool.   (* walkStructOrPtr *)
(** walkSlice (traversal.go:104-117) *)
Fixpoint walk_slice (l : list gval) : list event :=
  match l with
  | [] => []
  | x :: l => let (e, ok) := item x in if ok then e ++ walk_slice l else e
  end.
(** walkMap (traversal.go:119-142) and walkSyncMap (82-102) *)
Fixpoint walk_map (l : list (bool * gval)) : list event :=
  match l with
  | [] => []
  | (k, x) :: l => if k then let (e, ok) := item x in if ok then e ++ walk_map l else e else []
  end.
(** the callback of walk (traversal.go:36-46); nil pointers are skipped before (158-160) *)
Definition walk_field (f : gval) : list event :=
  match f with
  | GNil | GOther => []
  | GSlice l => walk_slice l
  | GMap l => walk_map l
  | _ => fst (item f)
  end.
(** forEachField (traversal.go:145-164): fields that are not exported are skipped *)
Fixpoint walk_fields (fs : list (bool * gval)) : list event :=
  match fs with
  | [] => []
  | (exported, f) :: fs => (if exported then walk_field f else []) ++ walk_fields fs
  end.
End With.

(** walkStructOrPtr (traversal.go:49-80), and walk of a nested Model (31-47) *)
Fixpoint walk_item (v : gval) : list event * bool :=
  match v with
  | GModule => ([], true)
  | GParam p => (if on_params pt then [EParam p] else [], true)
  | GTraverser m ps =>
      ((if on_params pt then map EParam ps else []) ++
       match m with Some id => if on_models pt then [EModel id] else [] | None => [] end, true)
  | GModel id fs => (if sub_models pt then (if on_models pt then [EModel id] else []) ++ walk_fields walk_item fs else [], true)
  | GSync l => (walk_map walk_item l, true)
  | GNil | GOther | GSlice _ | GMap _ => ([], false)
  end.

(** walk (traversal.go:31-47) of the model given to ForEachParam, Apply, ...: a
    ParamsTraverser is handed paramsFunc even if that is nil, and panics when it
    calls it ([None]). *)
Definition walk_top (v : gval) : option (list event) :=
  match v with
  | GTraverser _ ps => if on_params pt then Some (map EParam ps) else match ps with [] => Some [] | _ => None end
  | GModel _ fs => Some (walk_fields walk_item fs)
  | _ => None
  end.
End Walk.

(** ForEachParam, ForEachParamStrict (model.go:72-88) *)
Definition for_each_param (m : gval) : option (list event) := walk_top (mkT true false true) m.
Definition for_each_param_strict (m : gval) : option (list event) := walk_top (mkT true false false) m.
(** Apply (model.go:20-29); [self] identifies m *)
Definition apply (m : gval) (self : nat) : option (list event) :=
  match walk_top (mkT false true true) m with Some e => Some (EModel self :: e) | None => None end.
(** ZeroGrad (model.go:91-95) on the gradients of all parameters *)
Definition zero_grad {G} (m : gval) (grad : nat -> option G) : option (nat -> option G) :=
  match for_each_param m with
  | Some es => Some (fold_left (fun g e => match e with EParam p => fun q => if q =? p then None else g q | EModel _ => g end) es grad)
  | None => None
  end.

(** ** Streams of parameters (model.go:33-69)

    The goroutine behind the channel: [todo] are the parameters it has still to
    send, [got] those received so far, [cancelled] the context, [closed] the
    channel.  A select with both cases ready takes either. *)
Record stream := mkStream { todo : list nat; got : list nat; cancelled : bool; closed : bool }.
Inductive stream_step (stops : bool) : stream -> stream -> Prop :=
| s_cancel t g c : stream_step stops (mkStream t g false c) (mkStream t g true c)
| s_send p t g b : stream_step stops (mkStream (p :: t) g b false) (mkStream t (g ++ [p]) b false)
| s_done p t g : stream_step stops (mkStream (p :: t) g true false) (mkStream (if stops then [] else t) g true false)
| s_close g b : stream_step stops (mkStream [] g b false) (mkStream [] g b true).
(** Parameters (model.go:33-55): a cancelled context skips one parameter at a time *)
Definition parameters_step := stream_step false.
(** StreamParams (model.go:57-69): a cancelled context ends the goroutine *)
Definition stream_params_step := stream_step true.
Inductive run (step : stream -> stream -> Prop) (ps : list nat) : stream -> Prop :=
| run_start : run step ps (mkStream ps [] false false)
| run_step s s' : run step ps s -> step s s' -> run step ps s'.
