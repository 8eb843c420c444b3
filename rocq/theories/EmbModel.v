(** * Embeddings and the bookkeeping of their gradients: nn/embedding

    One entry per embedding (a *nn.Param); [G] is the type of gradients and
    [gadd] their addition, both opaque.  [marked] is embedGradIdx: the keys of
    the map, each once, in some order, or [None] for the nil map.  Each operation
    is atomic: Embedding.AccGrad, Embedding.ZeroGrad and Model.ZeroGrad hold the
    model's mutex, Param's own hold the matrix's. *)
From Coq Require Import List Arith Bool ZArith.
Import ListNotations.

Section Emb.
Context {G : Type}.
Variable gadd : G -> G -> G.

Record emb := mkEmb { size : nat; grad : nat -> option G; marked : option (list nat) }.

Definition set_grad (m : emb) (i : nat) (g : option G) : emb :=
  mkEmb (size m) (fun j => if j =? i then g else grad m j) (marked m).
Definition mark (l : list nat) (i : nat) : list nat := if existsb (Nat.eqb i) l then l else i :: l.
Definition unmark (l : list nat) (i : nat) : list nat := filter (fun j => negb (j =? i)) l.

(** New (model.go:34-47) *)
Definition new (n : nat) : emb := mkEmb n (fun _ => None) (Some []).
(** Embedding (model.go:57-66): index checking; Encode (68-102) does the same for a slice *)
Definition embedding (m : emb) (i : Z) : option nat :=
  if ((i <? 0) || (Z.of_nat (size m) <=? i))%Z then None else Some (Z.to_nat i).
Fixpoint encode (m : emb) (input : list Z) : option (list nat) :=
  match input with
  | [] => Some []
  | i :: input => match embedding m i, encode m input with Some e, Some es => Some (e :: es) | _, _ => None end
  end.
(** Dense.AccGrad (mat/dense_grad.go:21-29) *)
Definition param_acc (m : emb) (i : nat) (g : G) : emb :=
  set_grad m i (Some (match grad m i with None => g | Some a => gadd a g end)).
(** Dense.ZeroGrad (mat/dense_grad.go:49-53), which the optimizers, nn.ZeroGrad and the user call on the Param *)
Definition param_zero (m : emb) (i : nat) : emb := set_grad m i None.
(** Embedding.AccGrad (embedding.go:19-24): writing to the nil map panics *)
Definition emb_acc (m : emb) (i : nat) (g : G) : option emb :=
  match marked m with
  | None => None
  | Some l => Some (param_acc (mkEmb (size m) (grad m) (Some (mark l i))) i g)
  end.
(** Embedding.ZeroGrad (embedding.go:26-31) *)
Definition emb_zero (m : emb) (i : nat) : emb :=
  param_zero (mkEmb (size m) (grad m) (option_map (fun l => unmark l i) (marked m))) i.
(** Model.ZeroGrad (model.go:110-117) *)
Definition model_zero (m : emb) : emb :=
  match marked m with
  | None => m
  | Some l => let m' := fold_left param_zero l m in mkEmb (size m') (grad m') (Some [])
  end.
(** TraverseParams (model.go:51-55), without the mutex; CountEmbedWithGrad (104-108) *)
Definition traverse_params (m : emb) : list nat := match marked m with None => [] | Some l => l end.
Definition count_embed_with_grad (m : emb) : nat := length (traverse_params m).
(** a model written and read back with encoding/gob: embedGradIdx and mu are not
    exported, and the gradient of a matrix is not written (mat/dense_marshaling.go) *)
Definition decoded (m : emb) : emb := mkEmb (size m) (fun _ => None) None.

(** A history of operations *)
Inductive op :=
| Acc (i : nat) (g : G)      (* Embedding.AccGrad on embedding i, e.g. by ag.Backward *)
| Zero (i : nat)             (* Embedding.ZeroGrad *)
| ZeroAll                    (* Model.ZeroGrad *)
| Cleared (i : nat)          (* Param.ZeroGrad on weight i, by an optimizer or nn.ZeroGrad *)
| Direct (i : nat) (g : G).  (* Weights[i].AccGrad *)
Definition apply_op (m : emb) (o : op) : option emb :=
  match o with
  | Acc i g => emb_acc m i g
  | Zero i => Some (emb_zero m i)
  | ZeroAll => Some (model_zero m)
  | Cleared i => Some (param_zero m i)
  | Direct i g => Some (param_acc m i g)
  end.
Fixpoint history (m : emb) (os : list op) : option emb :=
  match os with [] => Some m | o :: os => match apply_op m o with Some m => history m os | None => None end end.
End Emb.
Arguments emb : clear implicits. Arguments op : clear implicits.
