(** * Specification of back-propagation, independent of the engine *)

From Coq Require Import List Arith ZArith Bool Lia Permutation.
From Verif Require Import AgModel.
Import ListNotations.

Section Spec.

Context {G : Type}.
Variable gadd : G -> G -> G.
Variable gone : G.

Notation graph := (@graph G).
Notation mem := (@mem G).

(** Gradients, with [None] for "no gradient", added up. *)
Definition oadd (a b : option G) : option G :=
  match a, b with
  | None, _ => b
  | _, None => a
  | Some u, Some v => Some (gadd u v)
  end.

Definition osum (l : list (option G)) : option G := fold_right oadd None l.

(** Operands exist before the operator that uses them. *)
Definition acyclic (g : graph) : Prop :=
  forall x k, In k (operands_of g x) -> k < x.

(** A backward function only hands gradients to operands it lists. *)
Definition sends_to_operands (g : graph) : Prop :=
  forall x t, In t (map fst (sends_of g x)) -> In t (operands_of g x).

(** A backward function hands an operator that requires gradients exactly one
    gradient per listed occurrence. *)
Definition dutiful (g : graph) : Prop :=
  forall x t, is_oper g t = true -> requires g t = true ->
    count_occ Nat.eq_dec (map fst (sends_of g x)) t =
    count_occ Nat.eq_dec (operands_of g x) t.

Definition well_formed (g : graph) : Prop :=
  acyclic g /\ sends_to_operands g /\ dutiful g.

(** No backward pass is under way. *)
Definition ready (g : graph) (m : mem) : Prop :=
  forall x, is_oper g x = true ->
    bst (m x) = Idle /\ (requires g x = true -> pend (m x) = 0%Z).

(** RequiresGrad, as a property: some chain of operands leads to a leaf that
    requires gradients. *)
Inductive leads_to_grad (g : graph) : nat -> Prop :=
| ltg_leaf x sc : nth_error g x = Some (mkNode (Leaf true) sc) -> leads_to_grad g x
| ltg_op x k : In k (operands_of g x) -> leads_to_grad g k -> leads_to_grad g x.

(** The operators a backward pass from [xs] goes through. *)
Inductive reached (g : graph) (xs : list nat) : nat -> Prop :=
| reach_root x : In x xs -> is_oper g x = true -> leads_to_grad g x -> reached g xs x
| reach_operand y x : reached g xs y -> In x (operands_of g y) ->
    is_oper g x = true -> leads_to_grad g x -> reached g xs x.

(** What operator [y], whose final gradient is [gy], contributes to [x]. *)
Definition contribution (g : graph) (y : nat) (gy : option G) (x : nat) : option G :=
  match gy with
  | None => None
  | Some v => osum (map (fun p => Some (snd p v))
                        (filter (fun p => Nat.eqb (fst p) x && requires g x) (sends_of g y)))
  end.

(** The gradient 1 assigned to a scalar root without a gradient. *)
Definition seed (g : graph) (m : mem) (xs : list nat) (x : nat) : option G :=
  match grad (m x) with
  | Some _ => None
  | None => if existsb (Nat.eqb x) xs && is_oper g x && is_scalar g x
            then Some gone else None
  end.

(** [ys] lists the reached operators, each once. *)
Definition lists_reached (g : graph) (xs ys : list nat) : Prop :=
  NoDup ys /\ forall y, In y ys <-> reached g xs y.

(** The individual gradients operator [y] hands to [x] when its own gradient
    is [v]. *)
Definition gradients_sent (g : graph) (y : nat) (v : G) (x : nat) : list G :=
  map (fun p => snd p v) (filter (fun p => Nat.eqb (fst p) x && requires g x) (sends_of g y)).

(** All gradients handed to [x] by the operators [ys], whose final gradients
    are those of memory [m]. *)
Definition gradients_received (g : graph) (m : mem) (ys : list nat) (x : nat) : list G :=
  flat_map (fun y => match grad (m y) with
                     | Some v => gradients_sent g y v x
                     | None => []
                     end) ys.

(** Gradients added one after the other, in the order of the list. *)
Definition added_in_order (start : option G) (l : list G) : option G :=
  fold_left (fun o v => oadd o (Some v)) l start.

(** A root Backward cannot start from. *)
Definition lacks_gradient (g : graph) (m : mem) (xs : list nat) (x : nat) : Prop :=
  In x xs /\ is_oper g x = true /\ grad (m x) = None /\ is_scalar g x = false.

End Spec.
