(** * Independence of matrices *)
From Coq Require Import List Arith Bool Relations.
From Verif Require Import DenseModel HeapModel.
Import ListNotations.

(** the call writes elements of object o *)
Definition writes {T A} (c : call T A) (o : nat) : Prop :=
  match c with Write _ _ o' _ => o = o' | TransposeInPlace o' => o = o' | _ => False end.
(** the call is one of the methods documented to change the dimensions of object o *)
Definition reshapes {T A} (c : call T A) (o : nat) : Prop :=
  match c with ReshapeInPlace o' _ _ => o = o' | FlattenInPlace o' => o = o' | TransposeInPlace o' => o = o' | _ => False end.
(** no matrix of the history was built on the data slice of another *)
Definition no_backing {T A} (cs : list (call T A)) : Prop := forall r c o, ~ In (NewBacking r c o) cs.

Section Kin.
Context {T A : Type}.
Variable step : heap T -> call T A -> option (heap T).
(** For each matrix made by a history, in order: the matrix it was made from if it was made by a method that
    returns a matrix of the same shape (or by Softmax). *)
Definition made_from (h : heap T) (c : call T A) : option nat :=
  match c with
  | Same _ _ o _ => Some o
  | Softmax o => match value h o with Some d => if length (data d) =? 0 then None else Some o | None => None end
  | _ => None
  end.
Fixpoint sources (h : heap T) (cs : list (call T A)) : list (option nat) :=
  match cs with
  | [] => []
  | c :: cs => match step h c with
               | None => sources h cs
               | Some h' => (if length (objs h) <? length (objs h') then [made_from h c] else []) ++ sources h' cs
               end
  end.
End Kin.
(** two matrices connected by such steps *)
Definition kin (src : list (option nat)) : nat -> nat -> Prop := clos_refl_sym_trans nat (fun k o => nth_error src k = Some (Some o)).
