(** * Which parameters and models a model holds *)
From Coq Require Import List Arith Bool Permutation.
From Verif Require Import WalkModel.
Import ListNotations.

(** The parameters held by a value, in field order, wherever they are stored;
    [deep] tells whether those of nested models count. *)
Fixpoint held (deep : bool) (v : gval) : list nat :=
  match v with
  | GParam p => [p]
  | GTraverser None ps => ps
  | GTraverser (Some _) ps => if deep then ps else []
  | GModel _ fs => if deep then flat_map (fun f : bool * gval => if fst f then held deep (snd f) else []) fs else []
  | GSlice l => flat_map (held deep) l
  | GMap l | GSync l => flat_map (fun e : bool * gval => held deep (snd e)) l
  | _ => []
  end.
(** those of the model itself *)
Definition params_of (deep : bool) (m : gval) : list nat :=
  match m with
  | GModel _ fs => flat_map (fun f : bool * gval => if fst f then held deep (snd f) else []) fs
  | _ => held true m
  end.
(** the models nested in a value, outermost first *)
Fixpoint models (v : gval) : list nat :=
  match v with
  | GTraverser (Some id) _ => [id]
  | GModel id fs => id :: flat_map (fun f : bool * gval => if fst f then models (snd f) else []) fs
  | GSlice l => flat_map models l
  | GMap l | GSync l => flat_map (fun e : bool * gval => models (snd e)) l
  | _ => []
  end.

(** a value the traversal can look into when it stands in a slice or a map *)
Definition usable (v : gval) : bool :=
  match v with GModule | GParam _ | GTraverser _ _ | GModel _ _ | GSync _ => true | _ => false end.
(** Every slice and map either holds usable values only (under string or int
    keys), or nothing of interest at all; and so in the nested values. *)
Fixpoint tidy (v : gval) : Prop :=
  match v with
  | GModel _ fs => fold_right (fun (f : bool * gval) P => (fst f = true -> tidy (snd f)) /\ P) True fs
  | GSlice l => (forallb usable l = true \/ (held true v = [] /\ models v = [])) /\ fold_right (fun x P => tidy x /\ P) True l
  | GMap l | GSync l => (forallb (fun e : bool * gval => fst e && usable (snd e)) l = true \/ (held true v = [] /\ models v = [])) /\
      fold_right (fun (e : bool * gval) P => tidy (snd e) /\ P) True l
  | _ => True
  end.

Definition params_seen (es : list event) : list nat := flat_map (fun e => match e with EParam p => [p] | EModel _ => [] end) es.
Definition models_seen (es : list event) : list nat := flat_map (fun e => match e with EModel p => [p] | EParam _ => [] end) es.

(** the same value, but for the order of the entries of maps *)
Inductive same_but_order : gval -> gval -> Prop :=
| so_refl v : same_but_order v v
| so_model id fs fs' : Forall2 (fun f f' => fst f = fst f' /\ same_but_order (snd f) (snd f')) fs fs' -> same_but_order (GModel id fs) (GModel id fs')
| so_slice l l' : Forall2 same_but_order l l' -> same_but_order (GSlice l) (GSlice l')
| so_map l l' l'' : Forall2 (fun f f' => fst f = fst f' /\ same_but_order (snd f) (snd f')) l l' -> Permutation l' l'' -> same_but_order (GMap l) (GMap l'')
| so_sync l l' l'' : Forall2 (fun f f' => fst f = fst f' /\ same_but_order (snd f) (snd f')) l l' -> Permutation l' l'' -> same_but_order (GSync l) (GSync l'').

(** a subsequence *)
Inductive subseq {A} : list A -> list A -> Prop :=
| sub_nil l : subseq [] l
| sub_skip x l l' : subseq l l' -> subseq l (x :: l')
| sub_take x l l' : subseq l l' -> subseq (x :: l) (x :: l').

(** no nested model outside the sub-models brings its own TraverseParams *)
Fixpoint no_own_traversal (v : gval) : Prop :=
  match v with
  | GTraverser (Some _) ps => ps = []
  | GSlice l => fold_right (fun x P => no_own_traversal x /\ P) True l
  | GMap l | GSync l => fold_right (fun (e : bool * gval) P => no_own_traversal (snd e) /\ P) True l
  | _ => True
  end.
Definition fields_of (m : gval) : list gval := match m with GModel _ fs => map snd (filter fst fs) | _ => [] end.
