(** * What the score of a label sequence is *)
From Coq Require Import Reals List Arith Bool.
From Verif Require Import DenseModel DenseSpec ArithProofs GradModel GradSpec.
Import ListNotations.
Open Scope nat_scope.

(** [t i j] are the transition scores: t 0 (y+1) of starting with label y,
    t (y+1) (z+1) of going from y to z and t (y+1) 0 of ending with y.  [e] lists
    the emission scores, one function from labels to scores per position.
    [terms t e ys] are the scores met along the label sequence ys, in order. *)
Section Path.
Context {T : Type}.
Variable t : nat -> nat -> T.
Fixpoint later_terms (prev : nat) (e : list (nat -> T)) (ys : list nat) : list T :=
  match e, ys with
  | x :: e, y :: ys => x y :: t (S prev) (S y) :: later_terms y e ys
  | _, _ => [t (S prev) 0]
  end.
Definition terms (e : list (nat -> T)) (ys : list nat) : list T :=
  match e, ys with
  | x :: e, y :: ys => x y :: t 0 (S y) :: later_terms y e ys
  | _, _ => []
  end.
End Path.
(** added up from left to right *)
Definition added {T} (add : T -> T -> T) (d : T) (l : list T) : T :=
  match l with [] => d | a :: l => fold_left add l a end.
(** a sequence of labels below n for the positions of e *)
Definition labelling {T} (n : nat) (e : list T) (ys : list nat) : Prop :=
  length ys = length e /\ List.Forall (fun y => y < n) ys.
(** the matrix tr holds the transition scores of n labels, the column at the front of x the emission scores *)
Definition transitions {T} (tr : dense T) (n : nat) (t : nat -> nat -> T) : Prop :=
  is_matrix tr (S n) (S n) (fun i j => Some (t i j)).
Definition emission {T} (n : nat) (x : dense T) (e : nat -> T) : Prop :=
  forall j, j < n -> elem x j 0 = Some (e j).

(** What the theorems ask of the numbers: a total order on everything but NaN,
    an addition that is monotone in its left operand (as a rounded addition is;
    it need not be associative) and a least value. *)
Definition scoring {T} (add : T -> T -> T) (lt : T -> T -> bool) (ninf : T) : Prop :=
  strict_order lt /\ (forall a, lt a ninf = false) /\ (forall a b c, lt b a = false -> lt (add b c) (add a c) = false).

(** Real numbers and -infinity ([None]) *)
Definition ext := option R.
Definition ext_add (a b : ext) : ext := match a, b with Some x, Some y => Some (x + y)%R | _, _ => None end.
Definition ext_lt (a b : ext) : bool :=
  match a, b with Some x, Some y => Rltb x y | None, Some _ => true | _, None => false end.
(** the same with every sum rounded *)
Definition rounded_add (rnd : R -> R) (a b : ext) : ext := match a, b with Some x, Some y => Some (rnd (x + y)%R) | _, _ => None end.
Definition ext_sum (l : list ext) : ext := fold_right ext_add (Some 0%R) l.

(** Every label sequence of length k over n labels, and a sum over a list. *)
Fixpoint labellings (n k : nat) : list (list nat) :=
  match k with O => [[]] | S k => flat_map (fun y => map (cons y) (labellings n k)) (seq 0 n) end.
Definition sum_over {A} (f : A -> R) (l : list A) : R := fold_right Rplus 0%R (map f l).
(** The score of a label sequence: the sum of its terms. *)
Definition score (t : nat -> nat -> R) (es : list (nat -> R)) (ys : list nat) : R := fold_right Rplus 0%R (terms t es ys).
(** the column vector of the emission scores *)
Definition score_col (n : nat) (x : mat) (e : nat -> R) : Prop := is_matrix x n 1 (fun i _ => Some (e i)).
