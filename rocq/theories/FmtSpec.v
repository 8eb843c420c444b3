(** * What a printed matrix looks like *)
From Coq Require Import Ascii String List Arith Bool ZArith.
From Verif Require Import DenseModel DenseSpec.
Import ListNotations.
Open Scope nat_scope.

(** s has a point with [i] characters before it and none of them a point *)
Definition point_at (s : string) (i : nat) : Prop :=
  exists a b, s = (a ++ String "." b)%string /\ String.length a = i /\ ~ In "."%char (list_ascii_of_string a).
Definition pointless (s : string) : Prop := ~ In "."%char (list_ascii_of_string s).
(** the characters before the point (all of them if there is none) and after it *)
Definition before (s : string) (n : nat) : Prop := point_at s n \/ pointless s /\ n = String.length s.
(** n blanks *)
Definition is_blank (s : string) (n : nat) : Prop := String.length s = n /\ forall a, In a (list_ascii_of_string s) -> a = " "%char.

(** the brackets at both ends of row i of r *)
Definition brackets (r i : nat) : string * string :=
  let nl := String (ascii_of_nat 10) EmptyString in
  match r with
  | 1 => ("[", "]")
  | _ => if (i =? 0)%nat then ("⎡", "⎤" ++ nl) else if (S i =? r)%nat then ("⎣", "⎦") else ("⎢", "⎥" ++ nl)
  end%string.
(** the cells in row order, with single blanks between the cells of a row *)
Definition page (r c : nat) (cell : nat -> nat -> string) : string :=
  String.concat "" (map (fun i => (fst (brackets r i) ++ String.concat " " (map (cell i) (seq 0 c)) ++ snd (brackets r i))%string) (seq 0 r)).

(** t is s between l and r blanks *)
Definition padded (s : string) (l r : nat) (t : string) : Prop := exists a b, t = (a ++ s ++ b)%string /\ is_blank a l /\ is_blank b r.
(** The texts of an r x c matrix laid out: every text in its cell between blanks, so that in each column the
    points, or the ends where there is none, are below each other. *)
Definition laid_out (r c : nat) (text : nat -> nat -> string) (out : string) (width : nat -> nat -> nat) : Prop :=
  exists cell lp rp, out = page r c cell /\
    (forall i j, i < r -> j < c -> padded (text i j) (lp i j) (rp i j) (cell i j) /\ width i j = lp i j + String.length (text i j) + rp i j) /\
    (forall i k j p q, i < r -> k < r -> j < c -> before (text i j) p -> before (text k j) q -> lp i j + p = lp k j + q).
(** the verb Format passes on: %v is %g and %F is %f *)
Definition verb_of (c : Z) : Z := ((if c =? 118 then 103 else if c =? 70 then 102 else c) mod 256)%Z.
(** the text the library gives for the element in row i, column j *)
Definition texts {T} (append_float : Z -> Z -> T -> string) (verb precision : Z) (d : dense T) (text : nat -> nat -> string) : Prop :=
  forall i j, i < rows d -> j < cols d -> exists x, elem d i j = Some x /\ text i j = append_float verb precision x.
