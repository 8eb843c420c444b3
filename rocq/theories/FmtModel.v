(** * Formatting a matrix (mat/dense_formatting.go) *)
From Coq Require Import Ascii String List Arith Bool ZArith.
From Verif Require Import DenseModel GradModel OpsModel.
Import ListNotations.
Open Scope nat_scope.

Section Fmt.
Context {T : Type}.
(** strconv.AppendFloat(buf[:0], v, verb, precision, 32) (dense_formatting.go:146-148): the library's text of a value *)
Variable append_float : Z -> Z -> T -> string.

(** bytes.IndexByte(buf, '.') *)
Fixpoint index_dot (s : string) : option nat :=
  match s with
  | EmptyString => None
  | String a s => if Ascii.eqb a "." then Some 0 else match index_dot s with Some i => Some (S i) | None => None end
  end.

(** formatValue (dense_formatting.go:146-148); byte(c) keeps the low eight bits of the rune *)
Definition format_value (c precision : Z) (v : T) : string := append_float (c mod 256)%Z precision v.

(** makeSpaceBuffer (dense_formatting.go:86-92) and the slices of it: a slice beyond its capacity panics *)
Fixpoint blanks (n : nat) : string := match n with O => EmptyString | S n => String " " (blanks n) end.
Definition space_buf (max_width : nat) (n : Z) : option string :=
  if (0 <=? n)%Z && (n <=? Z.of_nat max_width)%Z then Some (blanks (Z.to_nat n)) else None.

(** formattingMaxColumnsWidth (dense_formatting.go:109-144): an lrWidth is a pair (left, right) *)
Definition widen (min_width : nat) (s : string) (w : nat * nat) : nat * nat :=
  let n := String.length s in
  match index_dot s with
  | Some p => (Nat.max (fst w) (if n <? min_width then p + (min_width - n) else p), Nat.max (snd w) (n - p - 1))
  | None => (Nat.max (fst w) n, snd w)
  end.
Definition width_step (c precision : Z) (min_width : nat) (d : dense T) (st : list (nat * nat) * nat * nat) (col : nat) : option (list (nat * nat) * nat * nat) :=
  let '(widths, max_width, index) := st in
  do v <- nth_error (data d) index;
  do w <- nth_error widths col;
  let s := format_value c precision v in
  Some (put widths col (widen min_width s w), Nat.max max_width (String.length s), S index).
Definition column_widths (c precision : Z) (min_width : nat) (d : dense T) : option (list (nat * nat) * nat) :=
  do st <- fold_opt (fun st _ => fold_opt (width_step c precision min_width d) (seq 0 (cols d)) st) (seq 0 (rows d)) (repeat (0, 0) (cols d), 0, 0);
  Some (fst st).

(** writeFormattedValue (dense_formatting.go:67-84) *)
Definition write_value (max_width : nat) (w : nat * nat) (s : string) : option string :=
  let n := Z.of_nat (String.length s) in
  let '(lpad, rpad) := match index_dot s with
    | Some p => (Z.of_nat (fst w) - Z.of_nat p, Z.of_nat (snd w) - (n - Z.of_nat p - 1))%Z
    | None => (Z.of_nat (fst w) - n, if (0 <? snd w)%nat then Z.of_nat (snd w) + 1 else Z.of_nat (snd w))%Z
    end in
  do a <- space_buf max_width lpad; do b <- space_buf max_width rpad; Some (a ++ s ++ b)%string.

(** formattingRowPrefixAndSuffix (dense_formatting.go:94-105) *)
Definition newline : string := String (ascii_of_nat 10) EmptyString.
Definition prefix_suffix (d : dense T) (row : nat) : string * string :=
  if rows d =? 1 then ("[", "]")%string
  else if row =? 0 then ("⎡", "⎤" ++ newline)%string
  else if (Z.of_nat row =? Z.of_nat (rows d) - 1)%Z then ("⎣", "⎦")%string
  else ("⎢", "⎥" ++ newline)%string.

(** format (dense_formatting.go:47-65): what is written to the state, in order *)
Definition write_cell (c precision : Z) (d : dense T) (widths : list (nat * nat)) (max_width : nat) (st : string * nat) (col : nat) : option (string * nat) :=
  let '(out, index) := st in
  let out := if 0 <? col then (out ++ " ")%string else out in
  do v <- nth_error (data d) index;
  do w <- nth_error widths col;
  do t <- write_value max_width w (format_value c precision v);
  Some ((out ++ t)%string, S index).
Definition write_row (c precision : Z) (d : dense T) (widths : list (nat * nat)) (max_width : nat) (st : string * nat) (row : nat) : option (string * nat) :=
  let '(pre, suf) := prefix_suffix d row in
  do st <- fold_opt (write_cell c precision d widths max_width) (seq 0 (cols d)) ((fst st ++ pre)%string, snd st);
  Some ((fst st ++ suf)%string, snd st).
Definition format_body (c precision : Z) (min_width : nat) (d : dense T) : option string :=
  do w <- column_widths c precision min_width d;
  do st <- fold_opt (write_row c precision d (fst w) (snd w)) (seq 0 (rows d)) (EmptyString, 0);
  Some (fst st).

(** Format (dense_formatting.go:17-44).  The two flags hand the data to the fmt package, which is not modelled. *)
Inductive output := Printed (text : string) | ByFmt (verb : string) (values : list T) | Panicked.
Record state := mkState { sharp : bool; plus : bool; width : option nat; precision : option nat }.
Definition format (f : state) (c : Z) (d : dense T) : output :=
  let v := 118%Z in
  if (c =? v)%Z && sharp f then ByFmt "&%#v" (data d) else
  if (c =? v)%Z && plus f then ByFmt "%+v" (data d) else
  let c := if (c =? v)%Z then 103%Z else c in
  match data d with
  | [] => Printed "[]"
  | _ =>
    let c := if (c =? 70)%Z then 102%Z else c in
    let prec := match precision f with Some p => Z.of_nat p | None => (-1)%Z end in
    match format_body c prec (match width f with Some w => w | None => 0 end) d with Some s => Printed s | None => Panicked end
  end.
End Fmt.
Arguments output : clear implicits.
