(** * Saving and loading models (nn/gob.go)

    Dump, DumpToFile, Load and LoadFromFile over an environment that may fail at every call.  Outside /repo, and modelled
    after their documentation and source: bufio.Writer (its buffer, its sticky error), the one Write per message of
    gob.Encoder, the reads of bufio.Reader.  What gob writes for a value is a parameter.  A process may be killed
    between any two calls of the operating system; loss of written data by the operating system itself is modelled
    only for a failing Close. *)
From Coq Require Import List Arith Bool.
Import ListNotations.

Section Streams.
(** bytes *)
Variable B : Type.

(** One call of Write of the underlying stream: the bytes given, the number taken, and whether it failed *)
Record wrote := mkWrote { given : list B; taken : nat; failed : bool }.
(** what the stream has received *)
Definition received (t : list wrote) : list B := concat (map (fun w => firstn (taken w) (given w)) t).
(** how the stream answers: a function of all earlier calls *)
Variable answer : list wrote -> list B -> nat * bool.
Definition call (t : list wrote) (p : list B) : list wrote * (nat * bool) :=
  let '(n, e) := answer t p in (t ++ [mkWrote p n e], (n, e)).

(** bufio.Writer: buffer, sticky error; [size] is 4096 (bufio.NewWriter) *)
Variable size : nat.
Record buffered := mkBuf { buf : list B; berr : bool; trace : list wrote }.
(** Flush *)
Definition flush (b : buffered) : buffered :=
  if berr b then b
  else match buf b with
       | [] => b
       | _ => let '(t, (n, e)) := call (trace b) (buf b) in
              let e := e || (n <? length (buf b)) in
              mkBuf (if e then skipn n (buf b) else []) e t
       end.
(** Write: "for len(p) > b.Available() && b.err == nil"; [None] if the fuel does not suffice *)
Fixpoint write_loop (fuel : nat) (b : buffered) (p : list B) : option (buffered * list B) :=
  if berr b || (length p <=? size - length (buf b)) then Some (b, p)
  else match fuel with
       | O => None
       | S fuel =>
           match buf b with
           | [] => let '(t, (n, e)) := call (trace b) p in write_loop fuel (mkBuf [] e t) (skipn n p)
           | _ => let n := size - length (buf b) in write_loop fuel (flush (mkBuf (buf b ++ firstn n p) (berr b) (trace b))) (skipn n p)
           end
       end.
Definition bwrite (b : buffered) (p : list B) : option buffered :=
  match write_loop (length p + 2) b p with
  | None => None
  | Some (b, p) => Some (if berr b then b else mkBuf (buf b ++ p) false (trace b))
  end.

(** gob.Encoder.Encode: a Write per message, the first failing one ends it; [ok] says whether the value can be encoded *)
Fixpoint encode_all (b : buffered) (messages : list (list B)) : option buffered :=
  match messages with
  | [] => Some b
  | p :: ps => match bwrite b p with None => None | Some b => if berr b then Some b else encode_all b ps end
  end.

(** Dump (gob.go:16-26): whether it returned nil, and the calls on the stream *)
Definition dump (ok : bool) (messages : list (list B)) (t : list wrote) : option (bool * list wrote) :=
  match encode_all (mkBuf [] false t) messages with
  | None => None
  | Some b => if berr b || negb ok then Some (false, trace b) else let b := flush b in Some (negb (berr b), trace b)
  end.
End Streams.
Arguments wrote : clear implicits.

(** ** Files *)
Section Files.
Variable B : Type.
(** the answers of the operating system while a file is saved; [kept] is what remains of a file whose Close fails *)
Record os := mkOs { create_ok : bool; answers : list (wrote B) -> list B -> nat * bool; close_ok : bool; kept : list B -> list B }.
Variable size : nat.
(** DumpToFile (gob.go:30-44): whether it returned nil, and the content of the file afterwards.  os.Create truncates an
    existing file.  The deferred function assigns the error of Close to the local variable err, after "return nil" has
    already set the result: that error is lost. *)
Definition dump_to_file (e : os) (old : option (list B)) (ok : bool) (messages : list (list B)) : option (bool * option (list B)) :=
  if negb (create_ok e) then Some (false, old)
  else match dump B (answers e) size ok messages [] with
       | None => None
       | Some (r, t) => let content := received B t in Some (r, Some (if close_ok e then content else kept e content))
       end.
(** what the file holds if the process is killed after k calls of Write *)
Definition killed_after (e : os) (old : option (list B)) (ok : bool) (messages : list (list B)) (k : nat) : option (option (list B)) :=
  if negb (create_ok e) then Some old
  else match dump B (answers e) size ok messages [] with
       | None => None
       | Some (_, t) => Some (Some (received B (firstn k t)))
       end.
End Files.
Arguments os : clear implicits.

(** ** Load *)
Section Load.
Variables (B V : Type).
(** what gob.Decoder makes of the bytes it has read *)
Inductive progress := Done (v : V) | More | Bad.
Variable decode : list B -> progress.
(** Load (gob.go:47-53): a new bufio.Reader takes what each Read gives; [rest] are the answers of the following Reads of the
    stream, which ends after them (by io.EOF or by another error).  The result, and the answers that are left for whoever
    reads the stream next: what the bufio.Reader has taken and not used is lost. *)
Fixpoint load_loop (acc : list B) (rest : list (list B)) : option V * list (list B) :=
  match decode acc with
  | Done v => (Some v, rest)
  | Bad => (None, rest)
  | More => match rest with [] => (None, []) | c :: rest => load_loop (acc ++ c) rest end
  end.
Definition load (reads : list (list B)) : option V * list (list B) := load_loop [] reads.
(** LoadFromFile (gob.go:57-69): os.Open fails if there is no file; the reads are some division of its content, or end
    early with an error *)
Definition load_from_file (content : option (list B)) (reads : list B -> list (list B)) : option V :=
  match content with None => None | Some l => fst (load (reads l)) end.
End Load.
Arguments Done {V}. Arguments More {V}. Arguments Bad {V}.
