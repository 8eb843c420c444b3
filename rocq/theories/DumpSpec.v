(** * What saving and loading mean *)
From Coq Require Import List Arith Bool.
From Verif Require Import DumpModel.
Import ListNotations.

(** io.Writer: it takes no more than it is given, and takes less only with an error *)
Definition io_writer {B} (answer : list (wrote B) -> list B -> nat * bool) : Prop :=
  forall t p, fst (answer t p) <= length p /\ (snd (answer t p) = false -> fst (answer t p) = length p).
Definition prefix {B} (a b : list B) : Prop := exists c, b = a ++ c.
(** A self-delimiting encoding, as gob's: the messages of a value, if it has an encoding, and a decoder that reports a
    value as soon as it has its bytes and asks for more before. *)
Record codec (B V : Type) := mkCodec { messages : V -> list (list B); encodable : V -> bool; decoder : list B -> progress V }.
Arguments messages {B V}. Arguments encodable {B V}. Arguments decoder {B V}.
Definition encoding {B V} (c : codec B V) (v : V) : list B := concat (messages c v).
Definition self_delimiting {B V} (c : codec B V) : Prop :=
  forall v, encodable c v = true ->
    (forall rest, decoder c (encoding c v ++ rest) = Done v) /\
    (forall a b, encoding c v = a ++ b -> b <> [] -> decoder c a = More).
