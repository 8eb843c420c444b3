(** * Specification vocabulary for shared generators *)
From Coq Require Import List ZArith Reals Bool Arith.
From Verif Require Import RandModel RandSpec RandFloatModel LockModel.
Import ListNotations.
Open Scope Z_scope.

(** The generator after [k] more words of its source. *)
Definition advance (k : nat) (r : rand) : rand := mkRand (draws k (src r)) (read_val r) (read_pos r).

(** The answer [a] to a method that computes [d]: its value with no word left over, or its panic. *)
Definition reply {A} (d : draw A) (wrap : A -> answer) (a : answer) : Prop :=
  (exists v, d = Got v [] /\ a = wrap v) \/ (d = Panics /\ a = Panicked).

Definition int (v : Z) : answer := Ints [v].

(** The answer of a method, given exactly the words [ws] it draws: the sequential functions of RandModel and
    RandFloatModel, about which C25 and C26 are proved. *)
Definition on_words (c : call) (ws : list Z) (a : answer) : Prop :=
  match c with
  | CSeed _ | CRead _ => False
  | CTwoInt63 => exists v w, ws = [v; w] /\ a = Ints [int63_of v; int63_of w]
  | CInt63 => exists w, ws = [w] /\ a = int (int63_of w)
  | CUint32 => exists w, ws = [w] /\ a = int (uint32_of w)
  | CUint64 => exists w, ws = [w] /\ a = int w
  | CInt31 => exists w, ws = [w] /\ a = int (int31_of w)
  | CInt => exists w, ws = [w] /\ a = int (int_of w)
  | CUint64n n => reply (uint64n n ws) int a
  | CInt63n n => reply (int63n n ws) int a
  | CIntn n => reply (intn n ws) int a
  | CInt31n n => reply (int31n n ws) int a
  | CFloat32 => reply (float32 ws) Real a
  | CFloat64 => reply (float64 ws) Real a
  | CPerm n => if n <? 0 then ws = [] /\ a = Panicked else reply (perm (Z.to_nat n) ws) (fun m => Ints (map Z.of_nat m)) a
  | CShuffle n => if n <? 0 then ws = [] /\ a = Panicked else reply (shuffle (indexes (Z.to_nat n)) ws) Ints a
  end.

(** A call when nobody else uses the generator: its answer and the generator after it. *)
Definition alone (c : call) (r : rand) (a : answer) (r' : rand) : Prop :=
  match c with
  | CSeed seed => a = Ints [] /\ r' = rand_seed r seed
  | CRead n => a = Ints (fst (rand_read n r)) /\ r' = snd (rand_read n r)
  | c => exists k, on_words c (words k (src r)) a /\ r' = advance k r
  end.

(** Calls one after the other. *)
Inductive one_by_one : rand -> list event -> rand -> Prop :=
| o_nil r : one_by_one r [] r
| o_cons r e r1 es r2 : alone (what e) r (got e) r1 -> one_by_one r1 es r2 -> one_by_one r (e :: es) r2.

(** The calls of goroutine [t]. *)
Definition mine (t : nat) (tr : list event) : list event := filter (fun e => who e =? t)%nat tr.

(** Program [g] made these calls, got these answers, and goes on as [g']. *)
Inductive follows : client -> list event -> client -> Prop :=
| f_nil g : follows g [] g
| f_cons c k e es g' : what e = c -> follows (k (got e)) es g' -> follows (Call c k) (e :: es) g'.

(** What a goroutine has still to do; a call that has not returned counts as not made. *)
Definition remaining (h : goroutine) : client :=
  match h with Outside g => g | Inside c _ k => Call c k end.

Definition is_finished (h : goroutine) : Prop := exists a, h = Outside (Finished a).
Definition panicked (e : event) : Prop := got e = Panicked.

(** The words a goroutine got from Uint64. *)
Definition ints (a : answer) : list Z := match a with Ints l => l | _ => [] end.
Definition word_call (c : call) : Prop := match c with CSeed _ | CRead _ => False | _ => True end.
