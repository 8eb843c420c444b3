(** * Specification vocabulary for the random number properties *)
From Coq Require Import List ZArith.
From Verif Require Import RandModel.
Import ListNotations.
Open Scope Z_scope.

(** A 64-bit word. *)
Definition is_word (w : Z) : Prop := 0 <= w < 2 ^ 64.

(** The two words of a generator state are 64-bit words. *)
Definition valid_state (s : pcg) : Prop := 0 <= low s < W /\ 0 <= high s < W.

(** The state after [n] draws. *)
Definition draws (n : nat) (s : pcg) : pcg := Nat.iter n next s.

(** The choices of a shuffle of [i+1] elements: at most [i], then at most [i-1], ... *)
Fixpoint valid_choices (i : nat) (js : list nat) : Prop :=
  match i, js with
  | O, [] => True
  | S i', j :: js => (j <= i)%nat /\ valid_choices i' js
  | _, _ => False
  end.

(** The choices of Perm: at most [i], then at most [i+1], ... *)
Fixpoint valid_perm_choices (i : nat) (js : list nat) : Prop :=
  match js with
  | [] => True
  | j :: js => (j <= i)%nat /\ valid_perm_choices (S i) js
  end.

(** The 8 bytes of a word, least significant first. *)
Definition le_bytes (v : Z) : list Z := map (fun i => v / 2 ^ (8 * i) mod 256) [0;1;2;3;4;5;6;7].

(** Calls on a generator, and the results of a sequence of calls. *)
Inductive rop := RUint64 | RRead (n : nat) | RSeed (seed : Z).

Definition rop_step (r : rand) (o : rop) : list Z * rand :=
  match o with
  | RUint64 => let '(v, r) := rand_uint64 r in ([v], r)
  | RRead n => rand_read n r
  | RSeed seed => ([], rand_seed r seed)
  end.

Fixpoint rop_run (r : rand) (os : list rop) : list (list Z) * rand :=
  match os with
  | [] => ([], r)
  | o :: os => let '(x, r) := rop_step r o in let '(xs, r) := rop_run r os in (x :: xs, r)
  end.

(** The first [k] elements of an infinite sequence of draws. *)
Definition prefix (f : nat -> Z) (k : nat) : list Z := map f (seq 0 k).
