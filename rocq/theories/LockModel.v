(** * Generators shared by goroutines

    Model of [LockedRand] (/repo/mat/rand/lockedrand.go:13-174), of
    [LockedSource] (/repo/mat/internal/rand/rand.go:328-372) and of the
    top-level functions built on it (:247-326).  Any number of goroutines; a
    goroutine is any program whose next call may depend on the results it got.
    Inside a method the shared generator is read and written in separate steps
    of the schedule, so that only the mutex keeps the methods apart.

    Simplifications: the fields of the generator are read together and written
    together; the callback of [Shuffle] is the swap of two elements of a slice
    of the given length and does not panic; NormFloat64 is not among the calls; memory
    is sequentially consistent. *)
From Coq Require Import List ZArith Reals Bool.
From Verif Require Import RandModel RandFloatModel.
Import ListNotations.
Open Scope Z_scope.

(** ** The methods of Rand as programs drawing words from their source

    [Word k]: the next call is [r.src.Uint64()], and [k] goes on with its value. *)
CoInductive prog (A : Type) :=
| Return (v : A)
| Word (k : Z -> prog A)
| Panic.
Arguments Return {A}. Arguments Word {A}. Arguments Panic {A}.

CoFixpoint then_ {A B} (p : prog A) (f : A -> prog B) : prog B :=
  match p with
  | Return v => f v
  | Word k => Word (fun w => then_ (k w) f)
  | Panic => Panic
  end.

(** rand.go:103-105 *)
CoFixpoint p_reject (n ceiling v : Z) : prog Z :=
  if v >=? ceiling then Word (fun w => p_reject n ceiling w) else Return (v mod n).

(** rand.go:91-109 *)
Definition p_uint64n (n : Z) : prog Z :=
  if Z.land n (word (n - 1)) =? 0 then
    if n =? 0 then Panic else Word (fun v => Return (Z.land v (n - 1)))
  else Word (fun v => if v >? max_uint64 - n then p_reject n (max_uint64 - max_uint64 mod n) v else Return (v mod n)).

(** rand.go:113-118, 132-138 *)
Definition p_int63n (n : Z) : prog Z :=
  if n <=? 0 then Panic else then_ (p_uint64n (word n)) (fun v => Return (to_signed 64 v)).
(** rand.go:122-128 *)
Definition p_int31n (n : Z) : prog Z :=
  if n <=? 0 then Panic else then_ (p_uint64n (word n)) (fun v => Return (to_signed 32 v)).

(** rand.go:141-155; Uint64n(1<<53) written out *)
CoFixpoint p_float64 : prog R :=
  Word (fun v => let f := float64_value (Z.land v (2 ^ 53 - 1)) in
                 if Req_EM_T f 1 then p_float64 else Return f).
(** rand.go:158-167, the loop of Float64 written out *)
CoFixpoint p_float32 : prog R :=
  Word (fun v => let x := float64_value (Z.land v (2 ^ 53 - 1)) in
                 if Req_EM_T x 1 then p_float32
                 else let f := round32 x in if Req_EM_T f 1 then p_float32 else Return f).

(** rand.go:191-211 *)
Fixpoint p_shuffle (i : nat) (l : list Z) : prog (list Z) :=
  match i with
  | O => Return l
  | S i' => then_ (if Z.of_nat i >? 2 ^ 31 - 1 - 1 then p_int63n (Z.of_nat i + 1) else p_int31n (Z.of_nat i + 1))
                  (fun j => p_shuffle i' (swap l i (Z.to_nat j)))
  end.
(** rand.go:173-186 *)
Fixpoint p_perm (n i : nat) (m : list nat) : prog (list nat) :=
  match n with
  | O => Return m
  | S n => then_ (p_int63n (Z.of_nat i + 1)) (fun j => p_perm n (S i) (perm_step m i (Z.to_nat j)))
  end.

(** ** The calls and what they answer *)
Inductive call :=
| CSeed (seed : Z) | CTwoInt63 | CInt63 | CUint32 | CUint64 | CUint64n (n : Z) | CInt31 | CInt
| CInt63n (n : Z) | CInt31n (n : Z) | CIntn (n : Z) | CFloat32 | CFloat64
| CPerm (n : Z) | CRead (n : nat) | CShuffle (n : Z).

Inductive answer := Ints (l : list Z) | Real (x : R) | Panicked.

Definition one (v : Z) : prog answer := Return (Ints [v]).
Definition indexes (n : nat) : list Z := map Z.of_nat (seq 0 n).

(** lockedrand.go:36-150 without the mutex; [Perm] of a negative number fails in
    [make], [Shuffle] checks it (rand.go:192). [CSeed] and [CRead] are below. *)
Definition p_call (c : call) : prog answer :=
  match c with
  | CTwoInt63 => Word (fun v => Word (fun w => Return (Ints [int63_of v; int63_of w])))
  | CInt63 => Word (fun v => one (int63_of v))
  | CUint32 => Word (fun v => one (uint32_of v))
  | CUint64 => Word (fun v => one v)
  | CInt31 => Word (fun v => one (int31_of v))
  | CInt => Word (fun v => one (int_of v))
  | CUint64n n => then_ (p_uint64n n) one
  | CInt63n n | CIntn n => then_ (p_int63n n) one
  | CInt31n n => then_ (p_int31n n) one
  | CFloat32 => then_ p_float32 (fun x => Return (Real x))
  | CFloat64 => then_ p_float64 (fun x => Return (Real x))
  | CPerm n => if n <? 0 then Panic
               else then_ (p_perm (Z.to_nat n) 0 (repeat 0%nat (Z.to_nat n))) (fun m => Return (Ints (map Z.of_nat m)))
  | CShuffle n => if n <? 0 then Panic
                  else then_ (p_shuffle (pred (Z.to_nat n)) (indexes (Z.to_nat n))) (fun l => Return (Ints l))
  | CSeed _ | CRead _ => Return (Ints [])
  end.

(** ** What is executed while the mutex is held *)
CoInductive code :=
| Answer (a : answer)
| Get (k : rand -> code)            (* read the shared generator *)
| Put (r : rand) (c : code)         (* write it *)
| Fail.                             (* panic *)

(** rng.go:52-71: Uint64 reads the state and writes the next one. *)
Definition draw_word (k : Z -> code) : code :=
  Get (fun r => let '(v, r') := rand_uint64 r in Put r' (k v)).

CoFixpoint inside (p : prog answer) : code :=
  match p with
  | Return a => Answer a
  | Word k => Get (fun r => let '(v, r') := rand_uint64 r in Put r' (inside (k v)))
  | Panic => Fail
  end.

(** rand.go:224-244: [pos] and [val] are locals, written back at the end. *)
Fixpoint read_loop (n : nat) (val pos : Z) (out : list Z) : code :=
  match n with
  | O => Get (fun r => Put (mkRand (src r) val pos) (Answer (Ints (rev out))))
  | S n => if pos =? 0 then draw_word (fun v => read_loop n (Z.shiftr v 8) 7 (v mod 256 :: out))
           else read_loop n (Z.shiftr val 8) (pos - 1) (val mod 256 :: out)
  end.

Definition body (c : call) : code :=
  match c with
  | CSeed seed => Get (fun r => Put (rand_seed r seed) (Answer (Ints [])))     (* lockedrand.go:29-33 *)
  | CRead n => Get (fun r => read_loop n (read_val r) (read_pos r) [])          (* :157-162 *)
  | c => inside (p_call c)
  end.

(** ** Goroutines *)
CoInductive client :=
| Finished (a : answer)                          (* what the goroutine has computed *)
| Call (c : call) (k : answer -> client).        (* [Panicked] is given to a recover *)

(** A goroutine that is not in a call, or is waiting for the mutex; or one
    that holds it and is executing [code] for the call [c]. *)
Inductive goroutine :=
| Outside (g : client)
| Inside (c : call) (rest : code) (k : answer -> client).

Record system := mkSystem { gen : rand; lock : bool; threads : list goroutine }.

Fixpoint put {A} (l : list A) (i : nat) (v : A) : list A :=
  match l, i with
  | [], _ => []
  | _ :: l, O => v :: l
  | x :: l, S i => x :: put l i v
  end.

Record event := mkEvent { who : nat; what : call; got : answer }.

(** One step of goroutine [t]; the label is the call that returned, if any. *)
Inductive step : system -> option event -> system -> Prop :=
| s_lock t c k r ts : nth_error ts t = Some (Outside (Call c k)) ->
    step (mkSystem r false ts) None (mkSystem r true (put ts t (Inside c (body c) k)))
| s_get t c f k r b ts : nth_error ts t = Some (Inside c (Get f) k) ->
    step (mkSystem r b ts) None (mkSystem r b (put ts t (Inside c (f r) k)))
| s_put t c r' q k r b ts : nth_error ts t = Some (Inside c (Put r' q) k) ->
    step (mkSystem r b ts) None (mkSystem r' b (put ts t (Inside c q k)))
| s_unlock t c a k r b ts : nth_error ts t = Some (Inside c (Answer a) k) ->
    step (mkSystem r b ts) (Some (mkEvent t c a)) (mkSystem r false (put ts t (Outside (k a))))
| s_panic t c k r b ts : nth_error ts t = Some (Inside c Fail k) ->      (* no deferred unlock *)
    step (mkSystem r b ts) (Some (mkEvent t c Panicked)) (mkSystem r b (put ts t (Outside (k Panicked)))).

Definition start (r : rand) (gs : list client) : system := mkSystem r false (map Outside gs).

(** Executions with the calls that returned, in order. *)
Inductive exec (s0 : system) : list event -> system -> Prop :=
| e_start : exec s0 [] s0
| e_quiet tr s s' : exec s0 tr s -> step s None s' -> exec s0 tr s'
| e_event tr s e s' : exec s0 tr s -> step s (Some e) s' -> exec s0 (tr ++ [e]) s'.

(** ** The top-level functions (rand.go:247-326)

    Their generator has a [LockedSource]: only the draw of one word is under
    the mutex (:337-342), the rest of the method runs outside. *)
CoFixpoint outside (p : prog answer) : client :=
  match p with
  | Return a => Finished a
  | Word k => Call CUint64 (fun a => match a with Ints [v] => outside (k v) | _ => Finished Panicked end)
  | Panic => Finished Panicked
  end.

(** [Seed] and [Read] take the mutex for the whole call (:350-372). *)
Definition global (c : call) : client :=
  match c with
  | CSeed _ | CRead _ => Call c Finished
  | _ => outside (p_call c)
  end.
