(** * Random number generation

    Model of mat/internal/rand/rng.go, mat/internal/rand/rand.go and
    mat/rand/{lockedrand,misc}.go.  Machine words are integers with explicit
    wrap-around.  NormFloat64 is in GaussModel.v. Not modelled: ExpFloat64, Zipf (ziggurat tables,
    floating point). *)
From Coq Require Import List ZArith Bool.
Import ListNotations.
Open Scope Z_scope.

Definition W : Z := 2 ^ 64.
Definition word (z : Z) : Z := z mod W.          (* uint64(z) *)

(** ** PCGSource (rng.go:25-71) *)
Record pcg := mkPcg { low : Z; high : Z }.

Definition multiplier : Z := 47026247687942121848144207491837523525.   (* :31 *)
Definition increment : Z := 117397592171526113268558934119004209487.   (* :35 *)
Definition max_uint64 : Z := W - 1.                                    (* rand.go:86 *)
Definition mul_high : Z := Z.shiftr multiplier 64.                     (* :32 *)
Definition mul_low : Z := Z.land multiplier max_uint64.                (* :33 *)
Definition inc_high : Z := Z.shiftr increment 64.                      (* :36 *)
Definition inc_low : Z := Z.land increment max_uint64.                 (* :37 *)

(** math/bits.Mul64 and Add64. *)
Definition mul64 (x y : Z) : Z * Z := ((x * y) / W, (x * y) mod W).
Definition add64 (x y carry : Z) : Z * Z := ((x + y + carry) mod W, (x + y + carry) / W).

(** rng.go:65-71 *)
Definition multiply (s : pcg) : pcg :=
  let '(hi, lo) := mul64 (low s) mul_low in
  let hi := word (hi + word (high s * mul_low)) in
  let hi := word (hi + word (low s * mul_high)) in
  mkPcg lo hi.

(** rng.go:59-63 *)
Definition add (s : pcg) : pcg :=
  let '(l, carry) := add64 (low s) inc_low 0 in
  let '(h, _) := add64 (high s) inc_high carry in
  mkPcg l h.

Definition next (s : pcg) : pcg := add (multiply s).

(** math/bits.RotateLeft64 with a negative argument: k & 63, then two shifts. *)
Definition rotate_left64 (x k : Z) : Z :=
  let s := Z.land k 63 in
  Z.lor (word (Z.shiftl x s)) (Z.shiftr x (64 - s)).

(** rng.go:52-57 *)
Definition output (s : pcg) : Z :=
  rotate_left64 (Z.lxor (high s) (low s)) (- Z.shiftr (high s) 58).

Definition pcg_uint64 (s : pcg) : Z * pcg := let s' := next s in (output s', s').

(** rng.go:46-49 *)
Definition pcg_seed (seed : Z) : pcg := mkPcg seed seed.

(** rng.go:74-89.  encoding/binary.BigEndian: byte i of the 8 is
    [byte(v >> (56 - 8 i))], and [Uint64] reads them back. *)
Definition put_uint64 (v : Z) : list Z :=
  map (fun i => Z.shiftr v (56 - 8 * i) mod 256) [0;1;2;3;4;5;6;7].
Definition get_uint64 (bs : list Z) : Z := fold_left (fun a b => a * 256 + b) (firstn 8 bs) 0.

Definition marshal (s : pcg) : list Z := put_uint64 (high s) ++ put_uint64 (low s).
Definition unmarshal (data : list Z) : option pcg :=
  if Nat.ltb (length data) 16 then None
  else Some (mkPcg (get_uint64 (skipn 8 data)) (get_uint64 data)).

(** ** Bounded integers (rand.go:88-138)

    The source is a list of words, a prefix of what it would deliver. *)
Inductive draw (A : Type) :=
| Got (v : A) (rest : list Z)
| Panics
| Exhausted.                     (* the loop is still running *)
Arguments Got {A}. Arguments Panics {A}. Arguments Exhausted {A}.

(** rand.go:103-105 *)
Fixpoint reject (n ceiling : Z) (v : Z) (ws : list Z) : draw Z :=
  if v >=? ceiling then
    match ws with
    | [] => Exhausted
    | w :: ws => reject n ceiling w ws
    end
  else Got (v mod n) ws.

(** rand.go:91-109 *)
Definition uint64n (n : Z) (ws : list Z) : draw Z :=
  if Z.land n (word (n - 1)) =? 0 then
    if n =? 0 then Panics
    else match ws with
         | [] => Exhausted
         | v :: ws => Got (Z.land v (n - 1)) ws
         end
  else match ws with
       | [] => Exhausted
       | v :: ws =>
           if v >? max_uint64 - n then reject n (max_uint64 - max_uint64 mod n) v ws
           else Got (v mod n) ws
       end.

(** Conversions between Go integer types. *)
Definition to_signed (bits z : Z) : Z :=
  let m := z mod 2 ^ bits in if m <? 2 ^ (bits - 1) then m else m - 2 ^ bits.

Definition map_draw {A B} (f : A -> B) (d : draw A) : draw B :=
  match d with Got v r => Got (f v) r | Panics => Panics | Exhausted => Exhausted end.

(** rand.go:113-118; Intn (132-138) is the same on a 64-bit machine. *)
Definition int63n (n : Z) (ws : list Z) : draw Z :=
  if n <=? 0 then Panics else map_draw (to_signed 64) (uint64n (word n) ws).
Definition intn := int63n.
(** rand.go:122-128 *)
Definition int31n (n : Z) (ws : list Z) : draw Z :=
  if n <=? 0 then Panics else map_draw (to_signed 32) (uint64n (word n) ws).

(** rand.go:72-84: outputs from one word. *)
Definition int63_of (w : Z) : Z := to_signed 64 (Z.ldiff w (2 ^ 63)).
Definition uint32_of (w : Z) : Z := Z.shiftr w 32 mod 2 ^ 32.
Definition int31_of (w : Z) : Z := to_signed 32 (Z.shiftr w 33).
Definition int_of (w : Z) : Z := to_signed 64 (Z.shiftr (word (Z.shiftl w 1)) 1).

(** ** Shuffle and Perm *)

(** [a[i] = v] *)
Fixpoint set_nth {A} (l : list A) (i : nat) (v : A) : list A :=
  match l, i with
  | [], _ => []
  | _ :: l, O => v :: l
  | x :: l, S i => x :: set_nth l i v
  end.

(** misc.go:17: xs[i], xs[j] = xs[j], xs[i] *)
Definition swap {A} (l : list A) (i j : nat) : list A :=
  match nth_error l i, nth_error l j with
  | Some x, Some y => set_nth (set_nth l i y) j x
  | _, _ => l
  end.

(** rand.go:191-211; the two loops only differ in the width of the draw:
    [i] counts down to 1, [fuel] is [i] itself. *)
Fixpoint shuffle_loop {A} (i : nat) (l : list A) (ws : list Z) : draw (list A) :=
  match i with
  | O => Got l ws
  | S i' =>
      match (if Z.of_nat i >? 2 ^ 31 - 1 - 1 then int63n (Z.of_nat i + 1) ws
             else int31n (Z.of_nat i + 1) ws) with
      | Got j ws => shuffle_loop i' (swap l i (Z.to_nat j)) ws
      | Panics => Panics
      | Exhausted => Exhausted
      end
  end.

Definition shuffle {A} (l : list A) (ws : list Z) : draw (list A) :=
  shuffle_loop (pred (length l)) l ws.

(** The same loop with the choices given: [js] lists the values drawn. *)
Fixpoint shuffle_with {A} (i : nat) (l : list A) (js : list nat) : list A :=
  match i, js with
  | S i', j :: js => shuffle_with i' (swap l i j) js
  | _, _ => l
  end.

(** rand.go:173-186 *)
Definition perm_step (m : list nat) (i j : nat) : list nat :=
  set_nth (set_nth m i (nth j m 0%nat)) j i.

Fixpoint perm_loop (n i : nat) (m : list nat) (ws : list Z) : draw (list nat) :=
  match n with
  | O => Got m ws
  | S n => match intn (Z.of_nat i + 1) ws with
           | Got j ws => perm_loop n (S i) (perm_step m i (Z.to_nat j)) ws
           | Panics => Panics
           | Exhausted => Exhausted
           end
  end.
Definition perm (n : nat) (ws : list Z) : draw (list nat) := perm_loop n 0 (repeat 0%nat n) ws.

Fixpoint perm_with (i : nat) (m : list nat) (js : list nat) : list nat :=
  match js with
  | [] => m
  | j :: js => perm_with (S i) (perm_step m i j) js
  end.

(** ** Rand: source plus the bytes left over by Read (rand.go:37-66, 217-244) *)
Record rand := mkRand { src : pcg; read_val : Z; read_pos : Z }.

Definition rand_new (seed : Z) : rand := mkRand (pcg_seed seed) 0 0.
(** rand.go:58-66, 359-364: the LockedSource branch does the same. *)
Definition rand_seed (r : rand) (seed : Z) : rand := mkRand (pcg_seed seed) (read_val r) 0.

Definition rand_uint64 (r : rand) : Z * rand :=
  let '(v, s) := pcg_uint64 (src r) in (v, mkRand s (read_val r) (read_pos r)).

(** rand.go:224-244 *)
Fixpoint rand_read (n : nat) (r : rand) : list Z * rand :=
  match n with
  | O => ([], r)
  | S n =>
      let r1 := if read_pos r =? 0 then
                  let '(v, s) := pcg_uint64 (src r) in mkRand s v 8
                else r in
      let b := read_val r1 mod 256 in
      let r2 := mkRand (src r1) (Z.shiftr (read_val r1) 8) (read_pos r1 - 1) in
      let '(bs, r3) := rand_read n r2 in (b :: bs, r3)
  end.

(** Bounded draws from the generator itself; [fuel] bounds the rejections. *)
Fixpoint words (n : nat) (s : pcg) : list Z :=
  match n with
  | O => []
  | S n => let '(v, s') := pcg_uint64 s in v :: words n s'
  end.

(** ** GetUniqueRandomInt (misc.go:48-60), the draws of [rand.Intn(max)] given.

    [contains] scans the whole slice [a], including the zeros not yet
    overwritten. *)
Definition contains (a : list Z) (x : Z) : bool := existsb (Z.eqb x) a.

(** misc.go:53-57: the inner loop, starting from the first draw. *)
Fixpoint unique_one (valid : Z -> bool) (a : list Z) (rs : list Z) : option (Z * list Z) :=
  match rs with
  | [] => None
  | r :: rs => if negb (valid r) || contains a r then unique_one valid a rs else Some (r, rs)
  end.

Fixpoint unique_loop (valid : Z -> bool) (todo i : nat) (a : list Z) (rs : list Z) : option (list Z) :=
  match todo with
  | O => Some a
  | S todo => match unique_one valid a rs with
              | None => None
              | Some (r, rs) => unique_loop valid todo (S i) (set_nth a i r) rs
              end
  end.

(** [None]: still looping after the given draws.  GetUniqueRandomIndices
    (misc.go:64-76) is the same loop with the first elements of successive
    shuffles as draws. *)
Definition get_unique (n : nat) (valid : Z -> bool) (rs : list Z) : option (list Z) :=
  unique_loop valid n 0 (repeat 0 n) rs.

(** ** LockedRand (lockedrand.go:13-174): every method locks, calls, unlocks,
    with no deferred unlock: a panic of the call leaves the mutex locked. *)
Inductive locked_result (A : Type) := Done (v : A) | Blocked | Panicked.
Arguments Done {A}. Arguments Blocked {A}. Arguments Panicked {A}.

Record locked := mkLocked { lk : bool; stream : list Z }.

Definition locked_intn (s : locked) (n : Z) : locked_result Z * locked :=
  if lk s then (Blocked, s)
  else match intn n (stream s) with
       | Got v ws => (Done v, mkLocked false ws)
       | Panics => (Panicked, mkLocked true (stream s))
       | Exhausted => (Blocked, mkLocked true [])
       end.
