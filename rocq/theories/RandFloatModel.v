(** * Random floating point numbers and weighted choice

    Model of [Float64] and [Float32] (/repo/mat/internal/rand/rand.go:138-170)
    and of [WeightedChoice] (/repo/mat/rand/misc.go:28-46).  The values are
    real numbers; [round64] and [round32] are the IEEE-754 roundings to nearest
    even of Flocq's FLT formats (binary64, binary32), so conversions and
    divisions round as the hardware does.  No overflow can occur in [0,1]. *)
From Coq Require Import List ZArith Reals.
From Flocq Require Import Core.
From Verif Require Import RandModel.
Import ListNotations.
Open Scope R_scope.

(** float64(x), float32(x): binary64 has 53 significant bits and least
    exponent -1074, binary32 24 and -149. *)
Definition round64 (x : R) : R := round radix2 (FLT_exp (-1074) 53) ZnearestE x.
Definition round32 (x : R) : R := round radix2 (FLT_exp (-149) 24) ZnearestE x.

(** rand.go:150: float64(k) / (1 << 53) *)
Definition float64_value (k : Z) : R := round64 (round64 (IZR k) / IZR (2 ^ 53)).

(** rand.go:139-155; [fuel] bounds the resamplings (one word at least is used
    by each, so the number of words is enough). *)
Fixpoint float64_loop (fuel : nat) (ws : list Z) : draw R :=
  match fuel with
  | O => Exhausted
  | S fuel =>
      match uint64n (2 ^ 53) ws with
      | Got k ws => let f := float64_value k in
                    if Req_EM_T f 1 then float64_loop fuel ws else Got f ws
      | Panics => Panics
      | Exhausted => Exhausted
      end
  end.
Definition float64 (ws : list Z) : draw R := float64_loop (length ws) ws.

(** rand.go:158-167 *)
Fixpoint float32_loop (fuel : nat) (ws : list Z) : draw R :=
  match fuel with
  | O => Exhausted
  | S fuel =>
      match float64 ws with
      | Got x ws => let f := round32 x in
                    if Req_EM_T f 1 then float32_loop fuel ws else Got f ws
      | Panics => Panics
      | Exhausted => Exhausted
      end
  end.
Definition float32 (ws : list Z) : draw R := float32_loop (length ws) ws.

(** misc.go:38-46: the loop over [dist], the random number given.  The sums are
    exact here; in Go they are rounded. *)
Fixpoint weighted_loop (i : nat) (cumulative rnd : R) (dist : list R) : nat :=
  match dist with
  | [] => 0%nat
  | prob :: dist =>
      let cumulative := cumulative + prob in
      if Rlt_dec rnd cumulative then i else weighted_loop (S i) cumulative rnd dist
  end.
Definition weighted_choice (dist : list R) (rnd : R) : nat := weighted_loop 0 0 rnd dist.
