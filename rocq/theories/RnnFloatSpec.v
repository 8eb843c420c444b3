(** * What the recurrent networks should compute, and how exactly *)
From Coq Require Import ZArith List Reals.
From Flocq Require Import Core BinarySingleNaN.
From Verif Require Import AsmModel FloatModel NumModel NumSpec AsmCalls AsmFloatSpec AsmSpec SoftSpec LossFloatSpec RnnFloatModel.
Import ListNotations.
Local Open Scope R_scope.

(** the products of rows and vectors: the terms multiplied and added in whatever order, with or without fused multiply-add *)
Definition dots_all {d} (dot : list nat -> list (val d * val d) -> val d) : Prop := forall k l, dot_of (floats d) (dot k l) l.
(** How accurate math.Tanh is *)
Definition tanh_accurate (m : libm) : Prop := forall x, finite x -> Rabs (real (Tanh m x) - tanh (real x)) <= / 2 ^ 50.
(** a vector of n finite numbers of at most B *)
Definition vector_in {d} (n : nat) (B : R) (v : list (val d)) : Prop := length v = n /\ Forall (fun e => finite e /\ Rabs (real e) <= B) v.
(** the parameters of a gate with k inputs and n outputs: finite, and so small that no row overflows with inputs of at most B and
    a state of at most Y *)
Record good_gate {d} (k n : nat) (B Y : R) (g : gate d) : Prop := {
  rows_in : length (W g) = n /\ Forall (fun r => length r = k /\ Forall finite r) (W g);
  rows_rec : length (WRec g) = n /\ Forall (fun r => length r = n /\ Forall finite r) (WRec g);
  bias_in : length (Bias g) = n /\ Forall finite (Bias g);
  rows_size : forall i, (i < n)%nat -> B * total_abs (nth i (W g) []) + Rabs (real (nth i (Bias g) fzero)) + Y * total_abs (nth i (WRec g) []) <= safe d
}.
(** the exact net input of the output i, W x + b + WRec y, and the sum of the absolute values of its terms *)
Definition net_input {d} (g : gate d) (x : list (val d)) (y : option (list (val d))) (i : nat) : R :=
  product (combine (nth i (W g) []) x) + real (nth i (Bias g) fzero) + match y with None => 0 | Some y => product (combine (nth i (WRec g) []) y) end.
Definition net_size {d} (g : gate d) (x : list (val d)) (y : option (list (val d))) (i : nat) : R :=
  product_abs (combine (nth i (W g) []) x) + Rabs (real (nth i (Bias g) fzero)) + match y with None => 0 | Some y => product_abs (combine (nth i (WRec g) []) y) end.
(** how exact it is computed: 2 (k + n) + 3 units of rounding of its size *)
Definition net_error (d : dtype) (k n : nat) (size : R) : R := (2 * INR (k + n) + 3) * u d * size + 3 * INR (k + n) * half_tiny d.
Definition sigma (v : R) : R := / (1 + exp (- v)).
(** the errors of a sigmoid and of a hyperbolic tangent of a net input *)
Definition sigma_error (d : dtype) (k n : nat) (size : R) : R := sigm_rel d + sigm_abs d + net_error d k n size.
Definition tanh_error (d : dtype) (k n : nat) (size : R) : R := 10 * u d + net_error d k n size.

(** ** One step: from the state before (None at first), the input and the state after *)
Notation at_ v i := (real (nth i v fzero)).
(** SRN: y = tanh(W x + b + WRec yPrev) *)
Definition srn_step {d} (k n : nat) (g : gate d) (s : option (list (val d))) (x : list (val d)) (y : list (val d)) : Prop :=
  forall i, (i < n)%nat -> Rabs (at_ y i - tanh (net_input g x s i)) <= tanh_error d k n (net_size g x s i).
(** the fields of a state are vectors of n finite numbers, at most 1 or as said *)
Definition gru_in {d} (n : nat) (s : gru_state d) : Prop := vector_in n 1 (gR s) /\ vector_in n 1 (gP s) /\ vector_in n 1 (gC s) /\ vector_in n 1 (gY s).
Definition lstm_in {d} (n : nat) (G M : R) (s : lstm_state d) : Prop :=
  vector_in n G (lIn s) /\ vector_in n G (lOut s) /\ vector_in n 1 (lFor s) /\ vector_in n 1 (lCand s) /\ vector_in n M (lCell s) /\ vector_in n G (lY s).
(** z is y * r, rounded *)
Definition reset_input {d} (n : nat) (y : option (list (val d))) (r : list (val d)) (z : option (list (val d))) : Prop :=
  match y, z with
  | None, None => True
  | Some y, Some z => vector_in n 1 z /\ forall i, (i < n)%nat -> Rabs (at_ z i - at_ y i * at_ r i) <= u d * Rabs (at_ y i * at_ r i) + half_tiny d
  | _, _ => False
  end.
(** GRU: r and p are sigmoids between 0 and 1; c = tanh(W x + b + WRec z) where z is yPrev * r rounded; y = p c + (1 - p) yPrev *)
Definition gru_step {d} (k n : nat) (g : gru d) (s : option (gru_state d)) (x : list (val d)) (s' : gru_state d) : Prop :=
  let y := option_map gY s in
  (exists z, reset_input n y (gR s') z /\
     forall i, (i < n)%nat -> Rabs (at_ (gC s') i - tanh (net_input (Cand g) x z i)) <= tanh_error d k n (net_size (Cand g) x z i)) /\
  forall i, (i < n)%nat ->
    0 <= at_ (gR s') i /\ 0 <= at_ (gP s') i /\
    Rabs (at_ (gR s') i - sigma (net_input (Res g) x y i)) <= sigma_error d k n (net_size (Res g) x y i) /\
    Rabs (at_ (gP s') i - sigma (net_input (Part g) x y i)) <= sigma_error d k n (net_size (Part g) x y i) /\
    Rabs (at_ (gY s') i - (at_ (gP s') i * at_ (gC s') i + match y with None => 0 | Some y => (1 - at_ (gP s') i) * at_ y i end)) <= 4 * u d.
(** LSTM: an input or output gate is a sigmoid between 0 and 1, multiplied by the input if the gates are refined *)
Definition refined_gate {d} (b : bool) (x v : val d) (exact error : R) : Prop :=
  exists s, 0 <= s <= 1 /\ Rabs (s - exact) <= error /\
    if b then Rabs (real v - s * real x) <= u d * Rabs (s * real x) + half_tiny d else real v = s.
(** cell = in cand + for cellPrev, y = out tanh(cell) *)
Definition lstm_step {d} (k n : nat) (g : lstm d) (s : option (lstm_state d)) (x : list (val d)) (s' : lstm_state d) : Prop :=
  let y := option_map lY s in
  forall i, (i < n)%nat ->
    refined_gate (Refined g) (nth i x fzero) (nth i (lIn s') fzero) (sigma (net_input (InG g) x y i)) (sigma_error d k n (net_size (InG g) x y i)) /\
    refined_gate (Refined g) (nth i x fzero) (nth i (lOut s') fzero) (sigma (net_input (OutG g) x y i)) (sigma_error d k n (net_size (OutG g) x y i)) /\
    refined_gate false (nth i x fzero) (nth i (lFor s') fzero) (sigma (net_input (ForG g) x y i)) (sigma_error d k n (net_size (ForG g) x y i)) /\
    Rabs (at_ (lCand s') i - tanh (net_input (CandG g) x y i)) <= tanh_error d k n (net_size (CandG g) x y i) /\
    (let a := at_ (lIn s') i * at_ (lCand s') i in
     let b := match s with None => 0 | Some s => at_ (lFor s') i * at_ (lCell s) i end in
     Rabs (at_ (lCell s') i - (a + b)) <= 3 * u d * (Rabs a + Rabs b) + 3 * half_tiny d) /\
    Rabs (at_ (lY s') i - at_ (lOut s') i * tanh (at_ (lCell s') i)) <= 12 * u d * Rabs (at_ (lOut s') i) + half_tiny d.
(** the states of a run, each of them a step from the one before *)
Fixpoint steps {X S} (step : option S -> X -> S -> Prop) (s : option S) (xs : list X) (ss : list S) : Prop :=
  match xs, ss with
  | [], [] => True
  | x :: xs', s' :: ss' => step s x s' /\ steps step (Some s') xs' ss'
  | _, _ => False
  end.
(** the most an LSTM cell can hold: 2^24, 2^53 *)
Definition most (d : dtype) : R := match d with F32 => 2 ^ 24 | F64 => 2 ^ 53 end.
(** the shape of a gate, its parameters whatever they are *)
Definition shaped {d} (k n : nat) (g : gate d) : Prop :=
  length (W g) = n /\ length (WRec g) = n /\ length (Bias g) = n /\ Forall (fun r => length r = k) (W g) /\ Forall (fun r => length r = n) (WRec g).
(** one element is NaN; all are *)
Definition some_nan {d} (v : list (val d)) : Prop := Exists (fun e => e = B754_nan) v.
Definition all_nan {d} (v : list (val d)) : Prop := Forall (fun e => e = B754_nan) v.
