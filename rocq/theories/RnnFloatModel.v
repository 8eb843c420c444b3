(** * Recurrent networks in floating point (packages nn/recurrent/srn, gru and lstm)

    The forward passes of RnnModel.v again, over the IEEE binary32 and binary64 formats, with every rounding, overflow, signed zero,
    infinity and NaN.  Definitions only.  A vector is the list of its elements, a matrix the list of its rows.  The product of a
    row of a matrix and a vector is a parameter, with the number of the time step, of the gate, of the pair of the affine map and
    of the row, since its order of additions depends on the processor and the length (AsmCalls.v, GemModel.v).  The exponentials of
    a vector are a parameter too.  No other multiplication and addition are fused.  Inputs and parameters have the same type; all
    sizes fit, or the operators panic (RnnModel.v). *)
From Coq Require Import List ZArith Bool.
From Flocq Require Import Core BinarySingleNaN.
From Verif Require Import FloatModel NumModel NormFloatModel LossFloatModel.
Import ListNotations.

Section Rnn.
Variable m : libm.
Variable d : dtype.
Notation vec := (list (val d)).
Variable dot : list nat -> list (val d * val d) -> val d.
Variable vexp : vec -> vec.
Notation at_type := (conv F64 d).
Notation up := (conv d F64).

(** ** Operators *)
(** the parameters of a gate: W (out x in), WRec (out x out), B (gru.go:51-59, lstm.go:63-90, srn.go:35-42) *)
Record gate : Type := { W : list vec; WRec : list vec; Bias : vec }.
(** Mul of a matrix and a vector (dense.go:681-760, used by gradfn/affine.go:70-80): row by row *)
Fixpoint mul_rows (k : list nat) (i : nat) (rows : list vec) (x : vec) : vec :=
  match rows with
  | [] => []
  | r :: rows' => dot (i :: k) (combine r x) :: mul_rows k (S i) rows' x
  end.
(** Affine (gradfn/affine.go:27-80): W x, then b added in place, then the second product, unless its vector is nil *)
Definition affine (t j : nat) (g : gate) (x : vec) (y : option vec) : vec :=
  let a := zip fadd (mul_rows [0; j; t]%nat 0 (W g) x) (Bias g) in
  match y with
  | None => a
  | Some y => zip fadd a (mul_rows [1; j; t]%nat 0 (WRec g) y)
  end.
(** Sigmoid (dense.go:989-1010: ProdScalar(-1), Exp, AddScalar(1), then 1 / v), Tanh (gradfn/misc.go:28-42), Prod (dense.go:549-565), Add (dense.go:413-430) *)
Definition sigmoid (x : vec) : vec := map (fun e => fdiv fone (fadd fone e)) (vexp (map (fun w => fmul w (at_type (lit (-1) 0))) x)).
Definition tanh_op (x : vec) : vec := map (fun v => at_type (go_tanh m (up v))) x.
Definition prod : vec -> vec -> vec := zip fmul.
Definition add : vec -> vec -> vec := zip fadd.

(** ** Simple recurrent network (srn.go:44-66) *)
Definition srn_next (g : gate) (t : nat) (y : option vec) (x : vec) : vec := tanh_op (affine t 0 g x y).

(** ** GRU (gru.go:27-33, 76-101); tryProd is the match on the previous state *)
Record gru : Type := { Res : gate; Part : gate; Cand : gate }.
Record gru_state : Type := { gR : vec; gP : vec; gC : vec; gY : vec }.
Definition gru_next (n : gru) (t : nat) (s : option gru_state) (x : vec) : gru_state :=
  let yp := match s with None => None | Some s => Some (gY s) end in
  let r := sigmoid (affine t 0 (Res n) x yp) in
  let p := sigmoid (affine t 1 (Part n) x yp) in
  let c := tanh_op (affine t 2 (Cand n) x (match yp with None => None | Some y => Some (prod y r) end)) in
  let y := match yp with
           | None => prod p c
           | Some y => add (prod p c) (prod (map (one_minus d) p) y)
           end in
  {| gR := r; gP := p; gC := c; gY := y |}.

(** ** LSTM (lstm.go:21-48, 111-154) *)
Record lstm : Type := { InG : gate; OutG : gate; ForG : gate; CandG : gate; Refined : bool }.
Record lstm_state : Type := { lIn : vec; lOut : vec; lFor : vec; lCand : vec; lCell : vec; lY : vec }.
Definition lstm_next (n : lstm) (t : nat) (s : option lstm_state) (x : vec) : lstm_state :=
  let yp := match s with None => None | Some s => Some (lY s) end in
  let ig := sigmoid (affine t 0 (InG n) x yp) in
  let og := sigmoid (affine t 1 (OutG n) x yp) in
  let fg := sigmoid (affine t 2 (ForG n) x yp) in
  let cn := tanh_op (affine t 3 (CandG n) x yp) in
  let ig := if Refined n then prod ig x else ig in
  let og := if Refined n then prod og x else og in
  let cell := match s with
              | None => prod ig cn
              | Some s => add (prod ig cn) (prod fg (lCell s))
              end in
  {| lIn := ig; lOut := og; lFor := fg; lCand := cn; lCell := cell; lY := prod og (tanh_op cell) |}.

(** ** Forward (gru.go:63-71, lstm.go:111-119, srn.go:44-52): the states, in order; Forward returns their Y *)
Fixpoint run {S} (next : nat -> option S -> vec -> S) (t : nat) (s : option S) (xs : list vec) : list S :=
  match xs with
  | [] => []
  | x :: xs' => let s' := next t s x in s' :: run next (t + 1) (Some s') xs'
  end.
Definition srn_forward (g : gate) (xs : list vec) : list vec := run (srn_next g) 0 None xs.
Definition gru_forward (n : gru) (xs : list vec) : list gru_state := run (gru_next n) 0 None xs.
Definition lstm_forward (n : lstm) (xs : list vec) : list lstm_state := run (lstm_next n) 0 None xs.
End Rnn.
Arguments W {d}. Arguments WRec {d}. Arguments Bias {d}. Arguments Build_gate {d}.
Arguments Res {d}. Arguments Part {d}. Arguments Cand {d}. Arguments Build_gru {d}.
Arguments gR {d}. Arguments gP {d}. Arguments gC {d}. Arguments gY {d}. Arguments Build_gru_state {d}.
Arguments InG {d}. Arguments OutG {d}. Arguments ForG {d}. Arguments CandG {d}. Arguments Refined {d}. Arguments Build_lstm {d}.
Arguments lIn {d}. Arguments lOut {d}. Arguments lFor {d}. Arguments lCand {d}. Arguments lCell {d}. Arguments lY {d}. Arguments Build_lstm_state {d}.
