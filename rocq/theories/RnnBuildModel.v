(** * The constructors of recurrent networks (nn/recurrent/{gru,lstm}, nn/birnn/builders.go) *)
From Coq Require Import Reals List Arith Bool.
From Verif Require Import DenseModel GradModel RnnModel LayerModel.
Import ListNotations.
Open Scope nat_scope.

(** gru.newGateParams (gru.go:53-58), and the twelve parameters of lstm.New (lstm.go:64-88): matrices of zeros *)
Definition new_gate (inp out : nat) : gate := mkGate (zeros 0%R out inp) (zeros 0%R out out) (zeros 0%R out 1).
(** gru.New (gru.go:45-51) *)
Definition new_gru (inp out : nat) : gru := mkGru (new_gate inp out) (new_gate inp out) (new_gate inp out).
(** lstm.New (lstm.go:64-88) *)
Definition new_lstm (inp out : nat) : lstm := mkLstm (new_gate inp out) (new_gate inp out) (new_gate inp out) (new_gate inp out) false.

(** birnn.Model (birnn.go:34-39) *)
Record bi (A : Type) := mkBi { bi_pos : A; bi_neg : A; bi_merge : merge_type }.
Arguments mkBi {A}. Arguments bi_pos {A}. Arguments bi_neg {A}. Arguments bi_merge {A}.
(** builders.go:13-38 *)
Definition new_bilstm (input hidden : nat) (t : merge_type) : bi lstm := mkBi (new_lstm input hidden) (new_lstm input hidden) t.
Definition new_bigru (input hidden : nat) (t : merge_type) : bi gru := mkBi (new_gru input hidden) (new_gru input hidden) t.
Definition new_bibilstm (input hidden : nat) (t : merge_type) : list (bi lstm) :=
  [new_bilstm input hidden MConcat; new_bilstm (hidden * 2) hidden t].

(** birnn.Model.Forward (birnn.go:52-74) with such networks *)
Definition bilstm_forward (wide : bool) (m : bi lstm) (xs : list mat) : option (list mat) :=
  birnn_forward (lstm_forward wide (bi_pos m)) (lstm_forward wide (bi_neg m)) (bi_merge m) xs.
Definition bigru_forward (wide : bool) (m : bi gru) (xs : list mat) : option (list mat) :=
  birnn_forward (gru_forward wide (bi_pos m)) (gru_forward wide (bi_neg m)) (bi_merge m) xs.
