(** * What the sentence-state LSTM computes *)
From Coq Require Import Reals List Arith Bool.
From Verif Require Import DenseModel DenseSpec GradModel GradSpec OpsSpec AttSpec RnnSpec SlstmModel.
Import ListNotations.
Open Scope nat_scope.

(** the k-th element of w x *)
Definition row_times (w x : mat) (k : nat) : R := Rsum (rows x) (fun j => (rget w k j * entry x j)%R).
(** the k-th element of b + W context + V g + U x, where [v] is the matrix that multiplies g *)
Definition gate4 (h : hyper4) (v context g x : mat) (k : nat) : R :=
  (entry (h4_b h) k + row_times (h4_w h) context k + row_times v g k + row_times (h4_u h) x k)%R.
Definition gate3 (h : hyper3) (g y : mat) (k : nat) : R := (entry (h3_b h) k + row_times (h3_w h) g k + row_times (h3_u h) y k)%R.

(** The state of a sentence: hidden vectors, cells and the sentence vector. *)
Definition left_of (start : mat) (l : list mat) (i : nat) : mat := if i =? 0 then start else kth l (i - 1).
Definition right_of (stop : mat) (l : list mat) (i : nat) : mat := if length l <=? i + 1 then stop else kth l (i + 1).
Definition window (m : slstm) (h : list mat) (i : nat) : mat :=
  column (data (left_of (sl_start m) h i) ++ data (kth h i) ++ data (right_of (sl_end m) h i)).
(** the new cell and hidden vector of the i-th word; [vu] is the matrix that multiplies g in the candidate *)
Definition new_cell (vu : mat) (m : slstm) (n : nat) (xs h c : list mat) (g : mat) (i : nat) : mat :=
  let ctx := window m h i in let x := kth xs i in
  let gate a k := logistic (gate4 a (h4_v a) ctx g x k) in
  vec n (fun k =>
    gate (sl_left m) k * entry (left_of (sl_start m) c i) k + gate (sl_cell m) k * entry (kth c i) k +
    gate (sl_right m) k * entry (right_of (sl_end m) c i) k + gate (sl_sent m) k * entry g k +
    gate (sl_input m) k * tanh (gate4 (sl_act m) vu ctx g x k))%R.
Definition new_hidden (vu : mat) (m : slstm) (n : nat) (xs h c : list mat) (g : mat) (i : nat) : mat :=
  vec n (fun k => logistic (gate4 (sl_output m) (h4_v (sl_output m)) (window m h i) g (kth xs i) k) * tanh (entry (new_cell vu m n xs h c g i) k))%R.
(** the new sentence vector *)
Definition average (h : list mat) (n : nat) : mat := vec n (fun k => Rsum (length h) (fun i => entry (kth h i) k) / INR (length h))%R.
Definition new_sentence (m : slstm) (n : nat) (h c : list mat) (g : mat) : mat :=
  vec n (fun k =>
    logistic (gate3 (sl_nl_output m) g (average h n) k) *
    tanh (logistic (gate3 (sl_nl_sent m) g (average h n) k) * entry g k +
          Rsum (length h) (fun i => logistic (gate3 (sl_nl_input m) g (kth h i) k) * entry (kth c i) k)))%R.
Fixpoint sentence (vu : mat) (m : slstm) (n : nat) (xs : list mat) (rounds : nat) : list mat * list mat * mat :=
  match rounds with
  | O => (repeat (sl_init m) (length xs), repeat (sl_init m) (length xs), sl_init m)
  | S rounds =>
      let '(h, c, g) := sentence vu m n xs rounds in
      (map (new_hidden vu m n xs h c g) (seq 0 (length xs)), map (new_cell vu m n xs h c g) (seq 0 (length xs)), new_sentence m n h c g)
  end.

(** the shapes New gives the parameters for inputs of size d and outputs of size n *)
Definition h4_fits (h : hyper4) (d n : nat) : Prop := fits (h4_w h) n (n * 3) /\ fits (h4_u h) n d /\ fits (h4_v h) n n /\ fits (h4_b h) n 1.
Definition h3_fits (h : hyper3) (n : nat) : Prop := fits (h3_w h) n n /\ fits (h3_u h) n n /\ fits (h3_b h) n 1.
Definition slstm_fits (m : slstm) (d n : nat) : Prop :=
  h4_fits (sl_input m) d n /\ h4_fits (sl_left m) d n /\ h4_fits (sl_right m) d n /\ h4_fits (sl_cell m) d n /\ h4_fits (sl_sent m) d n /\ h4_fits (sl_output m) d n /\
  h4_fits (sl_act m) d n /\ h3_fits (sl_nl_sent m) n /\ h3_fits (sl_nl_input m) n /\ h3_fits (sl_nl_output m) n /\
  is_vec n (sl_start m) /\ is_vec n (sl_end m) /\ is_vec n (sl_init m).
