(** * What the recurrent networks compute *)
From Coq Require Import Reals List Arith Bool.
From Verif Require Import DenseModel DenseSpec GradModel GradSpec OpsSpec AttSpec RnnModel.
Import ListNotations.
Open Scope nat_scope.

(** the logistic function *)
Definition logistic (v : R) : R := (1 / (1 + exp (- v)))%R.
(** the k-th element of b + w x + wRec y, without the last term if there is no y *)
Definition pre (g : gate) (x : mat) (y : option mat) (k : nat) : R :=
  (entry (g_b g) k + Rsum (rows x) (fun j => rget (g_w g) k j * entry x j) +
   match y with Some y => Rsum (rows y) (fun j => rget (g_rec g) k j * entry y j) | None => 0 end)%R.
Definition old (y : option mat) (k : nat) : R := match y with Some y => entry y k | None => 0%R end.

(** one step: the new output (and cell) from the previous one, if any, and the input *)
Definition srn_step (n : nat) (m : gate) (y : option mat) (x : mat) : mat := vec n (fun k => tanh (pre m x y k)).
Definition gru_step (n : nat) (m : gru) (y : option mat) (x : mat) : mat :=
  let r k := logistic (pre (gru_res m) x y k) in
  let p k := logistic (pre (gru_part m) x y k) in
  let c k := tanh (pre (gru_cand m) x (option_map (fun y => vec n (fun j => entry y j * r j)%R) y) k) in
  vec n (fun k => p k * c k + (1 - p k) * old y k)%R.
Definition lstm_step (n : nat) (m : lstm) (s : option (mat * mat)) (x : mat) : mat * mat :=
  let y := option_map snd s in
  let refine v k := if ls_refined m then (v * entry x k)%R else v in
  let cell k := (refine (logistic (pre (ls_in m) x y k)) k * tanh (pre (ls_cand m) x y k) +
                 match s with Some (c, _) => logistic (pre (ls_for m) x y k) * entry c k | None => 0 end)%R in
  (vec n cell, vec n (fun k => refine (logistic (pre (ls_out m) x y k)) k * tanh (cell k))%R).

(** the state after a sequence of inputs, starting without one *)
Definition after {S} (step : option S -> mat -> S) (xs : list mat) : option S := fold_left (fun s x => Some (step s x)) xs None.
Definition srn_output n m xs : option mat := after (srn_step n m) xs.
Definition gru_output n m xs : option mat := after (gru_step n m) xs.
Definition lstm_output n m xs : option mat := option_map snd (after (lstm_step n m) xs).

(** gates of n outputs for inputs of size d *)
Definition gate_fits (g : gate) (n d : nat) : Prop := fits (g_w g) n d /\ fits (g_rec g) n n /\ fits (g_b g) n 1.
Definition gru_fits (m : gru) (n d : nat) : Prop := gate_fits (gru_part m) n d /\ gate_fits (gru_res m) n d /\ gate_fits (gru_cand m) n d.
Definition lstm_fits (m : lstm) (n d : nat) : Prop :=
  gate_fits (ls_in m) n d /\ gate_fits (ls_out m) n d /\ gate_fits (ls_for m) n d /\ gate_fits (ls_cand m) n d /\ (ls_refined m = true -> n = d).

(** f gives, for every sequence of vectors of size d, at every position the value h has for the inputs up to it *)
Definition causal_by (d : nat) (f : list mat -> option (list mat)) (h : list mat -> option mat) : Prop :=
  forall xs, List.Forall (is_vec d) xs ->
  exists ys, f xs = Some ys /\ length ys = length xs /\ forall i, i < length xs -> nth_error ys i = h (firstn (S i) xs).

(** two outputs merged *)
Definition merged (t : merge_type) (n : nat) (a b : mat) : mat :=
  match t with
  | MConcat => column (data a ++ data b)
  | MSum => vec n (fun k => entry a k + entry b k)%R
  | MProd => vec n (fun k => entry a k * entry b k)%R
  | MAvg => vec n (fun k => (entry a k + entry b k) / 2)%R
  end.
