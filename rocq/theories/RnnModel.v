(** * Recurrent networks: nn/recurrent/{srn,gru,lstm}, nn/birnn, over real numbers

    Node values only; Add and Affine run asynchronously, with the values FwdModel
    shows.  [None] is a panic. *)
From Coq Require Import Reals List Arith Bool ZArith.
From Verif Require Import DenseModel ArithModel GradModel OpsModel.
Import ListNotations.
Open Scope nat_scope.

(** The loop of every Forward (srn.go:44-52, gru.go:63-71, lstm.go:111-119): all the
    states, in order *)
Fixpoint run {S} (next : option S -> mat -> option S) (s : option S) (xs : list mat) : option (list S) :=
  match xs with
  | [] => Some []
  | x :: xs => do s' <- next s x; do rest <- run next (Some s') xs; Some (s' :: rest)
  end.

Section Rnn.
Variable wide : bool.  (* which of the two product kernels runs, see ArithModel *)

(** the parameters of one gate, and ag.Affine(b, w, x, wRec, yPrev) where yPrev may be
    nil, in which case NewAffine leaves the pair out (mat/gradfn/affine.go:38-60) *)
Record gate := mkGate { g_w : mat; g_rec : mat; g_b : mat }.
Definition gate_affine (g : gate) (x : mat) (y : option mat) : option mat :=
  fwd (affine_fn wide) (g_b g :: g_w g :: x :: match y with Some y => [g_rec g; y] | None => [] end).

(** srn.Model.Next, Forward (srn.go:44-66); the state is its only field Y *)
Definition srn_next (m : gate) (s : option mat) (x : mat) : option mat :=
  do a <- gate_affine m x s; fwd tanh_fn [a].
Definition srn_forward (m : gate) (xs : list mat) : option (list mat) := run (srn_next m) None xs.

(** gru.Model, State, Next, Forward (gru.go:20-101) *)
Record gru := mkGru { gru_part : gate; gru_res : gate; gru_cand : gate }.
Record gru_state := mkGruState { gs_r : mat; gs_p : mat; gs_c : mat; gs_y : mat }.
Definition try_prod (a : option mat) (b : mat) : option (option mat) :=
  match a with Some a => do p <- fwd prod_fn [a; b]; Some (Some p) | None => Some None end.
Definition gru_next (m : gru) (s : option gru_state) (x : mat) : option gru_state :=
  let yPrev := option_map gs_y s in
  do ar <- gate_affine (gru_res m) x yPrev;
  do r <- fwd sigmoid_fn [ar];
  do ap <- gate_affine (gru_part m) x yPrev;
  do p <- fwd sigmoid_fn [ap];
  do yr <- try_prod yPrev r;
  do ac <- gate_affine (gru_cand m) x yr;
  do c <- fwd tanh_fn [ac];
  do y <- fwd prod_fn [p; c];
  match yPrev with
  | None => Some (mkGruState r p c y)
  | Some yp =>
      do q <- fwd reverse_sub_fn [p; scalar 1%R];
      do qy <- fwd prod_fn [q; yp];
      do y <- fwd add_fn [y; qy];
      Some (mkGruState r p c y)
  end.
Definition gru_forward (m : gru) (xs : list mat) : option (list mat) :=
  do ss <- run (gru_next m) None xs; Some (map gs_y ss).

(** lstm.Model, State, Next, Forward (lstm.go:22-154) *)
Record lstm := mkLstm { ls_in : gate; ls_out : gate; ls_for : gate; ls_cand : gate; ls_refined : bool }.
Record lstm_state := mkLstmState { st_in : mat; st_out : mat; st_for : mat; st_cand : mat; st_cell : mat; st_y : mat }.
Definition lstm_next (m : lstm) (s : option lstm_state) (x : mat) : option lstm_state :=
  let yPrev := option_map st_y s in
  let cellPrev := option_map st_cell s in
  do ai <- gate_affine (ls_in m) x yPrev;
  do inG <- fwd sigmoid_fn [ai];
  do ao <- gate_affine (ls_out m) x yPrev;
  do outG <- fwd sigmoid_fn [ao];
  do af <- gate_affine (ls_for m) x yPrev;
  do forG <- fwd sigmoid_fn [af];
  do ac <- gate_affine (ls_cand m) x yPrev;
  do cand <- fwd tanh_fn [ac];
  do inG <- (if ls_refined m then fwd prod_fn [inG; x] else Some inG);
  do outG <- (if ls_refined m then fwd prod_fn [outG; x] else Some outG);
  do cell <- match cellPrev with
             | Some cp => do a <- fwd prod_fn [inG; cand]; do b <- fwd prod_fn [forG; cp]; fwd add_fn [a; b]
             | None => fwd prod_fn [inG; cand]
             end;
  do t <- fwd tanh_fn [cell];
  do y <- fwd prod_fn [outG; t];
  Some (mkLstmState inG outG forG cand cell y).
Definition lstm_forward (m : lstm) (xs : list mat) : option (list mat) :=
  do ss <- run (lstm_next m) None xs; Some (map st_y ss).
End Rnn.

(** birnn.reversed (birnn.go:76-84): a copy, then swaps from both ends *)
Definition swap {A} (l : list A) (i j : nat) : list A :=
  match nth_error l i, nth_error l j with Some a, Some b => put (put l i b) j a | _, _ => l end.
Definition reversed {A} (ns : list A) : list A :=
  fold_left (fun r i => swap r i (length r - i - 1)) (seq 0 (length ns / 2)) ns.

(** MergeType and merge (birnn.go:17-27, 86-99) *)
Inductive merge_type := MConcat | MSum | MProd | MAvg.
Definition merge (t : merge_type) (a b : mat) : option mat :=
  match t with
  | MConcat => fwd concat_fn [a; b]
  | MSum => fwd add_fn [a; b]
  | MProd => fwd prod_fn [a; b]
  | MAvg => do s <- fwd add_fn [a; b]; fwd prod_scalar_fn [s; scalar 0.5%R]
  end.
(** birnn.Model.Forward (birnn.go:52-74).  The two goroutines each write one variable,
    read after both have ended, so what they compute does not depend on the schedule:
    [pos] and [neg] are the Forward of the two models, which share no state. *)
Definition birnn_forward (pos neg : list mat -> option (list mat)) (t : merge_type) (xs : list mat) : option (list mat) :=
  do ps <- pos xs;
  do ns <- neg (reversed xs);
  each (fun '(i, p) => do q <- nth_error ns (length ps - 1 - i); merge t p q) (combine (seq 0 (length ps)) ps).
