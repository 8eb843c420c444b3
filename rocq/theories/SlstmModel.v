(** * Sentence-state LSTM: nn/gnn/slstm, over real numbers *)
From Coq Require Import Reals List Arith Bool ZArith.
From Verif Require Import DenseModel ArithModel GradModel OpsModel.
Import ListNotations.
Open Scope nat_scope.

Section Slstm.
Variable wide : bool.  (* which of the two product kernels runs, see ArithModel *)

(** HyperLinear4, HyperLinear3, Model (slstm.go:22-69); Config.Steps is a field *)
Record hyper4 := mkH4 { h4_w : mat; h4_u : mat; h4_v : mat; h4_b : mat }.
Record hyper3 := mkH3 { h3_w : mat; h3_u : mat; h3_b : mat }.
Record slstm := mkSlstm {
  sl_steps : nat;
  sl_input : hyper4; sl_left : hyper4; sl_right : hyper4; sl_cell : hyper4; sl_sent : hyper4; sl_output : hyper4; sl_act : hyper4;
  sl_nl_sent : hyper3; sl_nl_input : hyper3; sl_nl_output : hyper3;
  sl_start : mat; sl_end : mat; sl_init : mat }.

Definition mul (w x : mat) : option mat := fwd (mul_fn wide) [w; x].
Definition affine2 (b w x u y : mat) : option mat := fwd (affine_fn wide) [b; w; x; u; y].

(** computeUx (slstm.go:151-172): for each input, in the order i l r f s o u *)
Record seven := mkSeven { v_i : mat; v_l : mat; v_r : mat; v_f : mat; v_s : mat; v_o : mat; v_u : mat }.
Definition compute_ux1 (m : slstm) (x : mat) : option seven :=
  do i <- mul (h4_u (sl_input m)) x; do l <- mul (h4_u (sl_left m)) x; do r <- mul (h4_u (sl_right m)) x;
  do f <- mul (h4_u (sl_cell m)) x; do s <- mul (h4_u (sl_sent m)) x; do o <- mul (h4_u (sl_output m)) x;
  do u <- mul (h4_u (sl_act m)) x;
  Some (mkSeven i l r f s o u).
(** computeVg (slstm.go:174-182): the last product takes U, not V *)
Definition compute_vg (m : slstm) (g : mat) : option seven :=
  do i <- mul (h4_v (sl_input m)) g; do l <- mul (h4_v (sl_left m)) g; do r <- mul (h4_v (sl_right m)) g;
  do f <- mul (h4_v (sl_cell m)) g; do s <- mul (h4_v (sl_sent m)) g; do o <- mul (h4_v (sl_output m)) g;
  do u <- mul (h4_u (sl_act m)) g;
  Some (mkSeven i l r f s o u).

(** processNode (slstm.go:219-260) *)
Definition gate_sum (h : hyper4) (context vg xu : mat) : option mat :=
  do wc <- mul (h4_w h) context; ag_sum [h4_b h; wc; vg; xu].
Definition process_node (m : slstm) (ux vg : seven) (i : nat) (prevH prevC : list mat) (prevG : mat) : option (mat * mat) :=
  do left <- (if i =? 0 then Some (sl_start m, sl_start m) else do h <- nth_error prevH (i - 1); do c <- nth_error prevC (i - 1); Some (h, c));
  do right <- (if length prevH - 1 <? i + 1 then Some (sl_end m, sl_end m) else do h <- nth_error prevH (i + 1); do c <- nth_error prevC (i + 1); Some (h, c));
  do hi <- nth_error prevH i;
  do ci <- nth_error prevC i;
  do context <- fwd concat_fn [fst left; hi; fst right];
  do ai <- gate_sum (sl_input m) context (v_i vg) (v_i ux); do iG <- fwd sigmoid_fn [ai];
  do al <- gate_sum (sl_left m) context (v_l vg) (v_l ux); do lG <- fwd sigmoid_fn [al];
  do ar <- gate_sum (sl_right m) context (v_r vg) (v_r ux); do rG <- fwd sigmoid_fn [ar];
  do af <- gate_sum (sl_cell m) context (v_f vg) (v_f ux); do fG <- fwd sigmoid_fn [af];
  do as_ <- gate_sum (sl_sent m) context (v_s vg) (v_s ux); do sG <- fwd sigmoid_fn [as_];
  do ao <- gate_sum (sl_output m) context (v_o vg) (v_o ux); do oG <- fwd sigmoid_fn [ao];
  do au <- gate_sum (sl_act m) context (v_u vg) (v_u ux); do uG <- fwd tanh_fn [au];
  do c1 <- fwd prod_fn [lG; snd left];
  do c2 <- fwd prod_fn [fG; ci];
  do c3 <- fwd prod_fn [rG; snd right];
  do c4 <- fwd prod_fn [sG; prevG];
  do c5 <- fwd prod_fn [iG; uG];
  do c <- ag_sum [c1; c2; c3; c4; c5];
  do t <- fwd tanh_fn [c];
  do h <- fwd prod_fn [oG; t];
  Some (h, c).
(** updateHiddenNodes (slstm.go:184-192) *)
Definition update_hidden (m : slstm) (uxs : list seven) (vg : seven) (prevH prevC : list mat) (prevG : mat) : option (list (mat * mat)) :=
  each (fun i => do ux <- nth_error uxs i; process_node m ux vg i prevH prevC prevG) (seq 0 (length prevH)).

(** updateSentenceState (slstm.go:194-217): the first of its two results; the other,
    the cell, is stored by Forward and never read *)
Definition update_sentence (m : slstm) (prevH prevC : list mat) (prevG : mat) : option mat :=
  do avg <- ag_mean prevH;
  do af <- affine2 (h3_b (sl_nl_sent m)) (h3_w (sl_nl_sent m)) prevG (h3_u (sl_nl_sent m)) avg; do fG <- fwd sigmoid_fn [af];
  do ao <- affine2 (h3_b (sl_nl_output m)) (h3_w (sl_nl_output m)) prevG (h3_u (sl_nl_output m)) avg; do oG <- fwd sigmoid_fn [ao];
  do gG <- fwd (affine_fn wide) [h3_b (sl_nl_input m); h3_w (sl_nl_input m); prevG];
  do hG <- each (fun h => do uh <- mul (h3_u (sl_nl_input m)) h; do a <- fwd add_fn [gG; uh]; fwd sigmoid_fn [a]) prevH;
  do sum <- fold_opt (fun s '(h, c) => do p <- fwd prod_fn [h; c]; do s <- ag_add s p; Some (Some s)) (combine hG prevC) None;
  do fg <- fwd prod_fn [fG; prevG];
  do cg <- match sum with Some s => fwd add_fn [fg; s] | None => None end;
  do t <- fwd tanh_fn [cg];
  fwd prod_fn [oG; t].

(** Forward (slstm.go:121-149): [steps] rounds remain.  h[0] panics if Steps is 0. *)
Fixpoint rounds (m : slstm) (uxs : list seven) (steps : nat) (h c : list mat) (g : mat) : option (list mat) :=
  match steps with
  | O => Some h
  | S steps =>
      do vg <- compute_vg m g;
      do hc <- update_hidden m uxs vg h c g;
      do g' <- update_sentence m h c g;
      rounds m uxs steps (map fst hc) (map snd hc) g'
  end.
Definition slstm_forward (m : slstm) (xs : list mat) : option (list mat) :=
  match sl_steps m with
  | O => None
  | S steps =>
      do uxs <- each (compute_ux1 m) xs;
      let init := repeat (sl_init m) (length xs) in
      rounds m uxs steps init init (sl_init m)
  end.
End Slstm.
