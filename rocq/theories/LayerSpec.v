(** * What the feed-forward layers compute *)
From Coq Require Import Reals List Arith Bool.
From Verif Require Import DenseModel DenseSpec GradModel GradSpec OpsSpec AttModel AttSpec ActSpec LayerModel.
Import ListNotations.
Open Scope nat_scope.

(** an activation that takes no parameters and acts on each entry, with its function *)
Definition plain (a : Z) (f : R -> R) : Prop := exists k, In k entrywise /\ number k = a /\ arity k = 0 /\ f = func k [].
(** f on every entry of a vector of n elements *)
Definition acted (n : nat) (f : R -> R) (x : mat) : mat := vec n (fun k => f (entry x k)).
(** n elements of x from the o-th on *)
Definition part (n o : nat) (x : mat) : mat := vec n (fun k => entry x (o + k)).
Definition plus (n : nat) (x y : mat) : mat := vec n (fun k => (entry x k + entry y k)%R).

(** layer normalization of a vector of n elements *)
Definition norm_fits (m : lnorm) (n : nat) (e : R) : Prop := is_vec n (ln_w m) /\ is_vec n (ln_b m) /\ ln_eps m = scalar e.
Definition normed (n : nat) (e : R) (m : lnorm) (x : mat) : mat :=
  vec n (fun k => ((entry x k - mean x) / sqrt (variance x + e) * entry (ln_w m) k + entry (ln_b m) k)%R).

(** highway: how much of the layer's output goes through, and the mixture *)
Definition through (n : nat) (m : highway) (x : mat) (k : nat) : R := (1 / (1 + exp (- entry (layer n (hw_t m) x) k)))%R.
Definition highway_output (n : nat) (f : R -> R) (m : highway) (x : mat) : mat :=
  vec n (fun k => (through n m x k * f (entry (layer n (hw_in m) x) k) + (1 - through n m x k) * entry x k)%R).

(** the spatial gating unit on l inputs of 2n elements: the lower halves, normalized, are
    mixed across the sequence and gate the upper halves *)
Definition sgu_fits (m : sgu) (n l : nat) (e : R) (f : R -> R) : Prop :=
  norm_fits (sgu_norm m) n e /\ fits (sgu_w m) l l /\ is_vec l (sgu_b m) /\ sgu_seq m = l /\ plain (sgu_act m) f.
Definition sgu_output (n : nat) (e : R) (f : R -> R) (m : sgu) (xs : list mat) (i : nat) : mat :=
  vec n (fun k => (f (Rsum (length xs) (fun j => rget (sgu_w m) i j * entry (normed n e (sgu_norm m) (part n n (kth xs j))) k) + entry (sgu_b m) i)
                   * entry (kth xs i) k)%R).

(** one gMLP layer on l vectors of d elements, 2n between its two linear layers; [gelu_of] is GELU *)
Definition gelu_of (v : R) : R := (v / 2 * (1 + tanh (sqrt (2 / PI) * (v + 44715 / 1000000 * v ^ 3))))%R.
Definition gblock_fits (m : gblock) (d n l : nat) (e1 e2 : R) (f : R -> R) : Prop :=
  norm_fits (gb_norm m) d e1 /\ linear_fits (gb_in m) (2 * n) d /\ sgu_fits (gb_sgu m) n l e2 f /\ linear_fits (gb_out m) d n.
Definition gblock_output (d n : nat) (e1 e2 : R) (f : R -> R) (m : gblock) (xs : list mat) : list mat :=
  let us := map (fun x => acted (2 * n) gelu_of (layer (2 * n) (gb_in m) (normed d e1 (gb_norm m) x))) xs in
  map (fun i => plus d (layer d (gb_out m) (sgu_output n e2 f (gb_sgu m) us i)) (kth xs i)) (seq 0 (length xs)).
(** the inputs followed by vectors of zeros, l in all *)
Definition filled (d l : nat) (xs : list mat) : list mat := xs ++ repeat (vec d (fun _ => 0%R)) (l - length xs).

(** a two-layer network from n to n elements through h *)
Definition ff_fits (m : feedforward) (n h : nat) (f : R -> R) : Prop :=
  linear_fits (ff_in m) h n /\ linear_fits (ff_out m) n h /\ plain (ff_act m) f.
Definition ff_output (n h : nat) (f : R -> R) (m : feedforward) (x : mat) : mat := layer n (ff_out m) (acted h f (layer h (ff_in m) x)).
(** the d-th elements of the vectors xs *)
Definition across (xs : list mat) (d : nat) : mat := vec (length xs) (fun i => entry (kth xs i) d).
(** the mixer block: first across the sequence for each element, then across the elements of each vector *)
Definition mixer_fits (m : mixer) (d l h1 h2 : nat) (e1 e2 : R) (f1 f2 : R -> R) : Prop :=
  mx_channels m = l /\ norm_fits (mx_tnorm m) d e1 /\ ff_fits (mx_tff m) l h1 f1 /\ norm_fits (mx_cnorm m) d e2 /\ ff_fits (mx_cff m) d h2 f2.
Definition token_mixed (d h1 : nat) (e1 : R) (f1 : R -> R) (m : mixer) (xs : list mat) (i : nat) : mat :=
  vec d (fun k => (entry (ff_output (length xs) h1 f1 (mx_tff m) (across (map (normed d e1 (mx_tnorm m)) xs) k)) i + entry (kth xs i) k)%R).
Definition mixer_output (d h1 h2 : nat) (e1 e2 : R) (f1 f2 : R -> R) (m : mixer) (xs : list mat) (i : nat) : mat :=
  let x := token_mixed d h1 e1 f1 m xs i in plus d (ff_output d h2 f2 (mx_cff m) (normed d e2 (mx_cnorm m) x)) x.
