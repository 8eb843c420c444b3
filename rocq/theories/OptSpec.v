(** * What optimizers, decays and clippers should do *)
From Coq Require Import Reals List Arith ZArith Bool.
From Verif Require Import DenseModel DenseSpec ArithSpec GradModel GradSpec OptModel.
Import ListNotations.
Open Scope R_scope.

(** A training history: before update k the parameter is given the gradient g k;
    update k is made by [opt k] (whose settings may change over time). *)
Definition with_grad (p : param) (g : mat) : param := mkParam (p_value p) (Some g) (p_state p).
Fixpoint run (opt : nat -> param -> outcome param) (g : nat -> mat) (n : nat) (p : param) : outcome param :=
  match n with
  | O => OK p
  | S n => match run opt g n p with OK p' => opt n (with_grad p' (g n)) | e => e end
  end.
(** a new parameter, nn.NewParam *)
Definition new_param (x : mat) : param := mkParam x None None.

(** The exponentially weighted sum of f 0 .. f (n-1), the last with weight 1. *)
Definition weighted (b : R) (f : nat -> R) (n : nat) : R := Rsum n (fun k => b ^ (n - 1 - k) * f k).
(** The exponential moving average. *)
Definition average (b : R) (f : nat -> R) (n : nat) : R := (1 - b) * weighted b f n.

(** the 2-norm of the elements f i j *)
Definition norm2 (r c : nat) (f : nat -> nat -> R) : R := sqrt (Rsum r (fun i => Rsum c (fun j => f i j ^ 2))).

(** Successive values p, p' of the parameter: after n and after n+1 updates. *)
Definition successive (opt : nat -> param -> outcome param) (g : nat -> mat) (x0 : mat) (n : nat) (x x' : mat) : Prop :=
  exists p p', run opt g n (new_param x0) = OK p /\ run opt g (S n) (new_param x0) = OK p' /\
    p_value p = x /\ p_value p' = x' /\ p_grad p = None /\ p_grad p' = None.

(** The direction of Adam, AdamW and LAMB for an entry with gradients f 0, f 1, ...
    and current value w. *)
Definition adam_direction (b1 b2 eps lambda : R) (f : nat -> R) (n : nat) (w : R) : R :=
  average b1 f n / (sqrt (average b2 (fun k => f k ^ 2) n) + eps) + lambda * w.
(** LAMB's trust ratio: 1 if one of the norms is zero. *)
Definition trust (wn dn : R) : R := if Req_EM_T wn 0 then 1 else if Req_EM_T dn 0 then 1 else wn / dn.
(** The history of the gradient of entry (i, j). *)
Definition entry (g : nat -> mat) (i j k : nat) : R := rget (g k) i j.

(** The learning rate after the calls Decay(lr, 1), ..., Decay(lr, n), each given the
    result of the one before, the first the initial rate. *)
Fixpoint rates (decay : R -> Z -> option R) (init : R) (n : nat) : option R :=
  match n with
  | O => Some init
  | S k => match rates decay init k with Some lr => decay lr (Z.of_nat (S k)) | None => None end
  end.

(** All elements of the gradients of the parameters. *)
Definition gradients (ps : list param) : list R := flat_map (fun p => match p_grad p with Some g => data g | None => [] end) ps.
(** |x|^q, zero for x = 0 *)
Definition abspow (x q : R) : R := if Req_EM_T x 0 then 0 else Rpower (Rabs x) q.
(** the q-norm (sum |x|^q)^(1/q) *)
Definition qnorm (q : R) (xs : list R) : R := abspow (fold_right Rplus 0 (map (fun x => abspow x q) xs)) (1 / q).
(** the infinity norm: the least upper bound of 0 and the |x| *)
Definition maxnorm (n : R) (xs : list R) : Prop := (forall x, In x xs -> Rabs x <= n) /\ (n = 0 \/ exists x, In x xs /\ Rabs x = n).
(** n is the norm of the given type ([None]: infinity). *)
Definition is_norm (norm_type : option R) (n : R) (xs : list R) : Prop :=
  match norm_type with Some q => n = qnorm q xs | None => 0 <= n /\ maxnorm n xs end.
(** The same parameters, but for the gradients, which become f of what they were. *)
Definition graded (f : R -> R) (p p' : param) : Prop :=
  p_value p' = p_value p /\ p_state p' = p_state p /\
  exists g g', p_grad p = Some g /\ p_grad p' = Some g' /\ same_shape g g' /\ data g' = map f (data g).
Definition has_grad (p : param) : Prop := exists g, p_grad p = Some g /\ wf g.
