(** * C77: parameters own their values, gradients add up, buffers take none *)
From Coq Require Import List Arith Bool Lia.
From Verif Require Import ParamModel ParamSpec ParamProofs.
Import ListNotations.

Section Props.
Context {T S : Type}.
Variable add : T -> T -> T.
Variable conv : precision -> precision -> T -> T.
Notation state := (state T S).

(** After any history, NewParam of any matrix the program holds succeeds.  The parameter has the dimensions and the elements
    of that matrix, requires gradients, and has neither gradients nor optimizer state, whatever that matrix had; and nothing
    the program held before has changed. *)
Theorem C77_new_param : forall before (s : state) x i, run add conv start before = Some s -> resolve s x = Some i ->
  exists s', step add conv s (NewParam x) = Some s' /\
    (dims s' (Par (length (params s))) = dims s x /\ dims s x <> None /\
     elements s' (Par (length (params s))) = elements s x /\ elements s x <> None /\ precision_of s' (Par (length (params s))) = precision_of s x /\
     gradient s' (Par (length (params s))) = Some None /\ requires s' (Par (length (params s))) = Some true /\
     state_of s' (length (params s)) = Some None) /\
    (forall y, resolve s y <> None ->
       dims s' y = dims s y /\ elements s' y = elements s y /\ gradient s' y = gradient s y /\ requires s' y = requires s y) /\
    (forall k, k < length (params s) -> state_of s' k = state_of s k).
Proof.
  intros before s x i H R. assert (wf s) as W by (eapply wf_run; [apply wf_start|eassumption]).
  assert (exists t, nth_error (tensors s) i = Some t) as [t E].
  { destruct (nth_error (tensors s) i) eqn:Q; eauto. apply nth_error_None in Q. pose proof (wf_resolve _ _ _ W R). lia. }
  destruct (new_param_ok add conv s x i t W R E) as (s' & A & W' & O & B & P & SH & VA & BU & PP & TT).
  assert (tensor_at s x = Some t) as TX by (unfold tensor_at; now rewrite R).
  assert (tensor_at s' (Par (length (params s))) = Some (mkTensor (prec t) (shape_ref t) (data t) None true)) as TP by (now rewrite (tensor_at_par _ _ _ P)).
  exists s'. split; [exact A|]. split; [|split].
  - unfold dims, elements, gradient, requires, precision_of, state_of. rewrite TP, TX, P, SH. cbn. repeat split; try discriminate.
    intros Q. apply nth_error_None in Q. pose proof (wf_shapes _ W _ _ E). lia.
  - intros y Y. destruct (resolve s y) as [j|] eqn:RY; [|congruence].
    assert (resolve s' y = Some j) as RY'.
    { destruct y as [v|k]; cbn in *; [congruence|]. destruct (nth_error (params s) k) eqn:K; [|discriminate]. now rewrite (PP _ _ K). }
    assert (exists u, nth_error (tensors s) j = Some u) as [u U].
    { destruct (nth_error (tensors s) j) eqn:Q; eauto. apply nth_error_None in Q. pose proof (wf_resolve _ _ _ W RY). lia. }
    unfold dims, elements, gradient, requires, tensor_at. rewrite RY, RY', (TT _ _ U), U, SH. repeat split; auto.
    destruct (grad u) as [g|] eqn:G; auto. destruct (nth_error (tensors s) g) as [w|] eqn:V; [now rewrite (TT _ _ V)|].
    apply nth_error_None in V. pose proof (wf_grads _ W _ _ _ U G). lia.
  - intros k K. unfold state_of. destruct (nth_error (params s) k) as [p|] eqn:Q; [now rewrite (PP _ _ Q)|]. apply nth_error_None in Q. lia.
Qed.

(** Whatever the program does afterwards with the original matrix and with everything else, the elements, the gradient, the
    flag and the optimizer state of the parameter stay as they are until a call is made on the parameter itself; so do its
    dimensions, if no matrix is reshaped in place. *)
Theorem C77_owned_partial : forall before (s0 s s' : state) x after, run add conv start before = Some s0 -> step add conv s0 (NewParam x) = Some s ->
  existsb (changes (length (params s0))) after = false -> run add conv s after = Some s' ->
  elements s' (Par (length (params s0))) = elements s (Par (length (params s0))) /\
  gradient s' (Par (length (params s0))) = gradient s (Par (length (params s0))) /\
  requires s' (Par (length (params s0))) = requires s (Par (length (params s0))) /\
  state_of s' (length (params s0)) = state_of s (length (params s0)) /\
  (existsb reshapes after = false -> dims s' (Par (length (params s0))) = dims s (Par (length (params s0)))).
Proof.
  intros before s0 s s' x after H N X A. assert (wf s0) as W by (eapply wf_run; [apply wf_start|eassumption]).
  assert (exists i t, resolve s0 x = Some i /\ nth_error (tensors s0) i = Some t) as (i & t & R & E).
  { cbn in N. unfold on in N. destruct (resolve s0 x) as [i|]; [|discriminate]. unfold new_param in N. destruct (nth_error (tensors s0) i) eqn:E; [|discriminate]. eauto. }
  destruct (new_param_ok add conv s0 x i t W R E) as (s1 & A1 & W' & O & B & P & SH & VA & BU & PP & TT). assert (s1 = s) by congruence; subst s1.
  set (k := length (params s0)) in *. destruct (keep_run add conv k _ after _ _ W' O X A) as (C & D & O').
  assert (nth_error (params s') k = Some (mkParam (length (tensors s0)) None)) as P' by congruence.
  unfold dims, elements, requires, state_of. rewrite (tensor_at_par _ _ _ P), (tensor_at_par _ _ _ P'), P, P'. cbn [matrix]. rewrite C, B.
  split; [reflexivity|]. split; [|split; [reflexivity|split; [reflexivity|]]].
  - unfold gradient. rewrite (tensor_at_par _ _ _ P), (tensor_at_par _ _ _ P'). cbn [matrix]. now rewrite C, B.
  - intros Q. cbn [shape_ref]. destruct (nth_error (shapes s) (shape_ref t)) as [z|] eqn:Z; [eapply shapes_run; eauto|].
    apply nth_error_None in Z. rewrite SH in Z. pose proof (wf_shapes _ W _ _ E). lia.
Qed.

(** Through any later history in which the program does not take the matrix or the gradient of the parameter out of it, the
    elements of the parameter are those last written to it by a call on the parameter or by an optimizer, its flag is the one
    last set on it and its state the one the last update left. *)
Theorem C77_value : forall before (s0 s s' : state) x after e, run add conv start before = Some s0 -> step add conv s0 (NewParam x) = Some s ->
  existsb (exposes (length (params s0))) after = false -> run add conv s after = Some s' -> elements s0 x = Some e ->
  elements s' (Par (length (params s0))) = Some (latest (written (length (params s0))) after e) /\
  requires s' (Par (length (params s0))) = Some (latest (flagged (length (params s0))) after true) /\
  state_of s' (length (params s0)) = Some (latest (stated (length (params s0))) after None).
Proof.
  intros before s0 s s' x after e H N X A EL. assert (wf s0) as W by (eapply wf_run; [apply wf_start|eassumption]).
  assert (exists i t, resolve s0 x = Some i /\ nth_error (tensors s0) i = Some t) as (i & t & R & E).
  { cbn in N. unfold on in N. destruct (resolve s0 x) as [i|]; [|discriminate]. unfold new_param in N. destruct (nth_error (tensors s0) i) eqn:E; [|discriminate]. eauto. }
  destruct (new_param_ok add conv s0 x i t W R E) as (s1 & A1 & W' & O & B & P & _). assert (s1 = s) by congruence; subst s1.
  assert (data t = e) as <- by (unfold elements, tensor_at in EL; rewrite R, E in EL; cbn in EL; congruence).
  destruct (value_run add conv _ _ after _ _ _ _ W' O X A B P) as (t' & p' & E' & P' & M & D & F & G).
  unfold elements, requires, state_of. rewrite (tensor_at_par _ _ _ P'), M, E', P'. cbn. rewrite D, F, G. auto.
Qed.

(** Through any later history in which the program does not take the matrix or the gradient of the parameter out of it, the
    gradient of the parameter is the sum of the gradients given to it since it was last zeroed, each as it was when it was
    given; and there is none if none was given.  Updates, flags and what happens to the given matrices make no difference. *)
Theorem C77_gradient : forall before (s0 s s' : state) x after, run add conv start before = Some s0 -> step add conv s0 (NewParam x) = Some s ->
  existsb (exposes (length (params s0))) after = false -> run add conv s after = Some s' ->
  gradient s' (Par (length (params s0))) = Some (total add (since_zero add conv (length (params s0)) s after [])) /\
  has_grad s' (Par (length (params s0))) = Some (negb (length (since_zero add conv (length (params s0)) s after []) =? 0)).
Proof.
  intros before s0 s s' x after H N X A. assert (wf s0) as W by (eapply wf_run; [apply wf_start|eassumption]).
  assert (exists i t, resolve s0 x = Some i /\ nth_error (tensors s0) i = Some t) as (i & t & R & E).
  { cbn in N. unfold on in N. destruct (resolve s0 x) as [i|]; [|discriminate]. unfold new_param in N. destruct (nth_error (tensors s0) i) eqn:E; [|discriminate]. eauto. }
  destruct (new_param_ok add conv s0 x i t W R E) as (s1 & A1 & W' & O & B & P & _). assert (s1 = s) by congruence; subst s1.
  set (k := length (params s0)) in *. assert (gr s (length (tensors s0)) = Some (total add [])) as G by (unfold gr; now rewrite B).
  destruct (gr_run add conv k _ after _ _ [] W' O X A G) as (C & O'). pose proof (gradient_par _ _ _ O') as D. rewrite C in D. split; [exact D|].
  unfold gradient in D. unfold has_grad. destruct (tensor_at s' (Par k)) as [u|]; [|discriminate]. cbn. destruct (since_zero add conv k s after []) as [|d ds]; cbn in D |- *.
  - destruct (grad u) as [g|]; [|reflexivity]. destruct (nth_error (tensors s') g); discriminate.
  - destruct (grad u); [reflexivity|discriminate].
Qed.

(** Giving a gradient to any matrix or parameter succeeds exactly when it has none yet and the gradient is of its precision, or
    when it has one and the gradient has the dimensions of that; otherwise the call panics. *)
Theorem C77_acc_grad : forall before (s : state) x g i j, run add conv start before = Some s -> resolve s x = Some i -> resolve s g = Some j ->
  (step add conv s (AccGrad x g) <> None <->
    (has_grad s x = Some false /\ precision_of s x = precision_of s g) \/ (has_grad s x = Some true /\ gradient_dims s x = dims s g)).
Proof.
  intros before s x g i j H R J. assert (wf s) as W by (eapply wf_run; [apply wf_start|eassumption]).
  assert (forall i, i < length (tensors s) -> exists t, nth_error (tensors s) i = Some t) as N.
  { intros q L. destruct (nth_error (tensors s) q) eqn:Q; eauto. apply nth_error_None in Q. lia. }
  destruct (N _ (wf_resolve _ _ _ W R)) as [t E]. destruct (N _ (wf_resolve _ _ _ W J)) as [u U].
  cbn [step]. unfold on, has_grad, gradient_dims, dims, precision_of, tensor_at. rewrite R, J. unfold acc_grad. rewrite E, U. cbn. destruct (grad t) as [h|] eqn:G.
  - destruct (N _ (wf_grads _ W _ _ _ E G)) as [w V]. rewrite V. unfold same_dims.
    destruct (nth_error (shapes s) (shape_ref w)) as [[a b]|] eqn:A; [|apply nth_error_None in A; pose proof (wf_shapes _ W _ _ V); lia].
    destruct (nth_error (shapes s) (shape_ref u)) as [[c e]|] eqn:B; [|apply nth_error_None in B; pose proof (wf_shapes _ W _ _ U); lia].
    cbn. split.
    + destruct (a =? c) eqn:C; [|now intros []]. destruct (b =? e) eqn:D; [|now intros []]. apply Nat.eqb_eq in C, D. subst. auto.
    + intros [[[=] _]|[_ [= -> ->]]]. rewrite !Nat.eqb_refl. discriminate.
  - destruct (prec u), (prec t); cbn; split; try congruence; auto; intros [[_ [=]]|[[=] _]].
Qed.

(** The matrix Grad gives is the gradient itself, not a copy: until a gradient is zeroed, or the value of the parameter replaced,
    it shows what has been accumulated since. *)
Theorem C77_grad_live : forall before (s s1 s' : state) x d after, run add conv start before = Some s -> gradient s x = Some (Some d) -> step add conv s (Grad x) = Some s1 ->
  existsb (ends_gradient x) after = false -> run add conv s1 after = Some s' ->
  exists e, elements s' (Var (length (vars s))) = Some e /\ gradient s' x = Some (Some e).
Proof.
  intros before s s1 s' x d after H G N X A. assert (wf s) as W by (eapply wf_run; [apply wf_start|eassumption]).
  unfold gradient, tensor_at in G. destruct (resolve s x) as [i|] eqn:R; [|discriminate]. destruct (nth_error (tensors s) i) as [t|] eqn:E; [|discriminate].
  destruct (grad t) as [g|] eqn:P; [|discriminate]. cbn in N. unfold on in N. rewrite R in N. unfold get_grad in N. rewrite E, P in N. injection N as <-.
  assert (wf (hold s g)) as W1 by (apply wf_hold; auto; eapply wf_grads; eauto).
  destruct (pointer_run add conv x i g (length (vars s)) after (hold s g) s' X A) as ((t' & E' & P') & R' & V').
  - exists t. auto.
  - destruct x; cbn in *; [|exact R]. rewrite nth_error_app1; auto. eapply nth_lt; eauto.
  - cbn. now rewrite nth_error_app2, Nat.sub_diag by lia.
  - pose proof (wf_run add conv after _ _ W1 A) as W'. assert (exists u, nth_error (tensors s') g = Some u) as [u U].
    { destruct (nth_error (tensors s') g) eqn:Q; eauto. apply nth_error_None in Q. pose proof (wf_vars _ W' _ _ V'). lia. }
    exists (data u). unfold elements, gradient, tensor_at. cbn [resolve]. rewrite V', U, R', E', P', U. auto.
Qed.

(** ZeroGrad succeeds on whatever the program holds, leaves that without a gradient, and changes no elements, dimensions or flags:
    a gradient obtained before keeps its elements. *)
Theorem C77_zero_grad : forall before (s : state) x i, run add conv start before = Some s -> resolve s x = Some i ->
  exists s', step add conv s (ZeroGrad x) = Some s' /\ gradient s' x = Some None /\ has_grad s' x = Some false /\
    forall y, elements s' y = elements s y /\ dims s' y = dims s y /\ requires s' y = requires s y.
Proof.
  intros before s x i H R. assert (wf s) as W by (eapply wf_run; [apply wf_start|eassumption]).
  assert (exists t, nth_error (tensors s) i = Some t) as [t E].
  { destruct (nth_error (tensors s) i) eqn:Q; eauto. apply nth_error_None in Q. pose proof (wf_resolve _ _ _ W R). lia. }
  cbn [step]. unfold on. rewrite R. unfold zero_grad. rewrite E. eexists. split; [reflexivity|].
  assert (forall y z, resolve (put_tensor s i z) y = resolve s y) as RR by (intros [] ?; reflexivity).
  assert (i < length (tensors s)) as L by (eapply nth_lt; eauto).
  unfold gradient, has_grad, elements, dims, requires, tensor_at. rewrite RR, R. cbn. rewrite nth_upd_same by exact L. split; [reflexivity|]. split; [reflexivity|].
  intros y. rewrite !RR. destruct (resolve s y) as [j|]; [|auto]. destruct (Nat.eq_dec i j) as [<-|N]; [rewrite nth_upd_same by exact L; rewrite E; auto|rewrite nth_upd_other by exact N; auto].
Qed.

(** ReplaceValue clears the optimizer state, changes no matrix, and makes the parameter the given matrix: through any later
    history the two have the same dimensions, elements, gradient and flag, until the value is replaced again. *)
Theorem C77_replaced : forall (s s1 s' : state) k v after, step add conv s (ReplaceValue k v) = Some s1 ->
  existsb (replaces k) after = false -> run add conv s1 after = Some s' ->
  state_of s1 k = Some None /\
  dims s1 (Var v) = dims s (Var v) /\ elements s1 (Var v) = elements s (Var v) /\ gradient s1 (Var v) = gradient s (Var v) /\
  requires s1 (Var v) = requires s (Var v) /\
  dims s' (Par k) = dims s' (Var v) /\ elements s' (Par k) = elements s' (Var v) /\ gradient s' (Par k) = gradient s' (Var v) /\
  requires s' (Par k) = requires s' (Var v) /\ grad_result s' (Par k) = grad_result s' (Var v).
Proof.
  intros s s1 s' k v after H X A. cbn in H. unfold on in H. cbn in H. destruct (nth_error (vars s) v) as [i|] eqn:V; [|discriminate].
  unfold replace_value in H. destruct (nth_error (params s) k) as [p|] eqn:P; [|discriminate]. injection H as <-.
  assert (nth_error (params (put_param s k (mkParam i None))) k = Some (mkParam i None)) as Q by (cbn; apply nth_upd_same; eapply nth_lt; eauto).
  pose proof (alias_run add conv k v after _ _ _ X A Q V) as R.
  split; [unfold state_of; now rewrite Q|]. do 4 (split; [reflexivity|]).
  unfold dims, elements, gradient, requires, grad_result, tensor_at. rewrite R. repeat split; reflexivity.
Qed.

(** Gradients given to a buffer, and zeroing it, change nothing: a history and the same history without these calls end alike.
    A buffer never has or requires a gradient. *)
Definition to_buffer (c : call T S) : bool := match c with BufAccGrad _ _ | BufZeroGrad _ => true | _ => false end.
Theorem C77_buffer : forall cs (s s' : state), run add conv s cs = Some s' ->
  run add conv s (filter (fun c => negb (to_buffer c)) cs) = Some s' /\
  forall b, b < length (bufs s') -> buf_grad_result s' b = Some NilInterface /\ buf_has_grad s' b = Some false /\ buf_requires s' b = Some false.
Proof.
  intros cs s s' H. split.
  - revert s H. induction cs as [|c cs IH]; intros s H; [exact H|]. cbn in H. destruct (step add conv s c) as [s1|] eqn:Q; [|discriminate].
    destruct (to_buffer c) eqn:B; cbn; rewrite B; cbn; [|rewrite Q; now apply IH].
    assert (s1 = s) as ->; [|now apply IH].
    destruct c; try discriminate B; cbn in Q; unfold on_buf in Q; destruct (nth_error (bufs s) b); congruence.
  - intros b L. unfold buf_grad_result, buf_has_grad, buf_requires. destruct (nth_error (bufs s') b) eqn:E; [repeat split|]. apply nth_error_None in E. lia.
Qed.

(** The dimensions of a parameter are not its own: Clone shares the shape slice, and reshaping in place the matrix it was made
    from reshapes the parameter. *)
Theorem C77_dims_refuted : forall (p : precision) (a b : T), exists before (s0 s s' : state) x after, run add conv start before = Some s0 /\ step add conv s0 (NewParam x) = Some s /\
  existsb (changes (length (params s0))) after = false /\ run add conv s after = Some s' /\
  dims s (Par (length (params s0))) = Some (1, 2) /\ dims s' (Par (length (params s0))) = Some (2, 1).
Proof. intros p a b. exists [New p 1 2 [a; b]]. do 3 eexists. exists (Var 0), [Reshape (Var 0) 2 1]. repeat (split; [cbv; reflexivity|]); cbv; reflexivity. Qed.

(** The first gradient is taken whatever its dimensions: a parameter of one element can have a gradient of two. *)
Theorem C77_gradient_dims_refuted : forall (p : precision) (a b : T), exists (s : state), run add conv start [New p 1 1 [a]; NewParam (Var 0); New p 2 1 [a; b]; AccGrad (Par 0) (Var 1)] = Some s /\
  dims s (Par 0) = Some (1, 1) /\ gradient_dims s (Par 0) = Some (2, 1).
Proof. intros [] a b; eexists; repeat (split; [cbv; reflexivity|]); cbv; reflexivity. Qed.

(** Whether a gradient of the other precision is taken depends on what came before: it is refused as the first gradient and
    converted as a later one. *)
Theorem C77_precision_refuted : forall a : T, exists (s s' : state),
  run add conv start [New Float32 1 1 [a]; New Float64 1 1 [a]; NewParam (Var 0)] = Some s /\ step add conv s (AccGrad (Par 0) (Var 1)) = None /\
  run add conv s [AccGrad (Par 0) (Var 0); AccGrad (Par 0) (Var 1)] = Some s' /\ gradient s' (Par 0) = Some (Some [add a (conv Float64 Float32 a)]).
Proof. intros a. do 2 eexists. repeat (split; [cbv; reflexivity|]); cbv; reflexivity. Qed.

(** A parameter whose value is replaced by a matrix made for that purpose no longer requires gradients, although nobody asked
    for that. *)
Theorem C77_replaced_requires_refuted : forall (p : precision) (a : T), exists (s s' : state),
  run add conv start [New p 1 1 [a]; NewParam (Var 0)] = Some s /\ requires s (Par 0) = Some true /\
  run add conv s [New p 1 1 [a]; ReplaceValue 0 1] = Some s' /\ requires s' (Par 0) = Some false.
Proof. intros [] a; do 2 eexists; repeat (split; [cbv; reflexivity|]); cbv; reflexivity. Qed.

(** Nor does it own the new value: two parameters given the same matrix are updated together, and a write to the matrix
    changes both. *)
Theorem C77_replaced_owned_refuted : forall (p : precision) (a b : T), exists (s s1 s2 : state),
  run add conv start [New p 1 1 [a]; NewParam (Var 0); NewParam (Var 0); ReplaceValue 0 0; ReplaceValue 1 0] = Some s /\
  elements s (Par 0) = Some [a] /\ elements s (Par 1) = Some [a] /\
  run add conv s [Optimize 1 [b] None] = Some s1 /\ elements s1 (Par 0) = Some [b] /\
  run add conv s [Write (Var 0) [b]] = Some s2 /\ elements s2 (Par 0) = Some [b].
Proof. intros [] a b; do 3 eexists; repeat (split; [cbv; reflexivity|]); cbv; reflexivity. Qed.

(** Grad of a matrix without gradients does not compare equal to nil, although ZeroGrad is documented to set it to nil: it is
    an interface value that holds a nil pointer. *)
Theorem C77_grad_nil_refuted : forall (p : precision) (a : T), exists (s : state) r,
  run add conv start [New p 1 1 [a]; NewParam (Var 0); AccGrad (Par 0) (Var 0); ZeroGrad (Par 0)] = Some s /\
  has_grad s (Par 0) = Some false /\ grad_result s (Par 0) = Some r /\ equals_nil r = false.
Proof. intros [] a; do 2 eexists; repeat (split; [cbv; reflexivity|]); cbv; reflexivity. Qed.
End Props.

Definition same (p q : precision) (v : nat) : nat := v.

(** two parameters made from one matrix, with gradients, an update, a write to the matrix and to a gradient that was given *)
Example C77_case : exists s s',
  run Nat.add same start [New Float32 1 2 [1; 2]; New Float32 1 2 [5; 7]] = Some s /\
  let after := [NewParam (Var 0); AccGrad (Par 0) (Var 1); Write (Var 1) [1; 1]; AccGrad (Par 1) (Var 1); AccGrad (Par 0) (Var 1); Optimize 0 [8; 8] (Some tt);
    Write (Var 0) [9; 9]] in
  (exists s0, step Nat.add same s (NewParam (Var 0)) = Some s0 /\ existsb (exposes 0) after = false /\ run Nat.add same s0 after = Some s' /\
     since_zero Nat.add same 0 s0 after [] = [[5; 7]; [1; 1]]) /\
  gradient s' (Par 0) = Some (Some [6; 8]) /\ elements s' (Par 0) = Some [8; 8] /\ elements s' (Par 1) = Some [1; 2] /\ gradient s' (Par 1) = Some (Some [1; 1]).
Proof. do 2 eexists. split; [cbv; reflexivity|]. split; [eexists; repeat (split; [cbv; reflexivity|]); cbv; reflexivity|]. repeat (split; [cbv; reflexivity|]); cbv; reflexivity. Qed.
(** the original is written, given gradients and told not to require them: the parameter is not concerned *)
Example C77_owned_case : exists s0 s s',
  run (S := unit) Nat.add same start [New Float32 1 2 [1; 2]; SetRequiresGrad (Var 0) true; AccGrad (Var 0) (Var 0)] = Some s0 /\ step Nat.add same s0 (NewParam (Var 0)) = Some s /\
  let after := [Write (Var 0) [3; 4]; AccGrad (Var 0) (Var 0); Grad (Var 0); Write (Var 1) [0; 0]; SetRequiresGrad (Var 0) false; Clone (Par 0); Write (Var 2) [6; 6];
    Buf 0; BufSetRequiresGrad 0 true; BufValue 0; Write (Var 3) [2; 2]] in
  existsb (changes 0) after = false /\ run Nat.add same s after = Some s' /\ elements s' (Par 0) = Some [1; 2] /\ gradient s' (Par 0) = Some None /\
  requires s' (Par 0) = Some true /\ elements s' (Var 0) = Some [2; 2].
Proof. do 3 eexists. repeat (split; [cbv; reflexivity|]); cbv; reflexivity. Qed.
Example C77_buffer_case : exists s',
  run (S := unit) Nat.add same start [New Float32 1 1 [1]; Buf 0; BufAccGrad 0 (Var 0); AccGrad (Var 0) (Var 0); BufZeroGrad 0; BufAccGrad 0 (Var 0)] = Some s' /\
  gradient s' (Var 0) = Some (Some [1]) /\ buf_has_grad s' 0 = Some false.
Proof. eexists. repeat (split; [cbv; reflexivity|]); cbv; reflexivity. Qed.

(** a gradient taken out, added to, and kept when the parameter is zeroed *)
Example C77_live_case : exists s s1 s2,
  run (S := unit) Nat.add same start [New Float32 1 1 [3]; NewParam (Var 0); AccGrad (Par 0) (Var 0)] = Some s /\ gradient s (Par 0) = Some (Some [3]) /\
  run Nat.add same s [Grad (Par 0); AccGrad (Par 0) (Var 0)] = Some s1 /\ elements s1 (Var 1) = Some [6] /\
  run Nat.add same s1 [ZeroGrad (Par 0)] = Some s2 /\ elements s2 (Var 1) = Some [6] /\ gradient s2 (Par 0) = Some None.
Proof. do 3 eexists. repeat (split; [cbv; reflexivity|]); cbv; reflexivity. Qed.
(** a gradient of other dimensions is refused, one of the same is taken *)
Example C77_acc_case : exists s, run (S := unit) Nat.add same start [New Float32 1 2 [1; 2]; AccGrad (Var 0) (Var 0); New Float32 2 1 [3; 4]] = Some s /\
  step Nat.add same s (AccGrad (Var 0) (Var 1)) = None /\ step Nat.add same s (AccGrad (Var 0) (Var 0)) <> None.
Proof. eexists. split; [cbv; reflexivity|]. split; [reflexivity|discriminate]. Qed.

Print Assumptions C77_new_param.
Print Assumptions C77_owned_partial.
Print Assumptions C77_value.
Print Assumptions C77_gradient.
Print Assumptions C77_acc_grad.
Print Assumptions C77_grad_live.
Print Assumptions C77_zero_grad.
Print Assumptions C77_replaced.
Print Assumptions C77_buffer.
Print Assumptions C77_dims_refuted.
Print Assumptions C77_gradient_dims_refuted.
Print Assumptions C77_precision_refuted.
Print Assumptions C77_replaced_requires_refuted.
Print Assumptions C77_replaced_owned_refuted.
Print Assumptions C77_grad_nil_refuted.
