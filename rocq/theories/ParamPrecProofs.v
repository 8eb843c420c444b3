(** * A matrix and its gradient keep one precision *)
From Coq Require Import List Arith Bool Lia.
From Verif Require Import ParamModel ParamSpec ParamProofs.
Import ListNotations.

Section Proofs.
Context {T S : Type}.
Variable add : T -> T -> T.
Variable conv : precision -> precision -> T -> T.
Notation state := (state T S).

Definition precs (s : state) : list precision := map prec (tensors s).
Definition extends (s s' : state) : Prop := exists l, precs s' = precs s ++ l.
Definition alike (s : state) : Prop := forall i t g, nth_error (tensors s) i = Some t -> grad t = Some g -> nth_error (precs s) g = Some (prec t).

Ltac cases :=
  repeat match goal with
  | H : match ?x with _ => _ end = Some _ |- _ => destruct x eqn:?; try discriminate H
  | H : Some _ = Some _ |- _ => injection H as <-
  | H : None = Some _ |- _ => discriminate H
  end.

Lemma precs_at (s : state) i t : nth_error (tensors s) i = Some t -> nth_error (precs s) i = Some (prec t).
Proof. intros H. unfold precs. now apply map_nth_error. Qed.
Lemma map_upd (l : list (tensor T)) : forall i t u, nth_error l i = Some t -> prec u = prec t -> map prec (upd l i u) = map prec l.
Proof. induction l; intros [|i] t u H E; cbn in *; try discriminate; f_equal; eauto. congruence. Qed.
Lemma extends_same (s s' : state) : tensors s' = tensors s -> extends s s'.
Proof. intros H. exists []. unfold precs. now rewrite H, app_nil_r. Qed.
Lemma extends_at (s s' : state) i p : extends s s' -> nth_error (precs s) i = Some p -> nth_error (precs s') i = Some p.
Proof. intros [l H] E. rewrite H, nth_error_app1; auto. eapply nth_lt; eauto. Qed.
Lemma extends_trans (a b c : state) : extends a b -> extends b c -> extends a c.
Proof. intros [l H] [m K]. exists (l ++ m). now rewrite K, H, app_assoc. Qed.
Lemma precs_put (s : state) i t u : nth_error (tensors s) i = Some t -> prec u = prec t -> precs (put_tensor s i u) = precs s.
Proof. intros H E. unfold precs. cbn. eapply map_upd; eauto. Qed.
Lemma extends_put (s : state) i t u : nth_error (tensors s) i = Some t -> prec u = prec t -> extends s (put_tensor s i u).
Proof. intros H E. exists []. rewrite app_nil_r. eapply precs_put; eauto. Qed.
Lemma extends_alloc (s : state) t : extends s (alloc s t).
Proof. exists [prec t]. unfold precs. cbn. now rewrite map_app. Qed.
Lemma alike_same (s s' : state) : tensors s' = tensors s -> alike s -> alike s'.
Proof. intros H A i t g. unfold precs. rewrite H. apply A. Qed.
Lemma alike_put (s : state) i t u : alike s -> nth_error (tensors s) i = Some t -> prec u = prec t ->
  (forall g, grad u = Some g -> nth_error (precs s) g = Some (prec t)) -> alike (put_tensor s i u).
Proof.
  intros A H E G j v g N P. rewrite (precs_put _ _ _ _ H E). cbn in N. apply nth_upd in N. destruct N as [[_ ->]|[_ N]].
  - rewrite E. auto.
  - eapply A; eauto.
Qed.
Lemma alike_alloc (s : state) t : alike s -> grad t = None -> alike (alloc s t).
Proof.
  intros A E i u g N G. cbn in N. apply nth_snoc in N. destruct N as [N|[_ ->]]; [|congruence].
  eapply extends_at; [apply extends_alloc|]. eapply A; eauto.
Qed.

Definition good (s s' : state) : Prop := extends s s' /\ (alike s -> alike s').
Lemma good_same (s s' : state) : tensors s' = tensors s -> good s s'.
Proof. intros H. split; [now apply extends_same|now apply alike_same]. Qed.
Lemma good_trans (a b c : state) : good a b -> good b c -> good a c.
Proof. intros [A B] [C D]. split; [eapply extends_trans; eauto|auto]. Qed.
Lemma good_alloc (s : state) t : grad t = None -> good s (alloc s t).
Proof. intros H. split; [apply extends_alloc|intros A; now apply alike_alloc]. Qed.
Lemma good_put (s : state) i t u : nth_error (tensors s) i = Some t -> prec u = prec t -> (grad u = grad t \/ grad u = None) -> good s (put_tensor s i u).
Proof.
  intros H E G. split; [eapply extends_put; eauto|]. intros A. eapply alike_put; eauto. intros g P. destruct G as [G|G]; [|congruence].
  eapply A; eauto. congruence.
Qed.
Lemma good_set_requires (s s' : state) i b : set_requires s i b = Some s' -> good s s'.
Proof. unfold set_requires. intros H. cases. eapply good_put; eauto. Qed.
Lemma good_write (s s' : state) i b : write s i b = Some s' -> good s s'.
Proof. unfold write. intros H. cases. eapply good_put; eauto. Qed.
Lemma good_acc_grad (s s' : state) i j : acc_grad add conv s i j = Some s' -> good s s'.
Proof.
  unfold acc_grad. intros H. cases; [eapply good_put; eauto|].
  match goal with |- good s (put_tensor (alloc s (clone_of ?u)) i ?v) => set (x := u) in *; set (y := v) end.
  assert (nth_error (tensors (alloc s (clone_of x))) i = Some t) as Q by (cbn; rewrite snoc_old; auto; eapply nth_lt; eauto).
  split.
  - eapply extends_trans; [apply extends_alloc|]. eapply extends_put; eauto.
  - intros A. eapply alike_put; [now apply alike_alloc|exact Q|reflexivity|].
    intros g. cbn. intros [= <-]. unfold precs. cbn. rewrite map_app, nth_error_app2; rewrite map_length; [|lia]. rewrite Nat.sub_diag. cbn.
    destruct (prec x), (prec t); auto; discriminate.
Qed.
Lemma good_step (s : state) c (s' : state) : step add conv s c = Some s' -> good s s'.
Proof.
  intros H. destruct c; cbn [step] in H; unfold on, on_buf in H.
  - unfold new_dense in H. cases. eapply good_trans; [|apply good_same; reflexivity]. apply (good_trans _ (alloc_shape s (r, c))); [now apply good_same|]. now apply good_alloc.
  - unfold clone in H. cases. eapply good_trans; [|apply good_same; reflexivity]. now apply good_alloc.
  - cases. now apply good_same.
  - unfold get_grad in H. cases; now apply good_same.
  - cases. eapply good_write; eauto.
  - unfold reshape in H. cases. now apply good_same.
  - cases. eapply good_set_requires; eauto.
  - cases. eapply good_acc_grad; eauto.
  - unfold zero_grad in H. cases. eapply good_put; eauto.
  - unfold new_param in H. cases. eapply good_trans; [|eapply good_set_requires; eassumption].
    eapply good_trans; [|apply good_same; reflexivity]. now apply good_alloc.
  - unfold with_grad in H. cases. eapply good_set_requires; eauto.
  - unfold replace_value in H. cases. now apply good_same.
  - unfold optimize in H. cases. eapply good_trans; [|eapply good_write; eassumption]. now apply good_same.
  - cases. now apply good_same.
  - cases. now apply good_same.
  - cases. now apply good_same.
  - cases. now apply good_same.
  - cases. eapply good_set_requires; eauto.
Qed.
Lemma good_run cs : forall s s' : state, run add conv s cs = Some s' -> good s s'.
Proof.
  induction cs as [|c cs IH]; cbn; intros s s' H; [injection H as <-; now apply good_same|].
  destruct (step add conv s c) as [s1|] eqn:Q; [|discriminate]. eapply good_trans; [eapply good_step; eauto|auto].
Qed.
Lemma alike_reached cs (s : state) : run add conv start cs = Some s -> alike s.
Proof. intros H. apply (proj2 (good_run _ _ _ H)). intros i t g E. destruct i; discriminate. Qed.

Lemma resolve_run x cs : forall (s s' : state) i, existsb (fun c => match x with Par k => replaces k c | Var _ => false end) cs = false ->
  run add conv s cs = Some s' -> resolve s x = Some i -> resolve s' x = Some i.
Proof.
  induction cs as [|c cs IH]; cbn [existsb run]; intros s s' i X H R; [congruence|].
  apply orb_false_iff in X. destruct X as [X Y]. destruct (step add conv s c) as [s1|] eqn:Q; [|discriminate].
  eapply IH; eauto. destruct x as [v|k]; cbn in *; [eapply vars_step; eauto|].
  destruct (nth_error (params s) k) as [p|] eqn:P; [|discriminate]. destruct (matrix_step add conv _ _ _ _ _ X Q P) as (q & A & B).
  rewrite A. cbn in *. congruence.
Qed.
End Proofs.
