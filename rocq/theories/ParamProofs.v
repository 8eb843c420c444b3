(** * Parameters own their matrices *)
From Coq Require Import List Arith Bool Lia.
From Verif Require Import ParamModel ParamSpec.
Import ListNotations.

Lemma upd_length {A} (l : list A) i x : length (upd l i x) = length l.
Proof. revert i; induction l; intros [|i]; cbn; auto. Qed.
Lemma nth_upd_same {A} (l : list A) i x : i < length l -> nth_error (upd l i x) i = Some x.
Proof. revert i; induction l; intros [|i] H; cbn in *; try lia; auto. apply IHl; lia. Qed.
Lemma nth_upd_other {A} (l : list A) i j x : i <> j -> nth_error (upd l i x) j = nth_error l j.
Proof. revert i j; induction l; intros [|i] [|j] H; cbn in *; try lia; auto. Qed.
Lemma nth_upd {A} (l : list A) i j x y : nth_error (upd l i x) j = Some y -> (i = j /\ y = x) \/ (i <> j /\ nth_error l j = Some y).
Proof.
  intros H. destruct (Nat.eq_dec i j) as [->|N].
  - left. split; auto. assert (j < length l) by (rewrite <- (upd_length l j x); apply nth_error_Some; congruence).
    rewrite nth_upd_same in H; congruence.
  - right. rewrite nth_upd_other in H; auto.
Qed.
Lemma nth_snoc {A} (l : list A) x j y : nth_error (l ++ [x]) j = Some y -> nth_error l j = Some y \/ (j = length l /\ y = x).
Proof.
  intros H. destruct (Nat.lt_ge_cases j (length l)).
  - left. rewrite nth_error_app1 in H; auto.
  - right. rewrite nth_error_app2 in H by auto. destruct (j - length l) eqn:E; cbn in H; [|now destruct n].
    split; [lia|congruence].
Qed.
Lemma nth_lt {A} (l : list A) i x : nth_error l i = Some x -> i < length l.
Proof. intros H. apply nth_error_Some. congruence. Qed.

Section Proofs.
Context {T S : Type}.
Variable add : T -> T -> T.
Variable conv : precision -> precision -> T -> T.
Notation state := (state T S).

Record wf (s : state) : Prop := {
  wf_vars : forall v i, nth_error (vars s) v = Some i -> i < length (tensors s);
  wf_bufs : forall v i, nth_error (bufs s) v = Some i -> i < length (tensors s);
  wf_params : forall k p, nth_error (params s) k = Some p -> matrix p < length (tensors s);
  wf_shapes : forall i t, nth_error (tensors s) i = Some t -> shape_ref t < length (shapes s);
  wf_grads : forall i t g, nth_error (tensors s) i = Some t -> grad t = Some g -> g < length (tensors s) }.

(** nothing but parameter [k] leads to the object [o], unless it is a gradient *)
Definition unheld (s : state) (k o : nat) : Prop :=
  (forall v, nth_error (vars s) v <> Some o) /\ (forall v, nth_error (bufs s) v <> Some o) /\
  (forall j p, nth_error (params s) j = Some p -> matrix p = o -> j = k).
Record own (s : state) (k m : nat) : Prop := {
  own_param : exists p, nth_error (params s) k = Some p /\ matrix p = m;
  own_matrix : unheld s k m;
  own_no_grad : forall i t, nth_error (tensors s) i = Some t -> grad t <> Some m;
  own_grad : forall t g, nth_error (tensors s) m = Some t -> grad t = Some g ->
    unheld s k g /\ (forall i u, nth_error (tensors s) i = Some u -> grad u = Some g -> i = m) }.

(** ** Well-formed memories *)
Lemma wf_start : wf start.
Proof. constructor; cbn; intros; try (destruct v; discriminate); try (destruct k; discriminate); destruct i; discriminate. Qed.
Lemma wf_hold s i : wf s -> i < length (tensors s) -> wf (hold s i).
Proof. intros [A B C D E] H. constructor; cbn; eauto. intros v j N. apply nth_snoc in N. destruct N as [N|[_ ->]]; eauto. Qed.
Lemma wf_hold_buf s i : wf s -> i < length (tensors s) -> wf (hold_buf s i).
Proof. intros [A B C D E] H. constructor; cbn; eauto. intros v j N. apply nth_snoc in N. destruct N as [N|[_ ->]]; eauto. Qed.
Lemma wf_hold_param s p : wf s -> matrix p < length (tensors s) -> wf (hold_param s p).
Proof. intros [A B C D E] H. constructor; cbn; eauto. intros v j N. apply nth_snoc in N. destruct N as [N|[_ ->]]; eauto. Qed.
Lemma wf_put_param s k p : wf s -> matrix p < length (tensors s) -> wf (put_param s k p).
Proof. intros [A B C D E] H. constructor; cbn; eauto. intros v j N. apply nth_upd in N. destruct N as [[_ ->]|[_ N]]; eauto. Qed.
Lemma wf_put_tensor s i t : wf s -> shape_ref t < length (shapes s) -> (forall g, grad t = Some g -> g < length (tensors s)) -> wf (put_tensor s i t).
Proof.
  intros [A B C D E] H G. constructor; cbn; rewrite ?upd_length; eauto.
  - intros v j N. apply nth_upd in N. destruct N as [[_ ->]|[_ N]]; eauto.
  - intros v j g N. apply nth_upd in N. destruct N as [[_ ->]|[_ N]]; eauto.
Qed.
Lemma wf_put_shape s i z : wf s -> wf (put_shape s i z).
Proof. intros [A B C D E]. constructor; cbn; rewrite ?upd_length; eauto. Qed.
Lemma wf_alloc_shape s z : wf s -> wf (alloc_shape s z).
Proof. intros [A B C D E]. constructor; cbn; eauto. intros. rewrite app_length. apply D in H. lia. Qed.
Lemma wf_alloc s t : wf s -> shape_ref t < length (shapes s) -> grad t = None -> wf (alloc s t).
Proof.
  intros [A B C D E] H G. constructor; cbn; rewrite ?app_length; cbn.
  - intros v i N; apply A in N; lia.
  - intros v i N; apply B in N; lia.
  - intros v i N; apply C in N; lia.
  - intros i u N. apply nth_snoc in N. destruct N as [N|[_ ->]]; eauto.
  - intros i u g N K. apply nth_snoc in N. destruct N as [N|[_ ->]]; [apply (E _ _ _ N) in K; lia|congruence].
Qed.
Lemma wf_resolve s x i : wf s -> resolve s x = Some i -> i < length (tensors s).
Proof.
  intros W. destruct x as [v|k]; cbn; [apply (wf_vars _ W)|]. destruct (nth_error (params s) k) eqn:E; cbn; [|discriminate].
  intros [= <-]. eapply wf_params; eauto.
Qed.

Ltac cases :=
  repeat match goal with
  | H : match ?x with _ => _ end = Some _ |- _ => destruct x eqn:?; try discriminate H
  | H : Some _ = Some _ |- _ => injection H as <-
  | H : None = Some _ |- _ => discriminate H
  end.

Lemma wf_set_requires s i b s' : wf s -> set_requires s i b = Some s' -> wf s'.
Proof. intros W H. unfold set_requires in H. cases. destruct W. apply wf_put_tensor; [constructor|..]; cbn; eauto. Qed.
Lemma wf_write s i b s' : wf s -> write s i b = Some s' -> wf s'.
Proof. intros W H. unfold write in H. cases. destruct W. apply wf_put_tensor; [constructor|..]; cbn; eauto. Qed.
Lemma wf_acc_grad s i j s' : wf s -> acc_grad add conv s i j = Some s' -> wf s'.
Proof.
  intros W H. unfold acc_grad in H. cases; destruct W.
  - apply wf_put_tensor; [constructor|..]; cbn; eauto.
  - apply wf_put_tensor; [apply wf_alloc; [constructor|..]|..]; cbn; eauto. rewrite app_length; cbn. intros ? [= <-]. lia.
Qed.
Lemma wf_step s c s' : wf s -> step add conv s c = Some s' -> wf s'.
Proof.
  intros W H. destruct c; cbn [step] in H; unfold on, on_buf in H.
  - unfold new_dense in H. cases. apply wf_hold; [apply wf_alloc; [now apply wf_alloc_shape|..]|]; cbn; rewrite ?app_length; cbn; auto; lia.
  - unfold clone in H. cases. apply wf_hold; [apply wf_alloc; [auto|..]|]; cbn; rewrite ?app_length; cbn; auto; try lia. eapply wf_shapes; eauto.
  - cases. apply wf_hold; auto. eapply wf_resolve; eauto.
  - unfold get_grad in H. cases; auto. apply wf_hold; auto. eapply wf_grads; eauto.
  - cases. eapply wf_write; eauto.
  - unfold reshape in H. cases. now apply wf_put_shape.
  - cases. eapply wf_set_requires; eauto.
  - cases. eapply wf_acc_grad; eauto.
  - unfold zero_grad in H. cases. apply wf_put_tensor; cbn; try easy. eapply wf_shapes; eauto.
  - unfold new_param in H. cases. eapply wf_set_requires; [|eassumption]. apply wf_hold_param; [apply wf_alloc; auto|]; cbn; rewrite ?app_length; cbn; try lia.
    eapply wf_shapes; eauto.
  - unfold with_grad in H. cases. eapply wf_set_requires; eauto.
  - unfold replace_value in H. cases. apply wf_put_param; auto. cbn. eapply wf_resolve; eauto.
  - unfold optimize in H. cases. eapply wf_write; [|eassumption]. apply wf_put_param; auto. cbn. eapply wf_params; eauto.
  - cases. apply wf_hold_buf; auto. eapply wf_resolve; eauto.
  - cases. apply wf_hold; auto. eapply wf_bufs; eauto.
  - cases. auto.
  - cases. auto.
  - cases. eapply wf_set_requires; eauto.
Qed.
Lemma wf_run cs : forall s s', wf s -> run add conv s cs = Some s' -> wf s'.
Proof. induction cs; cbn; intros s s' W H; [congruence|]. cases. eapply IHcs; [|eassumption]. eapply wf_step; eauto. Qed.

(** ** Ownership *)
Definition apart (s : state) (m o : nat) : Prop := o <> m /\ forall t, nth_error (tensors s) m = Some t -> grad t <> Some o.

Lemma own_hold s k m i : own s k m -> apart s m i -> own (hold s i) k m.
Proof.
  intros [P M N G] [A B]. constructor; cbn; auto.
  - destruct M as (X & Y & Z). repeat split; auto. cbn. intros v K. apply nth_snoc in K. destruct K as [K|[_ K]]; [eapply X; eauto|congruence].
  - intros t g K L. destruct (G t g K L) as [(X & Y & Z) U]. split; auto. repeat split; auto. cbn. intros v Q. apply nth_snoc in Q.
    destruct Q as [Q|[_ Q]]; [eapply X; eauto|]. subst. eapply B; eauto.
Qed.
Lemma own_hold_buf s k m i : own s k m -> apart s m i -> own (hold_buf s i) k m.
Proof.
  intros [P M N G] [A B]. constructor; cbn; auto.
  - destruct M as (X & Y & Z). repeat split; auto. cbn. intros v K. apply nth_snoc in K. destruct K as [K|[_ K]]; [eapply Y; eauto|congruence].
  - intros t g K L. destruct (G t g K L) as [(X & Y & Z) U]. split; auto. repeat split; auto. cbn. intros v Q. apply nth_snoc in Q.
    destruct Q as [Q|[_ Q]]; [eapply Y; eauto|]. subst. eapply B; eauto.
Qed.
Lemma own_hold_param s k m p : own s k m -> apart s m (matrix p) -> own (hold_param s p) k m.
Proof.
  intros [P M N G] [A B]. constructor; cbn; auto.
  - destruct P as (q & Q & R). exists q. split; auto. rewrite nth_error_app1; auto. eapply nth_lt; eauto.
  - destruct M as (X & Y & Z). repeat split; auto. cbn. intros j q K. apply nth_snoc in K. destruct K as [K|[_ ->]]; [eapply Z; eauto|congruence].
  - intros t g K L. destruct (G t g K L) as [(X & Y & Z) U]. split; auto. repeat split; auto. cbn. intros j q Q. apply nth_snoc in Q.
    destruct Q as [Q|[_ ->]]; [eapply Z; eauto|]. intros <-. exfalso. eapply B; eauto.
Qed.
Lemma own_put_param s k m j p : own s k m -> j <> k -> apart s m (matrix p) -> own (put_param s j p) k m.
Proof.
  intros [P M N G] J [A B]. constructor; cbn; auto.
  - destruct P as (q & Q & R). exists q. split; auto. rewrite nth_upd_other; auto.
  - destruct M as (X & Y & Z). repeat split; auto. cbn. intros i q K. apply nth_upd in K. destruct K as [[_ ->]|[_ K]]; [congruence|eapply Z; eauto].
  - intros t g K L. destruct (G t g K L) as [(X & Y & Z) U]. split; auto. repeat split; auto. cbn. intros i q Q. apply nth_upd in Q.
    destruct Q as [[_ ->]|[_ Q]]; [|eapply Z; eauto]. intros <-. exfalso. eapply B; eauto.
Qed.
Lemma own_put_same s k m j p o : own s k m -> nth_error (params s) j = Some p -> own (put_param s j (mkParam (matrix p) o)) k m.
Proof.
  intros [P M N G] J. constructor; cbn; auto.
  - destruct P as (q & Q & R). destruct (Nat.eq_dec j k) as [->|E].
    + exists (mkParam (matrix p) o). split; [apply nth_upd_same; eapply nth_lt; eauto|]. cbn. congruence.
    + exists q. split; auto. rewrite nth_upd_other; auto.
  - destruct M as (X & Y & Z). repeat split; auto. cbn. intros i q K. apply nth_upd in K. destruct K as [[<- ->]|[_ K]]; cbn; eapply Z; eauto.
  - intros t g K L. destruct (G t g K L) as [(X & Y & Z) U]. split; auto. repeat split; auto. cbn. intros i q Q. apply nth_upd in Q.
    destruct Q as [[<- ->]|[_ Q]]; cbn; eapply Z; eauto.
Qed.
(** a tensor that gets no new gradient *)
Lemma own_put_tensor s k m i t u : own s k m -> nth_error (tensors s) i = Some t -> (grad u = grad t \/ grad u = None) -> own (put_tensor s i u) k m.
Proof.
  intros [P M N G] I E. constructor; auto.
  - cbn. intros j w K. apply nth_upd in K. destruct K as [[<- ->]|[_ K]]; [|eauto]. destruct E as [->| ->]; [eauto|discriminate].
  - cbn. intros w g K L.
    assert (exists w0, nth_error (tensors s) m = Some w0 /\ grad w0 = Some g) as (w0 & K0 & L0).
    { apply nth_upd in K. destruct K as [[<- ->]|[_ K]]; [|eauto]. exists t. split; auto. destruct E; congruence. }
    destruct (G _ _ K0 L0) as [X U]. split; [exact X|]. intros j v J V. apply nth_upd in J. destruct J as [[<- ->]|[_ J]]; [|eauto].
    apply (U _ _ I). destruct E; congruence.
Qed.
Lemma own_alloc s k m t : own s k m -> wf s -> grad t = None -> own (alloc s t) k m.
Proof.
  intros [P M N G] W E. constructor; auto.
  - cbn. intros j w K. apply nth_snoc in K. destruct K as [K|[_ ->]]; [eauto|congruence].
  - cbn. intros w g K L. apply nth_snoc in K. destruct K as [K|[_ ->]]; [|congruence]. destruct (G _ _ K L) as [X U]. split; [exact X|].
    intros j v J V. apply nth_snoc in J. destruct J as [J|[_ ->]]; [eauto|congruence].
Qed.
Lemma own_shapes s k m z : own s k m -> own (mkState z (tensors s) (vars s) (params s) (bufs s)) k m.
Proof. intros [P M N G]. constructor; auto. Qed.
Lemma own_m s k m : wf s -> own s k m -> m < length (tensors s).
Proof. intros W [(p & P & <-) _ _ _]. eapply wf_params; eauto. Qed.

Lemma own_set_requires s k m i b s' : own s k m -> set_requires s i b = Some s' -> own s' k m.
Proof. intros O H. unfold set_requires in H. cases. eapply own_put_tensor; eauto. Qed.
Lemma own_write s k m i b s' : own s k m -> write s i b = Some s' -> own s' k m.
Proof. intros O H. unfold write in H. cases. eapply own_put_tensor; eauto. Qed.
Lemma own_acc_grad s k m i j s' : wf s -> own s k m -> acc_grad add conv s i j = Some s' -> own s' k m.
Proof.
  intros W O H. unfold acc_grad in H. cases.
  - eapply own_put_tensor; eauto.
  - pose proof (own_m _ _ _ W O) as ML. pose proof (own_alloc _ _ _ (clone_of t0) O W eq_refl) as [P M N G].
    assert (unheld s k (length (tensors s))) as F.
    { repeat split; [intros v K; apply (wf_vars _ W) in K; lia|intros v K; apply (wf_bufs _ W) in K; lia|].
      intros q p K L. apply (wf_params _ W) in K. lia. }
    constructor; auto.
    + cbn. intros q w K. apply nth_upd in K. destruct K as [[<- ->]|[_ K]]; [|eapply N; exact K]. cbn. intros [= E]. lia.
    + cbn. intros w g K L. apply nth_upd in K. destruct K as [[<- ->]|[IM K]].
      * cbn in L. injection L as <-. split; [exact F|]. intros q v J V. apply nth_upd in J. destruct J as [[<- ->]|[_ J]]; [auto|].
        apply nth_snoc in J. destruct J as [J|[_ ->]]; [|discriminate]. pose proof (wf_grads _ W _ _ _ J V). lia.
      * destruct (G w g K L) as [X U]. split; [exact X|]. intros q v J V. apply nth_upd in J. destruct J as [[<- ->]|[_ J]]; [|eapply U; eauto].
        cbn in V. injection V as <-. apply nth_snoc in K. destruct K as [K|[Q _]]; [|cbn in *; lia]. pose proof (wf_grads _ W _ _ _ K L). lia.
Qed.

Lemma apart_unheld_var s k m v i : own s k m -> nth_error (vars s) v = Some i -> apart s m i.
Proof.
  intros [P M N G] V. split.
  - intros ->. destruct M as (X & _). eapply X; eauto.
  - intros t K L. destruct (G _ _ K L) as [(X & _) _]. eapply X; eauto.
Qed.
Lemma apart_unheld_buf s k m v i : own s k m -> nth_error (bufs s) v = Some i -> apart s m i.
Proof.
  intros [P M N G] V. split.
  - intros ->. destruct M as (_ & X & _). eapply X; eauto.
  - intros t K L. destruct (G _ _ K L) as [(_ & X & _) _]. eapply X; eauto.
Qed.
Lemma apart_unheld_par s k m j p : own s k m -> nth_error (params s) j = Some p -> j <> k -> apart s m (matrix p).
Proof.
  intros [P M N G] V J. split.
  - intros E. destruct M as (_ & _ & X). apply J. eapply X; eauto.
  - intros t K L. destruct (G _ _ K L) as [(_ & _ & X) _]. apply J. eapply X; eauto.
Qed.
Lemma apart_resolve s k m x i : own s k m -> resolve s x = Some i -> (forall j, x = Par j -> j <> k) -> apart s m i.
Proof.
  intros O R H. destruct x as [v|j]; cbn in R; [eapply apart_unheld_var; eauto|]. destruct (nth_error (params s) j) eqn:E; [|discriminate].
  injection R as <-. eapply apart_unheld_par; eauto.
Qed.
Lemma apart_fresh s k m : wf s -> own s k m -> apart s m (length (tensors s)).
Proof.
  intros W O. pose proof (own_m _ _ _ W O). split; [lia|]. intros t K L. pose proof (wf_grads _ W _ _ _ K L). lia.
Qed.
Lemma apart_grad s k m i t g : own s k m -> i <> m -> nth_error (tensors s) i = Some t -> grad t = Some g -> apart s m g.
Proof.
  intros [P M N G] I K L. split; [intros ->; eapply N; eauto|]. intros u A B. destruct (G _ _ A B) as [_ U]. apply I. eauto.
Qed.

Lemma apart_alloc s m t i : apart s m i -> m < length (tensors s) -> apart (alloc s t) m i.
Proof. intros [A B] L. split; auto. cbn. intros u K. rewrite nth_error_app1 in K by auto. eauto. Qed.

Lemma own_step s k m c s' : wf s -> own s k m -> exposes k c = false -> step add conv s c = Some s' -> own s' k m.
Proof.
  intros W O X H. pose proof (own_m _ _ _ W O) as ML. destruct c; cbn [step] in H; unfold on, on_buf in H; cbn [exposes] in X.
  - unfold new_dense in H. cases. apply own_hold.
    + apply own_alloc; [now apply own_shapes|now apply wf_alloc_shape|reflexivity].
    + apply apart_alloc; [exact (apart_fresh _ _ _ W O)|exact ML].
  - unfold clone in H. cases. apply own_hold; [now apply own_alloc|]. apply apart_alloc; auto. eapply apart_fresh; eauto.
  - cases. apply own_hold; auto. eapply apart_resolve; eauto. intros j ->. now apply Nat.eqb_neq.
  - unfold get_grad in H. cases; auto. apply own_hold; auto. apply (apart_grad _ k _ n t); auto. refine (proj1 (apart_resolve _ _ _ _ _ O Heqo _)). intros j ->. now apply Nat.eqb_neq.
  - cases. eapply own_write; eauto.
  - unfold reshape in H. cases. now apply own_shapes.
  - cases. eapply own_set_requires; eauto.
  - cases. eapply own_acc_grad; eauto.
  - unfold zero_grad in H. cases. eapply own_put_tensor; eauto.
  - unfold new_param in H. cases. eapply own_set_requires; [|eassumption]. apply own_hold_param; [now apply own_alloc|]. apply apart_alloc; auto.
    eapply apart_fresh; eauto.
  - unfold with_grad in H. cases. eapply own_set_requires; eauto.
  - unfold replace_value in H. cases. apply own_put_param; [auto|now apply Nat.eqb_neq|]. cbn. eapply apart_unheld_var; eauto.
  - unfold optimize in H. cases. eapply own_write; [|eassumption]. now apply own_put_same.
  - cases. apply own_hold_buf; auto. eapply apart_unheld_var; eauto.
  - cases. apply own_hold; auto. eapply apart_unheld_buf; eauto.
  - cases. auto.
  - cases. auto.
  - cases. eapply own_set_requires; eauto.
Qed.

(** ** New parameters *)
Lemma tensor_at_par (s : state) k p : nth_error (params s) k = Some p -> tensor_at s (Par k) = nth_error (tensors s) (matrix p).
Proof. intros H. unfold tensor_at, resolve. now rewrite H. Qed.

Lemma new_param_ok s x i t : wf s -> resolve s x = Some i -> nth_error (tensors s) i = Some t ->
  exists s', step add conv s (NewParam x) = Some s' /\ wf s' /\ own s' (length (params s)) (length (tensors s)) /\
    nth_error (tensors s') (length (tensors s)) = Some (mkTensor (prec t) (shape_ref t) (data t) None true) /\
    nth_error (params s') (length (params s)) = Some (mkParam (length (tensors s)) None) /\
    shapes s' = shapes s /\ vars s' = vars s /\ bufs s' = bufs s /\
    (forall j q, nth_error (params s) j = Some q -> nth_error (params s') j = Some q) /\
    (forall j q, nth_error (tensors s) j = Some q -> nth_error (tensors s') j = Some q).
Proof.
  intros W R K. set (n := length (tensors s)).
  assert (nth_error (tensors s ++ [clone_of t]) n = Some (clone_of t)) as E.
  { rewrite nth_error_app2 by (unfold n; lia). unfold n. now rewrite Nat.sub_diag. }
  assert (n < length (tensors s ++ [clone_of t])) as L by (rewrite app_length; cbn; unfold n; lia).
  cbn [step]. unfold on. rewrite R. unfold new_param. rewrite K. unfold set_requires. cbn [hold_param alloc tensors]. fold n. rewrite E.
  eexists. split; [reflexivity|]. split; [|split; [|split; [|split; [|split; [|split; [|split; [|split]]]]]]].
  - apply wf_put_tensor; [apply wf_hold_param; [apply wf_alloc; auto; exact (wf_shapes _ W _ _ K)|exact L]|exact (wf_shapes _ W _ _ K)|discriminate].
  - constructor.
    + exists (mkParam n None). cbn. split; auto. rewrite nth_error_app2, Nat.sub_diag by lia. reflexivity.
    + repeat split; cbn.
      * intros v V. apply (wf_vars _ W) in V. unfold n in V. lia.
      * intros v V. apply (wf_bufs _ W) in V. unfold n in V. lia.
      * intros j q J M. apply nth_snoc in J. destruct J as [J|[-> _]]; auto. apply (wf_params _ W) in J. unfold n in M. lia.
    + cbn. intros j u J. apply nth_upd in J. destruct J as [[_ ->]|[_ J]]; [discriminate|]. apply nth_snoc in J. destruct J as [J|[_ ->]]; [|discriminate].
      intros G. pose proof (wf_grads _ W _ _ _ J G). unfold n in *. lia.
    + cbn. intros u g J. rewrite nth_upd_same in J by exact L. injection J as <-. discriminate.
  - cbn. now rewrite nth_upd_same by exact L.
  - cbn. rewrite nth_error_app2, Nat.sub_diag by lia. reflexivity.
  - reflexivity.
  - reflexivity.
  - reflexivity.
  - cbn. intros j q J. rewrite nth_error_app1; auto. eapply nth_lt; eauto.
  - cbn. intros j q J. pose proof (nth_lt _ _ _ J). rewrite nth_upd_other by (unfold n; lia). now rewrite nth_error_app1.
Qed.

(** ** What a call leaves alone *)
Lemma set_requires_other (s s' : state) i b m : set_requires s i b = Some s' -> i <> m ->
  nth_error (tensors s') m = nth_error (tensors s) m /\ params s' = params s /\ shapes s' = shapes s.
Proof. intros H N. unfold set_requires in H. cases. cbn. rewrite nth_upd_other; auto. Qed.
Lemma write_other (s s' : state) i b m : write s i b = Some s' -> i <> m ->
  nth_error (tensors s') m = nth_error (tensors s) m /\ params s' = params s /\ shapes s' = shapes s.
Proof. intros H N. unfold write in H. cases. cbn. rewrite nth_upd_other; auto. Qed.

Lemma snoc_old {A} (l : list A) x m : m < length l -> nth_error (l ++ [x]) m = nth_error l m.
Proof. intros. now rewrite nth_error_app1. Qed.

Lemma keep_step s k m c s' : wf s -> own s k m -> changes k c = false -> step add conv s c = Some s' ->
  nth_error (tensors s') m = nth_error (tensors s) m /\ nth_error (params s') k = nth_error (params s) k.
Proof.
  intros W O X H. pose proof (own_m _ _ _ W O) as ML.
  assert (k < length (params s)) as KL by (destruct O as [(p & P & _) _ _ _]; eapply nth_lt; eauto).
  assert (forall x i, resolve s x = Some i -> (forall j, x = Par j -> j <> k) -> i <> m) as D.
  { intros x i R N. exact (proj1 (apart_resolve _ _ _ _ _ O R N)). }
  destruct c; cbn [step] in H; unfold on, on_buf in H; cbn [changes] in X.
  - unfold new_dense in H. cases. cbn. rewrite snoc_old; auto.
  - unfold clone in H. cases. cbn. rewrite snoc_old; auto.
  - cases. auto.
  - unfold get_grad in H. cases; auto.
  - cases. destruct (write_other _ _ _ _ m H) as (A & B & _); [|rewrite A, B; auto]. eapply D; eauto. intros j ->. now apply Nat.eqb_neq.
  - unfold reshape in H. cases. auto.
  - cases. destruct (set_requires_other _ _ _ _ m H) as (A & B & _); [|rewrite A, B; auto]. eapply D; eauto. intros j ->. now apply Nat.eqb_neq.
  - assert (forall j, x = Par j -> j <> k) as Q by (intros j ->; now apply Nat.eqb_neq). cases. unfold acc_grad in H. cases; cbn.
    + rewrite nth_upd_other; auto. intros ->. exact (own_no_grad _ _ _ O _ _ Heqo1 Heqo3).
    + rewrite nth_upd_other by (eapply D; eauto). rewrite snoc_old; auto.
  - assert (forall j, x = Par j -> j <> k) as Q by (intros j ->; now apply Nat.eqb_neq). unfold zero_grad in H. cases. cbn.
    rewrite nth_upd_other; [auto|]. eapply D; eauto.
  - unfold new_param in H. cases. apply set_requires_other with (m := m) in H; [|lia]. destruct H as (A & B & _). rewrite A, B. cbn.
    rewrite !snoc_old; auto.
  - unfold with_grad in H. cases. destruct (set_requires_other _ _ _ _ m H) as (A & B & _); [|rewrite A, B; auto].
    refine (proj1 (apart_unheld_par _ _ _ _ _ O Heqo _)). now apply Nat.eqb_neq.
  - unfold replace_value in H. cases. cbn. rewrite nth_upd_other; auto. now apply Nat.eqb_neq.
  - apply Nat.eqb_neq in X. unfold optimize in H. cases. destruct (write_other _ _ _ _ m H) as (A & B & _).
    + exact (proj1 (apart_unheld_par _ _ _ _ _ O Heqo0 X)).
    + rewrite A, B. cbn. rewrite nth_upd_other; auto.
  - cases. auto.
  - cases. auto.
  - cases. auto.
  - cases. auto.
  - cases. destruct (set_requires_other _ _ _ _ m H) as (A & B & _); [|rewrite A, B; auto]. exact (proj1 (apart_unheld_buf _ _ _ _ _ O Heqo)).
Qed.
Lemma changes_exposes k (c : call T S) : changes k c = false -> exposes k c = false.
Proof. destruct c as [| |[]|[]| | | | | | | | | | | | | |]; cbn; auto. Qed.
Lemma keep_run k m cs : forall s s', wf s -> own s k m -> existsb (changes k) cs = false -> run add conv s cs = Some s' ->
  nth_error (tensors s') m = nth_error (tensors s) m /\ nth_error (params s') k = nth_error (params s) k /\ own s' k m.
Proof.
  induction cs as [|c cs IH]; cbn; intros s s' W O X H; [injection H as <-; auto|]. apply orb_false_iff in X. destruct X as [X Y]. cases.
  destruct (keep_step _ _ _ _ _ W O X Heqo) as [A B].
  destruct (IH _ _ (wf_step _ _ _ W Heqo) (own_step _ _ _ _ _ W O (changes_exposes _ _ X) Heqo) Y H) as (C & D & E). split; [|split]; congruence.
Qed.

Lemma shapes_set_requires (s s' : state) i b : set_requires s i b = Some s' -> shapes s' = shapes s.
Proof. unfold set_requires. intros H. cases. auto. Qed.
Lemma shapes_step (s : state) c (s' : state) i z : reshapes c = false -> step add conv s c = Some s' -> nth_error (shapes s) i = Some z -> nth_error (shapes s') i = Some z.
Proof.
  intros X H Z. destruct c; cbn [step] in H; unfold on, on_buf, new_dense, clone, get_grad, reshape, write, acc_grad, zero_grad, new_param, with_grad, replace_value, optimize, write in H;
    try discriminate X; cases; cbn; auto; try (apply shapes_set_requires in H; rewrite H; auto).
  rewrite nth_error_app1; auto. eapply nth_lt; eauto.
Qed.
Lemma shapes_run cs : forall (s s' : state) i z, existsb reshapes cs = false -> run add conv s cs = Some s' -> nth_error (shapes s) i = Some z -> nth_error (shapes s') i = Some z.
Proof.
  induction cs as [|c cs IH]; cbn; intros s s' i z X H Z; [congruence|]. apply orb_false_iff in X. destruct X as [X Y]. cases.
  eapply IH; eauto. eapply shapes_step; eauto.
Qed.

(** ** Gradients *)
Definition gr (s : state) (m : nat) : option (option (list T)) :=
  match nth_error (tensors s) m with
  | Some t => match grad t with
              | Some g => match nth_error (tensors s) g with Some u => Some (Some (data u)) | None => None end
              | None => Some None end
  | None => None end.
Lemma gradient_par s k m : own s k m -> gradient s (Par k) = gr s m.
Proof. intros [(p & P & <-) _ _ _]. unfold gradient. now rewrite (tensor_at_par _ _ _ P). Qed.
Lemma gr_apart s m i u : apart s m i -> gr (put_tensor s i u) m = gr s m.
Proof.
  intros [A B]. unfold gr. cbn. rewrite nth_upd_other by auto. destruct (nth_error (tensors s) m) as [t|] eqn:E; auto.
  destruct (grad t) as [g|] eqn:G; auto. rewrite nth_upd_other; auto. intros ->. eapply B; eauto.
Qed.
Lemma gr_self s k m t u : own s k m -> nth_error (tensors s) m = Some t -> grad u = grad t -> gr (put_tensor s m u) m = gr s m.
Proof.
  intros O E G. unfold gr. cbn. rewrite nth_upd_same by (eapply nth_lt; eauto). rewrite E, G. destruct (grad t) as [g|] eqn:H; auto.
  rewrite nth_upd_other; auto. intros <-. eapply (own_no_grad _ _ _ O); eauto.
Qed.
Lemma gr_alloc s k m t : wf s -> own s k m -> gr (alloc s t) m = gr s m.
Proof.
  intros W O. pose proof (own_m _ _ _ W O) as L. unfold gr. cbn. rewrite snoc_old by auto. destruct (nth_error (tensors s) m) as [u|] eqn:E; auto.
  destruct (grad u) as [g|] eqn:G; auto. rewrite snoc_old; auto. eapply wf_grads; eauto.
Qed.
Lemma gr_tensors (s s' : state) m : tensors s' = tensors s -> gr s' m = gr s m.
Proof. unfold gr. now intros ->. Qed.
Lemma par_m s k m i : own s k m -> resolve s (Par k) = Some i -> i = m.
Proof. intros [(p & P & <-) _ _ _] R. cbn in R. rewrite P in R. cbn in R. congruence. Qed.
Lemma resolve_cases s k m x i : own s k m -> resolve s x = Some i -> (x = Par k /\ i = m) \/ apart s m i.
Proof.
  intros O R. destruct x as [v|j].
  - right. eapply apart_resolve; eauto. discriminate.
  - destruct (Nat.eq_dec j k) as [->|N]; [left; split; auto; eapply par_m; eauto|]. right. eapply apart_resolve; eauto. now intros ? [= <-].
Qed.

Lemma gr_write s k m x i l s' : own s k m -> resolve s x = Some i -> write s i l = Some s' -> gr s' m = gr s m.
Proof.
  intros O R H. unfold write in H. cases. destruct (resolve_cases _ _ _ _ _ O R) as [[-> ->]|A]; [eapply gr_self; eauto|now apply gr_apart].
Qed.
Lemma gr_set_requires s k m x i l s' : own s k m -> resolve s x = Some i -> set_requires s i l = Some s' -> gr s' m = gr s m.
Proof.
  intros O R H. unfold set_requires in H. cases. destruct (resolve_cases _ _ _ _ _ O R) as [[-> ->]|A]; [eapply gr_self; eauto|now apply gr_apart].
Qed.

Definition grads_of (k : nat) (c : call T S) : bool := match c with AccGrad (Par j) _ | ZeroGrad (Par j) => j =? k | _ => false end.
Lemma gr_step s k m c s' : wf s -> own s k m -> exposes k c = false -> grads_of k c = false -> step add conv s c = Some s' -> gr s' m = gr s m.
Proof.
  intros W O X Y H. destruct c; cbn [step] in H; unfold on, on_buf in H; cbn [exposes grads_of] in X, Y.
  - unfold new_dense in H. cases. rewrite <- (gr_alloc s k m (mkTensor p (length (shapes s)) l None false) W O). now apply gr_tensors.
  - unfold clone in H. cases. rewrite <- (gr_alloc s k m (clone_of t) W O). now apply gr_tensors.
  - cases. now apply gr_tensors.
  - unfold get_grad in H. cases; now apply gr_tensors.
  - cases. eapply gr_write; eauto.
  - unfold reshape in H. cases. now apply gr_tensors.
  - cases. eapply gr_set_requires; eauto.
  - assert (forall j, x = Par j -> j <> k) as Q by (intros j ->; now apply Nat.eqb_neq). cases.
    pose proof (apart_resolve _ _ _ _ _ O Heqo Q) as A. unfold acc_grad in H. cases.
    + apply gr_apart. eapply apart_grad; [exact O|exact (proj1 A)|eassumption|assumption].
    + rewrite gr_apart; [eapply gr_alloc; eauto|]. apply apart_alloc; auto. eapply own_m; eauto.
  - assert (forall j, x = Par j -> j <> k) as Q by (intros j ->; now apply Nat.eqb_neq). unfold zero_grad in H. cases.
    apply gr_apart. eapply apart_resolve; eauto.
  - unfold new_param, set_requires in H. cases. rewrite gr_apart.
    + rewrite <- (gr_alloc s k m (clone_of t) W O). now apply gr_tensors.
    + exact (apart_alloc _ _ _ _ (apart_fresh _ _ _ W O) (own_m _ _ _ W O)).
  - unfold with_grad in H. cases. apply (gr_set_requires s k m (Par k0) (matrix p) b); auto. cbn. now rewrite Heqo.
  - unfold replace_value in H. cases. now apply gr_tensors.
  - unfold optimize in H. cases. rewrite (gr_write (put_param s k0 (mkParam (matrix p) o)) k m (Par k0) (matrix p) l s'); auto.
    + now apply own_put_same.
    + cbn. now rewrite nth_upd_same by (eapply nth_lt; eauto).
  - cases. now apply gr_tensors.
  - cases. now apply gr_tensors.
  - cases. auto.
  - cases. auto.
  - cases. unfold set_requires in H. cases. apply gr_apart. eapply apart_unheld_buf; eauto.
Qed.

Lemma total_snoc given d : total add (given ++ [d]) = Some (match total add given with Some a => add_data add a d | None => d end).
Proof. destruct given as [|x given]; cbn; auto. now rewrite fold_left_app. Qed.
Lemma gr_acc s k m g s' given : wf s -> own s k m -> gr s m = Some (total add given) -> step add conv s (AccGrad (Par k) g) = Some s' ->
  exists d, elements_as conv s (Par k) g = Some d /\ gr s' m = Some (total add (given ++ [d])).
Proof.
  intros W O E H. cbn [step] in H. unfold on in H. destruct (resolve s (Par k)) as [i|] eqn:R; [|discriminate]. pose proof (par_m _ _ _ _ O R). subst i.
  destruct (resolve s g) as [j|] eqn:J; [|discriminate]. pose proof (own_m _ _ _ W O) as L. unfold acc_grad in H.
  destruct (nth_error (tensors s) m) as [t|] eqn:T0; [|discriminate]. destruct (nth_error (tensors s) j) as [u|] eqn:U; [|discriminate].
  exists (data_as conv (prec t) u). split; [unfold elements_as, tensor_at; now rewrite R, J, T0, U|]. rewrite total_snoc. unfold gr in E. rewrite T0 in E. destruct (grad t) as [h|] eqn:G.
  - destruct (nth_error (tensors s) h) as [w|] eqn:HH; [|discriminate]. destruct (same_dims s w u); [|discriminate]. injection H as <-. injection E as <-.
    assert (h <> m) as N by (intros ->; exact (own_no_grad _ _ _ O _ _ T0 G)).
    unfold gr. cbn. rewrite nth_upd_other by auto. rewrite T0, G. rewrite nth_upd_same by (eapply nth_lt; eauto). reflexivity.
  - injection E as <-. destruct (same_precision (prec u) (prec t)) eqn:SP; [|discriminate]. injection H as <-. unfold gr. cbn. rewrite nth_upd_same by (rewrite app_length; cbn; lia). cbn.
    rewrite nth_upd_other by lia. rewrite nth_error_app2, Nat.sub_diag by lia. unfold data_as. rewrite SP. reflexivity.
Qed.
Lemma gr_zero s k m s' : wf s -> own s k m -> step add conv s (ZeroGrad (Par k)) = Some s' -> gr s' m = Some None.
Proof.
  intros W O H. cbn [step] in H. unfold on in H. destruct (resolve s (Par k)) as [i|] eqn:R; [|discriminate]. apply (par_m _ _ _ _ O) in R. subst i.
  unfold zero_grad in H. cases. unfold gr. cbn. now rewrite nth_upd_same by (eapply nth_lt; eauto).
Qed.

Lemma gr_run k m cs : forall s s' given, wf s -> own s k m -> existsb (exposes k) cs = false -> run add conv s cs = Some s' ->
  gr s m = Some (total add given) -> gr s' m = Some (total add (since_zero add conv k s cs given)) /\ own s' k m.
Proof.
  induction cs as [|c cs IH]; cbn [existsb run since_zero]; intros s s' given W O X H E; [injection H as <-; auto|].
  apply orb_false_iff in X. destruct X as [X Y]. destruct (step add conv s c) as [s1|] eqn:Q; [|discriminate].
  eapply IH; eauto; [eapply wf_step; eauto|eapply own_step; eauto|].
  destruct (grads_of k c) eqn:GC.
  - destruct c as [| | | | | | |[v|j] g|[v|j]| | | | | | | | |]; try discriminate GC; cbn in GC; rewrite GC; apply Nat.eqb_eq in GC; subst j.
    + destruct (gr_acc _ _ _ _ _ _ W O E Q) as (d & D & R). rewrite D. exact R.
    + exact (gr_zero _ _ _ _ W O Q).
  - rewrite (gr_step _ _ _ _ _ W O X GC Q). destruct c as [| | | | | | |[v|j] g|[v|j]| | | | | | | | |]; auto; cbn in GC; rewrite GC; auto.
Qed.

(** ** Values *)
Definition now {A} (o : option A) (a : A) : A := match o with Some b => b | None => a end.
Lemma unchanged k (c : call T S) : changes k c = false -> written k c = None /\ flagged k c = None /\ stated k c = None.
Proof. destruct c as [| | | |[]| |[]| | | | | | | | | | |]; cbn; intros H; rewrite ?H; auto. Qed.
Lemma value_step s k m c s' t p : wf s -> own s k m -> exposes k c = false -> step add conv s c = Some s' ->
  nth_error (tensors s) m = Some t -> nth_error (params s) k = Some p ->
  exists t' p', nth_error (tensors s') m = Some t' /\ nth_error (params s') k = Some p' /\ matrix p' = m /\
    data t' = now (written k c) (data t) /\ requires_grad t' = now (flagged k c) (requires_grad t) /\ opt_state p' = now (stated k c) (opt_state p).
Proof.
  intros W O X H E P. assert (matrix p = m) as M by (destruct O as [(q & Q & R) _ _ _]; congruence).
  destruct (changes k c) eqn:C.
  2: { destruct (keep_step _ _ _ _ _ W O C H) as [A B]. destruct (unchanged _ _ C) as (U & V & Z). rewrite U, V, Z. exists t, p. cbn. repeat split; congruence. }
  pose proof (own_m _ _ _ W O) as L. pose proof (nth_lt _ _ _ P) as KL.
  destruct c as [| |[v|j]|[v|j]|[v|j] l|[v|j] a b|[v|j] b|[v|j] g|[v|j]| |j b|j v|j l o| | | | |]; try discriminate C; cbn in C; pose proof C as C'; apply Nat.eqb_eq in C'; subst j; cbn in X;
    try congruence; cbn [written flagged stated]; rewrite ?C; cbn [now]; cbn [step] in H; unfold on in H; cbn [resolve] in H; rewrite ?P in H; cbn [option_map] in H; rewrite ?M in H.
  - unfold write in H. rewrite E in H. cases. do 2 eexists. cbn. rewrite nth_upd_same by auto. repeat split; eauto.
  - unfold reshape in H. rewrite E in H. cases. exists t, p. repeat split; auto.
  - unfold set_requires in H. rewrite E in H. cases. do 2 eexists. cbn. rewrite nth_upd_same by auto. repeat split; eauto.
  - destruct (resolve s g) as [i|]; [|discriminate].
    unfold acc_grad in H. rewrite E in H. destruct (nth_error (tensors s) i) as [u|] eqn:U; [|discriminate]. destruct (grad t) as [h|] eqn:G.
    + assert (h <> m) as N by (intros ->; exact (own_no_grad _ _ _ O _ _ E G)). cases. exists t, p. cbn. rewrite nth_upd_other by auto. repeat split; auto.
    + cases. do 2 eexists. cbn. rewrite nth_upd_same by (rewrite app_length; cbn; lia). repeat split; eauto.
  - unfold zero_grad in H. rewrite E in H. cases. do 2 eexists. cbn. rewrite nth_upd_same by auto. repeat split; eauto.
  - unfold with_grad in H. rewrite P, M in H. unfold set_requires in H. rewrite E in H. cases. do 2 eexists. cbn. rewrite nth_upd_same by auto. repeat split; eauto.
  - unfold optimize in H. rewrite P, M in H. unfold write in H. cbn [put_param tensors] in H. rewrite E in H. cases. do 2 eexists. cbn. rewrite !nth_upd_same by auto. repeat split; eauto.
Qed.
Lemma value_run k m cs : forall s s' t p, wf s -> own s k m -> existsb (exposes k) cs = false -> run add conv s cs = Some s' ->
  nth_error (tensors s) m = Some t -> nth_error (params s) k = Some p ->
  exists t' p', nth_error (tensors s') m = Some t' /\ nth_error (params s') k = Some p' /\ matrix p' = m /\
    data t' = latest (written k) cs (data t) /\ requires_grad t' = latest (flagged k) cs (requires_grad t) /\ opt_state p' = latest (stated k) cs (opt_state p).
Proof.
  induction cs as [|c cs IH]; cbn [existsb run]; intros s s' t p W O X H E P.
  - injection H as <-. exists t, p. repeat split; auto. destruct O as [(q & Q & R) _ _ _]; congruence.
  - apply orb_false_iff in X. destruct X as [X Y]. destruct (step add conv s c) as [s1|] eqn:Q; [|discriminate].
    destruct (value_step _ _ _ _ _ _ _ W O X Q E P) as (t1 & p1 & A & B & M & D & F & G).
    destruct (IH _ _ _ _ (wf_step _ _ _ W Q) (own_step _ _ _ _ _ W O X Q) Y H A B) as (t2 & p2 & A2 & B2 & M2 & D2 & F2 & G2).
    exists t2, p2. repeat split; auto; unfold latest in *; cbn [fold_left].
    + now rewrite D2, D.
    + now rewrite F2, F.
    + now rewrite G2, G.
Qed.

(** ** Replaced values *)
Lemma resolve_par (s : state) k p : nth_error (params s) k = Some p -> resolve s (Par k) = Some (matrix p).
Proof. intros H. cbn. now rewrite H. Qed.
Lemma matrix_step (s : state) c (s' : state) k p : replaces k c = false -> step add conv s c = Some s' -> nth_error (params s) k = Some p ->
  exists q, nth_error (params s') k = Some q /\ matrix q = matrix p.
Proof.
  intros X H P. pose proof (nth_lt _ _ _ P) as L.
  destruct c; cbn [step] in H; unfold on, on_buf, new_dense, clone, get_grad, reshape, write, acc_grad, zero_grad, new_param, with_grad, replace_value, optimize, write, set_requires in H;
    cases; cbn; eauto.
  - exists p. split; auto. now rewrite snoc_old.
  - cbn in X. apply Nat.eqb_neq in X. exists p. split; auto. now rewrite nth_upd_other.
  - destruct (Nat.eq_dec k0 k) as [->|N].
    + eexists. split; [now apply nth_upd_same|]. cbn. congruence.
    + exists p. split; auto. now rewrite nth_upd_other.
Qed.
Lemma vars_step (s : state) c (s' : state) v i : step add conv s c = Some s' -> nth_error (vars s) v = Some i -> nth_error (vars s') v = Some i.
Proof.
  intros H V. pose proof (nth_lt _ _ _ V) as L.
  destruct c; cbn [step] in H; unfold on, on_buf, new_dense, clone, get_grad, reshape, write, acc_grad, zero_grad, new_param, with_grad, replace_value, optimize, write, set_requires in H;
    cases; cbn; auto; now rewrite snoc_old.
Qed.
Lemma alias_run k v cs : forall (s s' : state) p, existsb (replaces k) cs = false -> run add conv s cs = Some s' -> nth_error (params s) k = Some p ->
  nth_error (vars s) v = Some (matrix p) -> resolve s' (Par k) = resolve s' (Var v).
Proof.
  induction cs as [|c cs IH]; cbn [existsb run]; intros s s' p X H P V.
  - injection H as <-. cbn. now rewrite P, V.
  - apply orb_false_iff in X. destruct X as [X Y]. destruct (step add conv s c) as [s1|] eqn:Q; [|discriminate].
    destruct (matrix_step _ _ _ _ _ X Q P) as (q & A & B). eapply IH; eauto. rewrite B. eapply vars_step; eauto.
Qed.

(** ** The matrix Grad gives *)
Lemma pointer_put (s : state) i g j u : (exists t, nth_error (tensors s) i = Some t /\ grad t = Some g) ->
  (forall t, nth_error (tensors s) j = Some t -> grad u = grad t) -> exists t, nth_error (tensors (put_tensor s j u)) i = Some t /\ grad t = Some g.
Proof.
  intros (t & E & G) H. cbn. destruct (Nat.eq_dec j i) as [->|N].
  - exists u. split; [apply nth_upd_same; eapply nth_lt; eauto|]. rewrite (H _ E). exact G.
  - exists t. now rewrite nth_upd_other.
Qed.
Lemma pointer_alloc (s : state) i g u : (exists t, nth_error (tensors s) i = Some t /\ grad t = Some g) -> exists t, nth_error (tensors (alloc s u)) i = Some t /\ grad t = Some g.
Proof. intros (t & E & G). exists t. cbn. rewrite snoc_old; auto. eapply nth_lt; eauto. Qed.
Lemma pointer_set_requires (s s' : state) i g j b : set_requires s j b = Some s' -> (exists t, nth_error (tensors s) i = Some t /\ grad t = Some g) ->
  exists t, nth_error (tensors s') i = Some t /\ grad t = Some g.
Proof. unfold set_requires. intros H P. cases. apply pointer_put; auto. intros w E. cbn. congruence. Qed.
Lemma pointer_write (s s' : state) i g j b : write s j b = Some s' -> (exists t, nth_error (tensors s) i = Some t /\ grad t = Some g) ->
  exists t, nth_error (tensors s') i = Some t /\ grad t = Some g.
Proof. unfold write. intros H P. cases. apply pointer_put; auto. intros w E. cbn. congruence. Qed.
Lemma pointer_step (s : state) c (s' : state) i g x : ends_gradient x c = false -> step add conv s c = Some s' -> (exists t, nth_error (tensors s) i = Some t /\ grad t = Some g) ->
  exists t, nth_error (tensors s') i = Some t /\ grad t = Some g.
Proof.
  intros X H P. destruct c; cbn [step] in H; unfold on, on_buf in H; try discriminate X.
  - unfold new_dense in H. cases. exact (pointer_alloc s i g _ P).
  - unfold clone in H. cases. exact (pointer_alloc s i g _ P).
  - cases. auto.
  - unfold get_grad in H. cases; auto.
  - cases. eapply pointer_write; eauto.
  - unfold reshape in H. cases. auto.
  - cases. eapply pointer_set_requires; eauto.
  - unfold acc_grad in H. cases.
    + apply pointer_put; auto. intros ? E. cbn. congruence.
    + destruct P as (w & E & G). destruct (Nat.eq_dec n i) as [->|N]; [congruence|]. exists w. cbn. rewrite nth_upd_other by auto. rewrite snoc_old; auto. eapply nth_lt; eauto.
  - unfold new_param in H. cases. eapply pointer_set_requires; [eassumption|]. exact (pointer_alloc s i g _ P).
  - unfold with_grad in H. cases. eapply pointer_set_requires; eauto.
  - unfold replace_value in H. cases. auto.
  - unfold optimize in H. cases. eapply pointer_write; [eassumption|]. auto.
  - cases. auto.
  - cases. auto.
  - cases. auto.
  - cases. auto.
  - cases. eapply pointer_set_requires; eauto.
Qed.
Lemma resolve_step (s : state) c (s' : state) i x : ends_gradient x c = false -> step add conv s c = Some s' -> resolve s x = Some i -> resolve s' x = Some i.
Proof.
  intros X H R. destruct x as [v|k]; [eapply vars_step; eauto|]. cbn in R. destruct (nth_error (params s) k) as [p|] eqn:P; [|discriminate].
  assert (replaces k c = false) as Y by (destruct c; cbn in *; auto).
  destruct (matrix_step _ _ _ _ _ Y H P) as (q & Q & M). cbn. rewrite Q. cbn in *. congruence.
Qed.
Lemma pointer_run x i g v cs : forall (s s' : state), existsb (ends_gradient x) cs = false -> run add conv s cs = Some s' ->
  (exists t, nth_error (tensors s) i = Some t /\ grad t = Some g) -> resolve s x = Some i -> nth_error (vars s) v = Some g ->
  (exists t, nth_error (tensors s') i = Some t /\ grad t = Some g) /\ resolve s' x = Some i /\ nth_error (vars s') v = Some g.
Proof.
  induction cs as [|c cs IH]; cbn [existsb run]; intros s s' X H P R V; [injection H as <-; auto|].
  apply orb_false_iff in X. destruct X as [X Y]. destruct (step add conv s c) as [s1|] eqn:Q; [|discriminate].
  eapply IH; eauto; [eapply pointer_step; eauto|eapply resolve_step; eauto|eapply vars_step; eauto].
Qed.
End Proofs.
