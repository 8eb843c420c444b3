(** * Adaptive optimizers *)
From Coq Require Import Reals List Arith ZArith Bool Lia Lra Psatz.
From Coquelicot Require Import Coquelicot.
From Verif Require Import DenseModel DenseSpec ArithModel ArithSpec ArithProofs GradModel GradSpec GradLemmas GradProofs OptModel OptSpec OptProofs.
Import ListNotations.
Open Scope R_scope.

Fixpoint trail (d : nat -> (nat -> nat -> R) -> nat -> nat -> R) (x0 : nat -> nat -> R) (n : nat) : nat -> nat -> R :=
  match n with O => x0 | S n => fun i j => trail d x0 n i j - d n (trail d x0 n) i j end.

Section Generic.
Variables (St : Type) (unwrap : ostate -> option St) (wrap : St -> ostate) (fresh_state : mat -> St)
  (update : nat -> mat -> St -> mat -> option (mat * St)).
Hypothesis unwrap_wrap : forall s, unwrap (wrap s) = Some s.
Variables (g : nat -> mat) (x0 : mat) (r c : nat) (Inv : nat -> St -> Prop) (d : nat -> (nat -> nat -> R) -> nat -> nat -> R).
Hypotheses (F0 : fits x0 r c) (HI0 : Inv 0%nat (fresh_state x0)).
Hypothesis d_ext : forall n f f' i j, (forall i j, (i < r)%nat -> (j < c)%nat -> f i j = f' i j) -> (i < r)%nat -> (j < c)%nat -> d n f i j = d n f' i j.
Hypothesis Hstep : forall n s w, Inv n s -> fits w r c ->
  exists delta s', update n (g n) s w = Some (delta, s') /\ Inv (S n) s' /\ elems delta r c (d n (rget w)).

Lemma generic_successive n : exists v v', successive (fun k => optimize St unwrap wrap fresh_state (update k)) g x0 n v v' /\ fits v r c /\
  elems v' r c (fun i j => rget v i j - d n (rget v) i j).
Proof.
  destruct (run_successive St unwrap wrap fresh_state update unwrap_wrap g x0 r c (trail d (rget x0)) Inv) with (n := n) as (v & v' & S1 & E & E').
  - now apply fits_elems.
  - exact HI0.
  - intros k s w HI Ew. destruct (Hstep k s w HI (elems_fits _ _ _ _ Ew)) as (delta & s' & U & HI' & Ed). exists delta, s', (d k (rget w)).
    split; [exact U|]. split; [exact HI'|]. split; [exact Ed|]. intros i j Hi Hj. cbn [trail]. f_equal. apply d_ext; auto. intros a b Ha Hb. now apply (elems_at w r c).
  - exists v, v'. split; [exact S1|]. split; [eauto with opt|]. eapply elems_ext; [exact E'|]. intros i j Hi Hj. cbn [trail].
    rewrite (elems_at _ _ _ _ i j E) by auto. f_equal. symmetry. apply d_ext; auto. intros a b Ha Hb. now apply (elems_at v r c).
Qed.
End Generic.

Section Moments.
Variables (b1 b2 : R) (g : nat -> mat) (r c : nat).
Hypothesis Fg : forall k, fits (g k) r c.
Definition mom (n : nat) (s : moments) : Prop :=
  elems (mo_1 s) r c (fun i j => average b1 (entry g i j) n) /\ elems (mo_2 s) r c (fun i j => average b2 (fun k => entry g i j k ^ 2) n) /\
  fits (mo_b1 s) r c /\ fits (mo_b2 s) r c /\ fits (mo_b3 s) r c.
Lemma mom_fresh x0 : fits x0 r c -> mom 0 (moments_fresh x0).
Proof.
  intros (_ & Hr & Hc). unfold moments_fresh. rewrite Hr, Hc. pose proof (m_zeros_elems r c) as Z. unfold mom. cbn.
  split; [eapply elems_ext; [exact Z|]; intros; now rewrite average_0|]. split; [eapply elems_ext; [exact Z|]; intros; now rewrite average_0|]. pose proof (elems_fits _ _ _ _ Z). auto.
Qed.
Lemma mom_step n s : mom n s -> exists s1 s2, update_first b1 (g n) s = Some s1 /\ update_second b2 (g n) s1 = Some s2 /\ mom (S n) s2.
Proof.
  intros (E1 & E2 & F1 & F2 & F3). unfold update_first.
  destruct (pms_elems (mo_b1 s) (g n) (1 - b1) r c F1 (Fg n)) as (u1 & -> & U1). cbn [bind].
  pose proof (m_prods_in_elems (mo_1 s) b1 r c (elems_fits _ _ _ _ E1)) as P1.
  destruct (m_add_in_elems (m_prods_in (mo_1 s) b1) u1 r c) as (v & -> & V); [eauto with opt|eauto with opt|]. cbn [bind].
  exists (mkMom v (mo_2 s) u1 (mo_b2 s) (mo_b3 s)). unfold update_second. cbn [mo_1 mo_2 mo_b1 mo_b2 mo_b3].
  destruct (m_prod_elems (g n) (g n) r c (Fg n) (Fg n)) as (sq & -> & Q). cbn [bind].
  destruct (pms_elems (mo_b2 s) sq (1 - b2) r c F2 (elems_fits _ _ _ _ Q)) as (u2 & -> & U2). cbn [bind].
  pose proof (m_prods_in_elems (mo_2 s) b2 r c (elems_fits _ _ _ _ E2)) as P2.
  destruct (m_add_in_elems (m_prods_in (mo_2 s) b2) u2 r c) as (m & -> & M); [eauto with opt|eauto with opt|]. cbn [bind].
  eexists _. split; [reflexivity|]. split; [reflexivity|]. unfold mom. cbn [mo_1 mo_2 mo_b1 mo_b2 mo_b3].
  split; [|split; [|eauto 6 with opt]].
  - eapply elems_ext; [exact V|]. intros i j Hi Hj. cbv beta. rewrite (elems_at _ _ _ _ i j P1), (elems_at _ _ _ _ i j U1), (elems_at _ _ _ _ i j E1) by auto.
    rewrite average_step. unfold entry at 3. ring.
  - eapply elems_ext; [exact M|]. intros i j Hi Hj. cbv beta. rewrite (elems_at _ _ _ _ i j P2), (elems_at _ _ _ _ i j U2), (elems_at _ _ _ _ i j Q), (elems_at _ _ _ _ i j E2) by auto.
    rewrite average_step. unfold entry at 3. ring.
Qed.
(** v / (sqrt m + e) *)
Lemma quotient n s e : mom n s -> exists q, m_div (mo_1 s) (m_adds_in (m_sqrt (mo_2 s)) e) = Some q /\
  elems q r c (fun i j => average b1 (entry g i j) n / (sqrt (average b2 (fun k => entry g i j k ^ 2) n) + e)).
Proof.
  intros (E1 & E2 & _). pose proof (m_unary_elems sqrt (mo_2 s) r c (elems_fits _ _ _ _ E2)) as Q.
  pose proof (m_adds_in_elems (m_sqrt (mo_2 s)) e r c (elems_fits _ _ _ _ Q)) as A.
  destruct (m_div_elems (mo_1 s) (m_adds_in (m_sqrt (mo_2 s)) e) r c) as (q & -> & D); [eauto with opt|eauto with opt|].
  eexists. split; [reflexivity|]. eapply elems_ext; [exact D|]. intros i j Hi Hj. cbv beta.
  rewrite (elems_at _ _ _ _ i j A), (elems_at _ _ _ _ i j E1) by auto. unfold m_sqrt. rewrite (elems_at _ _ _ _ i j Q), (elems_at _ _ _ _ i j E2) by auto. reflexivity.
Qed.
(** ... + lambda * w *)
Lemma direction n s e lambda w q : fits w r c ->
  elems q r c (fun i j => average b1 (entry g i j) n / (sqrt (average b2 (fun k => entry g i j k ^ 2) n) + e)) -> mom n s ->
  exists u, (if Ris0 lambda then Some q else m_add_in q (m_prods w lambda)) = Some u /\
    elems u r c (fun i j => adam_direction b1 b2 e lambda (entry g i j) n (rget w i j)).
Proof.
  intros Fw Q _. unfold adam_direction. destruct (Req_EM_T lambda 0) as [->|Hl].
  - rewrite Ris0_true by auto. eexists. split; [reflexivity|]. eapply elems_ext; [exact Q|]. intros. cbv beta. ring.
  - rewrite Ris0_false by auto. pose proof (m_prods_elems w lambda r c Fw) as P.
    destruct (m_add_in_elems q (m_prods w lambda) r c) as (u & -> & U); [eauto with opt|eauto with opt|]. eexists. split; [reflexivity|].
    eapply elems_ext; [exact U|]. intros i j Hi Hj. cbv beta. rewrite (elems_at _ _ _ _ i j Q), (elems_at _ _ _ _ i j P) by auto. ring.
Qed.
Lemma scaled n s u f k : mom n s -> elems u r c f -> exists m, m_pms (mo_b3 s) u k = Some m /\ elems m r c (fun i j => k * f i j) /\ mom n (set_b3 s m).
Proof.
  intros (E1 & E2 & F1 & F2 & F3) U. destruct (pms_elems (mo_b3 s) u k r c F3) as (m & -> & M); [eauto with opt|]. exists m. split; [reflexivity|]. split.
  - eapply elems_ext; [exact M|]. intros i j Hi Hj. cbv beta. rewrite (elems_at _ _ _ _ i j U) by auto. ring.
  - unfold mom, set_b3. cbn. eauto 6 with opt.
Qed.
End Moments.

Lemma adam_run b1 b2 eps lambda alpha g x0 r c : fits x0 r c -> (forall k, fits (g k) r c) -> forall n, exists v v',
  successive (fun k => adam_optimize (alpha k) b1 b2 eps lambda) g x0 n v v' /\ fits v r c /\
  elems v' r c (fun i j => rget v i j - alpha n * adam_direction b1 b2 eps lambda (entry g i j) (S n) (rget v i j)).
Proof.
  intros F0 Fg. apply (generic_successive moments _ _ _ (fun k => adam_update (alpha k) b1 b2 eps lambda)) with (Inv := mom b1 b2 g r c)
    (d := fun n w i j => alpha n * adam_direction b1 b2 eps lambda (entry g i j) (S n) (w i j)); auto.
  - now apply mom_fresh.
  - intros n f f' i j H Hi Hj. now rewrite H.
  - intros n s w M Fw. unfold adam_update. destruct (mom_step b1 b2 g r c Fg n s M) as (s1 & s2 & -> & H2 & M2). cbn [bind]. rewrite H2. cbn [bind].
    destruct (quotient b1 b2 g r c (S n) s2 eps M2) as (q & -> & Q). cbn [bind].
    destruct (direction b1 b2 g r c (S n) s2 eps lambda w q Fw Q M2) as (u & -> & U). cbn [bind].
    destruct (scaled b1 b2 g r c (S n) s2 u _ (alpha n) M2 U) as (m & -> & E & M3). cbn [bind]. eauto.
Qed.

Lemma norm2_ext r c f f' : (forall i j, (i < r)%nat -> (j < c)%nat -> f i j = f' i j) -> norm2 r c f = norm2 r c f'.
Proof. intros H. unfold norm2. f_equal. apply Rsum_ext. intros i Hi. apply Rsum_ext. intros j Hj. now rewrite H. Qed.
Lemma lamb_norm_elems m r c f : elems m r c f -> lamb_norm m = Some (norm2 r c f).
Proof.
  intros E. unfold lamb_norm. destruct (m_prod_sum m m r c) as (p & -> & Hs); eauto with opt. cbn [bind]. rewrite Hs. unfold norm2. do 2 f_equal.
  apply Rsum_ext. intros i Hi. apply Rsum_ext. intros j Hj. rewrite (elems_at _ _ _ _ i j E) by auto. ring.
Qed.
Lemma trust_model a b : (if Ris0 a || Ris0 b then 1 else a / b) = trust a b.
Proof. unfold trust, Ris0. destruct (Req_EM_T a 0), (Req_EM_T b 0); reflexivity. Qed.

Lemma lamb_run b1 b2 eps lambda alpha g x0 r c : fits x0 r c -> (forall k, fits (g k) r c) -> forall n, exists v v',
  successive (fun k => lamb_optimize (alpha k) b1 b2 eps lambda) g x0 n v v' /\ fits v r c /\
  let u := fun i j => adam_direction b1 b2 eps lambda (entry g i j) (S n) (rget v i j) in
  elems v' r c (fun i j => rget v i j - alpha n * trust (norm2 r c (rget v)) (norm2 r c u) * u i j).
Proof.
  intros F0 Fg. apply (generic_successive moments _ _ _ (fun k => lamb_update (alpha k) b1 b2 eps lambda)) with (Inv := mom b1 b2 g r c)
    (d := fun n w i j => let u := fun i j => adam_direction b1 b2 eps lambda (entry g i j) (S n) (w i j) in
            alpha n * trust (norm2 r c w) (norm2 r c u) * u i j); auto.
  - now apply mom_fresh.
  - intros n f f' i j H Hi Hj. cbv zeta. rewrite (norm2_ext r c f f' H). rewrite (H i j) by auto.
    rewrite (norm2_ext r c (fun i j => adam_direction b1 b2 eps lambda (entry g i j) (S n) (f i j)) (fun i j => adam_direction b1 b2 eps lambda (entry g i j) (S n) (f' i j))); [reflexivity|].
    intros a b Ha Hb. now rewrite H.
  - intros n s w M Fw. unfold lamb_update. destruct (mom_step b1 b2 g r c Fg n s M) as (s1 & s2 & -> & H2 & M2). cbn [bind]. rewrite H2. cbn [bind].
    destruct (quotient b1 b2 g r c (S n) s2 eps M2) as (q & -> & Q). cbn [bind].
    destruct (direction b1 b2 g r c (S n) s2 eps lambda w q Fw Q M2) as (u & -> & U). cbn [bind].
    rewrite (lamb_norm_elems w r c (rget w)) by now apply fits_elems. cbn [bind]. rewrite (lamb_norm_elems u r c _ U). cbn [bind]. rewrite trust_model.
    destruct (scaled b1 b2 g r c (S n) s2 u _ (alpha n * trust (norm2 r c (rget w)) (norm2 r c (fun i j => adam_direction b1 b2 eps lambda (entry g i j) (S n) (rget w i j)))) M2 U) as (m & -> & E & M3). cbn [bind]. eauto.
Qed.

Lemma radam_run b1 b2 eps step ts g x0 r c : fits x0 r c -> (forall k, fits (g k) r c) -> forall n, exists v v',
  successive (fun k => radam_optimize step b1 b2 eps (ts k)) g x0 n v v' /\ fits v r c /\
  elems v' r c (fun i j => rget v i j - radam_alpha step b1 b2 (ts n) *
    (average b1 (entry g i j) (S n) / (sqrt (average b2 (fun k => entry g i j k ^ 2) (S n)) + eps * sqrt (1 - b2 ^ ts n)))).
Proof.
  intros F0 Fg. apply (generic_successive moments _ _ _ (fun k => radam_update step b1 b2 eps (ts k))) with (Inv := mom b1 b2 g r c)
    (d := fun n (w : nat -> nat -> R) i j => radam_alpha step b1 b2 (ts n) * (average b1 (entry g i j) (S n) / (sqrt (average b2 (fun k => entry g i j k ^ 2) (S n)) + eps * sqrt (1 - b2 ^ ts n)))); auto.
  - now apply mom_fresh.
  - intros n s w M Fw. unfold radam_update. destruct (mom_step b1 b2 g r c Fg n s M) as (s1 & s2 & -> & H2 & M2). cbn [bind]. rewrite H2. cbn [bind].
    destruct (quotient b1 b2 g r c (S n) s2 (eps * sqrt (1 - b2 ^ ts n)) M2) as (q & -> & Q). cbn [bind].
    destruct (scaled b1 b2 g r c (S n) s2 q _ (radam_alpha step b1 b2 (ts n)) M2 Q) as (m & -> & E & M3). cbn [bind]. eauto.
Qed.

Lemma adagrad_run lr eps g x0 r c : fits x0 r c -> (forall k, fits (g k) r c) -> forall n, exists v v',
  successive (fun _ => adagrad_optimize lr eps) g x0 n v v' /\ fits v r c /\
  elems v' r c (fun i j => rget v i j - lr * (entry g i j n / (sqrt (Rsum (S n) (fun k => entry g i j k ^ 2)) + eps))).
Proof.
  intros F0 Fg. apply (generic_successive mat _ _ _ (fun _ => adagrad_update lr eps)) with (Inv := fun n m => elems m r c (fun i j => Rsum n (fun k => entry g i j k ^ 2)))
    (d := fun n (w : nat -> nat -> R) i j => lr * (entry g i j n / (sqrt (Rsum (S n) (fun k => entry g i j k ^ 2)) + eps))); auto.
  - destruct F0 as (_ & -> & ->). apply m_zeros_elems.
  - intros n m w M Fw. unfold adagrad_update. destruct (m_prod_elems (g n) (g n) r c (Fg n) (Fg n)) as (sq & -> & Q). cbn [bind].
    destruct (m_add_in_elems m sq r c) as (m' & -> & M'); [eauto with opt|eauto with opt|]. cbn [bind].
    assert (E : elems m' r c (fun i j => Rsum (S n) (fun k => entry g i j k ^ 2))).
    { eapply elems_ext; [exact M'|]. intros i j Hi Hj. cbv beta. rewrite (elems_at _ _ _ _ i j M), (elems_at _ _ _ _ i j Q) by auto. rewrite Rsum_r. unfold entry at 3. ring. }
    pose proof (m_unary_elems sqrt m' r c (elems_fits _ _ _ _ E)) as S'. pose proof (m_adds_in_elems (m_sqrt m') eps r c (elems_fits _ _ _ _ S')) as A.
    destruct (m_div_elems (g n) (m_adds_in (m_sqrt m') eps) r c) as (q & -> & D); [auto|eauto with opt|]. cbn [bind].
    eexists _, _. split; [reflexivity|]. split; [exact E|]. eapply elems_ext; [apply m_prods_in_elems; eauto with opt|]. intros i j Hi Hj. cbv beta.
    rewrite (elems_at _ _ _ _ i j D), (elems_at _ _ _ _ i j A) by auto. unfold m_sqrt. rewrite (elems_at _ _ _ _ i j S'), (elems_at _ _ _ _ i j E) by auto. unfold entry. ring.
Qed.

Lemma rmsprop_run lr eps decay g x0 r c : fits x0 r c -> (forall k, fits (g k) r c) -> forall n, exists v v',
  successive (fun _ => rmsprop_optimize lr eps decay) g x0 n v v' /\ fits v r c /\
  elems v' r c (fun i j => rget v i j - lr * (entry g i j n / (sqrt (average decay (fun k => entry g i j k ^ 2) (S n)) + eps))).
Proof.
  intros F0 Fg. apply (generic_successive mat _ _ _ (fun _ => rmsprop_update lr eps decay)) with (Inv := fun n m => elems m r c (fun i j => average decay (fun k => entry g i j k ^ 2) n))
    (d := fun n (w : nat -> nat -> R) i j => lr * (entry g i j n / (sqrt (average decay (fun k => entry g i j k ^ 2) (S n)) + eps))); auto.
  - destruct F0 as (_ & -> & ->). eapply elems_ext; [apply m_zeros_elems|]. intros. now rewrite average_0.
  - intros n m w M Fw. unfold rmsprop_update. destruct (m_prod_elems (g n) (g n) r c (Fg n) (Fg n)) as (sq & -> & Q). cbn [bind].
    pose proof (m_prods_in_elems sq (1 - decay) r c (elems_fits _ _ _ _ Q)) as Q'. pose proof (m_prods_in_elems m decay r c (elems_fits _ _ _ _ M)) as M0.
    destruct (m_add_in_elems (m_prods_in m decay) (m_prods_in sq (1 - decay)) r c) as (m' & -> & M'); [eauto with opt|eauto with opt|]. cbn [bind].
    assert (E : elems m' r c (fun i j => average decay (fun k => entry g i j k ^ 2) (S n))).
    { eapply elems_ext; [exact M'|]. intros i j Hi Hj. cbv beta. rewrite (elems_at _ _ _ _ i j M0), (elems_at _ _ _ _ i j Q'), (elems_at _ _ _ _ i j M), (elems_at _ _ _ _ i j Q) by auto. rewrite average_step. unfold entry at 3. ring. }
    pose proof (m_unary_elems sqrt m' r c (elems_fits _ _ _ _ E)) as S'. pose proof (m_adds_in_elems (m_sqrt m') eps r c (elems_fits _ _ _ _ S')) as A.
    destruct (m_div_elems (g n) (m_adds_in (m_sqrt m') eps) r c) as (q & -> & D); [auto|eauto with opt|]. cbn [bind].
    eexists _, _. split; [reflexivity|]. split; [exact E|]. eapply elems_ext; [apply m_prods_in_elems; eauto with opt|]. intros i j Hi Hj. cbv beta.
    rewrite (elems_at _ _ _ _ i j D), (elems_at _ _ _ _ i j A) by auto. unfold m_sqrt. rewrite (elems_at _ _ _ _ i j S'), (elems_at _ _ _ _ i j E) by auto. unfold entry. ring.
Qed.
