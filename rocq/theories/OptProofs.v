(** * Optimizers: closed forms over histories *)
From Coq Require Import Reals List Arith ZArith Bool Lia Lra Psatz.
From Coquelicot Require Import Coquelicot.
From Verif Require Import DenseModel DenseSpec ArithModel ArithSpec ArithProofs GradModel GradSpec GradLemmas GradProofs OptModel OptSpec.
Import ListNotations.
Open Scope R_scope.

(** ** Matrix operations *)
Lemma pms_elems d m n r c : fits d r c -> fits m r c -> exists m', m_pms d m n = Some m' /\ elems m' r c (fun i j => rget m i j * n).
Proof.
  intros Hd Hm. unfold m_pms. rewrite prod_matrix_scalar_spec by (apply Hd || apply Hm). rewrite (same_dims_fits d m r c Hd Hm).
  eexists. split; [reflexivity|]. now apply const_elems.
Qed.
Lemma sub_in_elems a b r c : fits a r c -> fits b r c -> exists m, m_sub_in a b = Some m /\ elems m r c (fun i j => rget a i j - rget b i j).
Proof.
  intros Ha Hb. unfold m_sub_in. rewrite (mat_binary_in_place_agrees 0 Rminus a b) by (apply Ha || apply Hb). apply binary_elems; auto.
Qed.
Lemma m_zeros_elems r c : elems (m_zeros r c) r c (fun _ _ => 0).
Proof.
  split; [unfold wf; cbn; apply repeat_length|]. split; [reflexivity|]. split; [reflexivity|]. intros i j Hi Hj.
  rewrite rget_nth; auto; [|unfold wf; cbn; apply repeat_length]. cbn. apply nth_repeat.
Qed.
#[global] Hint Resolve elems_fits : opt.

Lemma elems_at m r c f i j : elems m r c f -> (i < r)%nat -> (j < c)%nat -> rget m i j = f i j.
Proof. intros (_ & _ & _ & H). auto. Qed.

(** ** Averages *)
Lemma weighted_step b f n : weighted b f (S n) = b * weighted b f n + f n.
Proof.
  unfold weighted. rewrite Rsum_r. replace (S n - 1 - n)%nat with 0%nat by lia. rewrite Rmult_1_l. f_equal.
  rewrite <- Rsum_mult_l. apply Rsum_ext. intros k Hk. replace (S n - 1 - k)%nat with (S (n - 1 - k)) by lia. cbn. ring.
Qed.
Lemma average_step b f n : average b f (S n) = b * average b f n + (1 - b) * f n.
Proof. unfold average. rewrite weighted_step. ring. Qed.
Lemma weighted_0 b f : weighted b f 0 = 0. Proof. reflexivity. Qed.
Lemma average_0 b f : average b f 0 = 0. Proof. unfold average. rewrite weighted_0. ring. Qed.

(** ** Histories *)
Section Run.
Variables (St : Type) (unwrap : ostate -> option St) (wrap : St -> ostate) (fresh_state : mat -> St)
  (update : nat -> mat -> St -> mat -> option (mat * St)).
Hypothesis unwrap_wrap : forall s, unwrap (wrap s) = Some s.
Variables (g : nat -> mat) (x0 : mat) (r c : nat) (x : nat -> nat -> nat -> R) (Inv : nat -> St -> Prop).
Let opt (n : nat) : param -> outcome param := optimize St unwrap wrap fresh_state (update n).
Hypotheses (Hx0 : elems x0 r c (x 0%nat)) (HI0 : Inv 0%nat (fresh_state x0)).
Hypothesis Hstep : forall n s w, Inv n s -> elems w r c (x n) ->
  exists delta s' d, update n (g n) s w = Some (delta, s') /\ Inv (S n) s' /\ elems delta r c d /\
    forall i j, (i < r)%nat -> (j < c)%nat -> x n i j - d i j = x (S n) i j.

Lemma run_inv n : exists p s, run opt g n (new_param x0) = OK p /\ elems (p_value p) r c (x n) /\ p_grad p = None /\
  (match p_state p with None => Some (fresh_state (p_value p)) | Some s => unwrap s end) = Some s /\ Inv n s.
Proof.
  induction n as [|n (p & s & Hr & He & Hg & Hs & HI)].
  - exists (new_param x0), (fresh_state x0). cbn. auto.
  - cbn [run]. rewrite Hr. destruct (Hstep n s (p_value p) HI He) as (delta & s' & d & Hu & HI' & Hd & Hx).
    destruct (sub_in_elems (p_value p) delta r c) as (v & Hv & Ev); [eauto with opt|eauto with opt|].
    exists (mkParam v None (Some (wrap s'))), s'. split; [|split; [|split; [reflexivity|split; [apply unwrap_wrap|exact HI']]]].
    + unfold opt, optimize. cbn [p_state with_grad p_grad p_value]. rewrite Hs, Hu, Hv. reflexivity.
    + cbn. eapply elems_ext; [exact Ev|]. intros i j Hi Hj. cbn beta. rewrite (elems_at _ _ _ _ i j He), (elems_at _ _ _ _ i j Hd); auto.
Qed.

Lemma run_value n : exists p, run opt g n (new_param x0) = OK p /\ p_grad p = None /\ elems (p_value p) r c (x n).
Proof. destruct (run_inv n) as (p & s & A & B & C & _). eauto. Qed.
Lemma run_successive n : exists v v', successive opt g x0 n v v' /\ elems v r c (x n) /\ elems v' r c (x (S n)).
Proof.
  destruct (run_value n) as (p & A & B & C). destruct (run_value (S n)) as (p' & A' & B' & C').
  exists (p_value p), (p_value p'). split; [|auto]. exists p, p'. auto 8.
Qed.
End Run.

(** an optimizer given the state of another reports an error *)
Lemma foreign_state St unwrap wrap fr upd p s : p_state p = Some s -> unwrap s = None -> optimize St unwrap wrap fr upd p = Err.
Proof. intros H U. unfold optimize. rewrite H, U. reflexivity. Qed.

(** ** SGD *)
Section SgdProofs.
Variables (alpha : nat -> R) (mu : R) (g : nat -> mat) (x0 : mat) (r c : nat).
Hypotheses (F0 : fits x0 r c) (Fg : forall k, fits (g k) r c).
Let gr (i j k : nat) : R := alpha k * rget (g k) i j.

Lemma Ris0_true v : v = 0 -> Ris0 v = true.
Proof. intros ->. unfold Ris0. destruct (Req_EM_T 0 0); [reflexivity|contradiction]. Qed.
Lemma Ris0_false v : v <> 0 -> Ris0 v = false.
Proof. intros H. unfold Ris0. destruct (Req_EM_T v 0); [contradiction|reflexivity]. Qed.

Lemma sgd_plain nesterov n : mu = 0 -> exists p, run (fun k => sgd_optimize (alpha k) mu nesterov) g n (new_param x0) = OK p /\ p_grad p = None /\
  elems (p_value p) r c (fun i j => rget x0 i j - Rsum n (fun k => alpha k * rget (g k) i j)).
Proof.
  intros Hmu. apply (run_value sgd_state _ _ _ (fun k => sgd_update (alpha k) mu nesterov)) with (Inv := fun _ s => fits (sg_v s) r c)
    (x := fun n i j => rget x0 i j - Rsum n (fun k => alpha k * rget (g k) i j)); auto.
  - eapply elems_ext; [apply fits_elems, F0|]. intros. cbn. unfold Rsum. cbn. ring.
  - unfold sgd_fresh. rewrite Ris0_true by auto. cbn. destruct F0 as (_ & -> & ->). eauto using m_zeros_elems with opt.
  - intros k s w Fs Ew. unfold sgd_update. rewrite Ris0_true by auto. destruct (pms_elems (sg_v s) (g k) (alpha k) r c Fs (Fg k)) as (m & -> & Em). cbn [bind].
    eexists _, _, _. split; [reflexivity|]. split; [cbn; eauto with opt|]. split; [exact Em|]. intros i j _ _. cbn beta. rewrite Rsum_r. ring.
Qed.

Lemma sgd_momentum n : mu <> 0 -> exists p, run (fun k => sgd_optimize (alpha k) mu false) g n (new_param x0) = OK p /\ p_grad p = None /\
  elems (p_value p) r c (fun i j => rget x0 i j - Rsum n (fun m => weighted mu (fun k => alpha k * rget (g k) i j) (S m))).
Proof.
  intros Hmu. apply (run_value sgd_state _ _ _ (fun k => sgd_update (alpha k) mu false)) with
    (Inv := fun n s => elems (sg_v s) r c (fun i j => weighted mu (gr i j) n) /\ exists b, sg_buf s = Some b /\ fits b r c)
    (x := fun n i j => rget x0 i j - Rsum n (fun m => weighted mu (gr i j) (S m))); auto.
  - eapply elems_ext; [apply fits_elems, F0|]. intros. cbn. unfold Rsum. cbn. ring.
  - unfold sgd_fresh. rewrite Ris0_false by auto. cbn. destruct F0 as (_ & -> & ->). split; [apply m_zeros_elems|]. eexists. split; [reflexivity|]. eauto using m_zeros_elems with opt.
  - intros k s w (Es & b & Hb & Fb) Ew. unfold sgd_update. rewrite Ris0_false by auto. rewrite Hb. cbn [bind].
    destruct (pms_elems b (g k) (alpha k) r c Fb (Fg k)) as (b' & -> & Eb). cbn [bind].
    pose proof (m_prods_in_elems (sg_v s) mu r c (elems_fits _ _ _ _ Es)) as Ev.
    destruct (m_add_in_elems (m_prods_in (sg_v s) mu) b' r c) as (v & -> & Ev'); [eauto with opt|eauto with opt|]. cbn [bind].
    assert (EV : elems v r c (fun i j => weighted mu (gr i j) (S k))).
    { eapply elems_ext; [exact Ev'|]. intros i j Hi Hj. cbn beta. rewrite (elems_at _ _ _ _ i j Ev), (elems_at _ _ _ _ i j Eb), (elems_at _ _ _ _ i j Es) by auto. rewrite weighted_step. unfold gr at 3. ring. }
    eexists _, _, _. split; [reflexivity|]. split; [cbn; split; [exact EV|eexists; split; [reflexivity|eauto with opt]]|]. split; [exact EV|]. intros i j _ _. cbn beta. rewrite Rsum_r. ring.
Qed.

Lemma sgd_nesterov n : mu <> 0 -> exists p, run (fun k => sgd_optimize (alpha k) mu true) g n (new_param x0) = OK p /\ p_grad p = None /\
  elems (p_value p) r c (fun i j => let v := weighted mu (fun k => alpha k * rget (g k) i j) in
    rget x0 i j - Rsum n (fun m => v (S m) + mu * (v (S m) - v m))).
Proof.
  intros Hmu. apply (run_value sgd_state _ _ _ (fun k => sgd_update (alpha k) mu true)) with
    (Inv := fun n s => elems (sg_v s) r c (fun i j => weighted mu (gr i j) n) /\ (exists b, sg_buf s = Some b /\ fits b r c) /\
       (exists b, sg_vprev s = Some b /\ fits b r c) /\ (exists b, sg_vtmp s = Some b /\ fits b r c))
    (x := fun n i j => let v := weighted mu (gr i j) in rget x0 i j - Rsum n (fun m => v (S m) + mu * (v (S m) - v m))); auto.
  - eapply elems_ext; [apply fits_elems, F0|]. intros. cbn. unfold Rsum. cbn. ring.
  - unfold sgd_fresh. rewrite Ris0_false by auto. cbn. destruct F0 as (_ & -> & ->). split; [apply m_zeros_elems|].
    split; [|split]; (eexists; split; [reflexivity|]; eauto using m_zeros_elems with opt).
  - intros k s w (Es & (b & Hb & Fb) & (vp & Hp & Fp) & (vt & Ht & Ft)) Ew. unfold sgd_update. rewrite Ris0_false by auto. rewrite Hb, Hp, Ht. cbn [bind].
    destruct (pms_elems b (g k) (alpha k) r c Fb (Fg k)) as (b' & -> & Eb). cbn [bind].
    destruct (pms_elems vp (sg_v s) mu r c Fp (elems_fits _ _ _ _ Es)) as (vp' & -> & Ep). cbn [bind].
    pose proof (m_prods_in_elems (sg_v s) mu r c (elems_fits _ _ _ _ Es)) as Ev.
    destruct (m_add_in_elems (m_prods_in (sg_v s) mu) b' r c) as (v & -> & Ev'); [eauto with opt|eauto with opt|]. cbn [bind].
    assert (EV : elems v r c (fun i j => weighted mu (gr i j) (S k))).
    { eapply elems_ext; [exact Ev'|]. intros i j Hi Hj. cbn beta. rewrite (elems_at _ _ _ _ i j Ev), (elems_at _ _ _ _ i j Eb), (elems_at _ _ _ _ i j Es) by auto. rewrite weighted_step. unfold gr at 3. ring. }
    destruct (pms_elems vt v (1 + mu) r c Ft (elems_fits _ _ _ _ EV)) as (vt' & -> & Et). cbn [bind].
    destruct (sub_in_elems vt' vp' r c) as (d & -> & Ed); [eauto with opt|eauto with opt|]. cbn [bind].
    eexists _, _, _. split; [reflexivity|]. split; [|split; [exact Ed|]].
    + cbn. split; [exact EV|]. split; [|split]; (eexists; split; [reflexivity|]; eauto with opt).
    + intros i j Hi Hj. cbv beta zeta. rewrite (elems_at _ _ _ _ i j Et), (elems_at _ _ _ _ i j Ep), (elems_at _ _ _ _ i j EV), (elems_at _ _ _ _ i j Es) by auto.
      rewrite Rsum_r. ring.
Qed.
End SgdProofs.
