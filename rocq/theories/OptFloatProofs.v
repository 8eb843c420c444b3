(** * Optimizers in floating point: matrices and histories *)
From Coq Require Import ZArith Bool Lia List Arith Reals Lra.
From Flocq Require Import Core BinarySingleNaN.
From Verif Require Import DenseModel DenseSpec ArithModel ArithSpec ArithProofs FloatModel NumModel NumSpec OptFloatModel OptFloatSpec.
Import ListNotations.
Local Open Scope nat_scope.

Section Matrices.
Variable d : dtype.
Notation mat := (dense (val d)).
Notation get m i j := (get fzero m i j).
(** m has the shape r, c and the elements f *)
Definition shaped (m : mat) (r c : nat) : Prop := wf m /\ rows m = r /\ cols m = c.
Definition elems (m : mat) (r c : nat) (f : nat -> nat -> val d) : Prop := shaped m r c /\ forall i j, i < r -> j < c -> get m i j = f i j.
Lemma elems_has m r c f : has_elems m r c f -> elems m r c f.
Proof.
  intros (A & B & C & D). split; [split; [exact C|split; assumption]|]. intros i j Hi Hj. unfold ArithSpec.get. now rewrite D.
Qed.
Lemma shaped_elems m r c : shaped m r c -> elems m r c (fun i j => get m i j).
Proof. intros H. split; auto. Qed.
Lemma elems_shaped m r c f : elems m r c f -> shaped m r c.
Proof. intros H. apply H. Qed.
Lemma same_shaped a b r c : shaped a r c -> shaped b r c -> same_dims a b = true.
Proof. intros (_ & A & B) (_ & C & D). apply same_dims_spec. split; congruence. Qed.
Lemma binary_elems op a b r c : shaped a r c -> shaped b r c ->
  exists m, mat_binary fzero op a b = Some m /\ elems m r c (fun i j => op (get a i j) (get b i j)).
Proof.
  intros Ha Hb. destruct (mat_binary_spec fzero op a b (proj1 Ha) (proj1 Hb)) as (H & _).
  destruct Ha as (Wa & <- & <-), Hb as (Wb & Rb & Cb). destruct H as (m & E & He); [split; congruence|]. exists m. split; [exact E|]. now apply elems_has.
Qed.
Lemma binary_in_elems op a b r c : shaped a r c -> shaped b r c ->
  exists m, mat_binary_in_place fzero op a b = Some m /\ elems m r c (fun i j => op (get a i j) (get b i j)).
Proof. intros Ha Hb. rewrite (mat_binary_in_place_agrees fzero op a b (proj1 Ha) (proj1 Hb)). now apply binary_elems. Qed.
Lemma prod_elems a b r c : shaped a r c -> shaped b r c ->
  exists m, m_prod d a b = Some m /\ elems m r c (fun i j => fmul (get a i j) (get b i j)).
Proof. intros Ha Hb. unfold m_prod. rewrite (proj1 (mat_prod_agrees fzero fmul a b (proj1 Ha) (proj1 Hb))). now apply binary_elems. Qed.
Lemma const_elems op a v r c : shaped a r c -> elems (mat_const fzero op a v) r c (fun i j => op (get a i j) v).
Proof. intros (W & <- & <-). apply elems_has, mat_const_spec, W. Qed.
Lemma const_in_elems op a v r c : shaped a r c -> elems (mat_const_in_place fzero op a v) r c (fun i j => op (get a i j) v).
Proof. intros H. rewrite (proj2 (mat_const_spec fzero op a v (proj1 H))). now apply const_elems. Qed.
Lemma pms_elems o a n r c : shaped o r c -> shaped a r c ->
  exists m, m_pms d o a n = Some m /\ elems m r c (fun i j => fmul (get a i j) (conv F64 d n)).
Proof.
  intros Ho Ha. unfold m_pms. rewrite prod_matrix_scalar_spec by (apply Ho || apply Ha). rewrite (same_shaped o a r c Ho Ha).
  eexists. split; [reflexivity|]. now apply const_elems.
Qed.
Lemma sqrt_elems a r c : shaped a r c -> elems (m_sqrt d a) r c (fun i j => elem_sqrt d (get a i j)).
Proof. intros (W & <- & <-). apply elems_has, mat_unary_spec, W. Qed.
Lemma zeros_elems r c : elems (m_zeros d r c) r c (fun _ _ => fzero).
Proof.
  assert (W : wf (m_zeros d r c)) by (unfold wf; cbn; apply repeat_length). split; [split; [exact W|split; reflexivity]|]. intros i j Hi Hj.
  rewrite get_data by auto. cbn. apply nth_repeat.
Qed.
Lemma elems_ext m r c f g : elems m r c f -> (forall i j, i < r -> j < c -> f i j = g i j) -> elems m r c g.
Proof. intros (S & E) H. split; [exact S|]. intros i j Hi Hj. rewrite E by assumption. now apply H. Qed.

(** ** Histories *)
Section Run.
Variables (St : Type) (unwrap : ostate d -> option St) (wrap : St -> ostate d) (fresh_state : mat -> St)
  (update : nat -> mat -> St -> mat -> option (mat * St)).
Hypothesis unwrap_wrap : forall s, unwrap (wrap s) = Some s.
Variables (g : nat -> mat) (x0 : mat) (Inv : nat -> St -> mat -> Prop) (Q : nat -> mat -> mat -> Prop).
Let opt (n : nat) : param d -> outcome (param d) := optimize d St unwrap wrap fresh_state (update n).
Hypothesis HI0 : Inv 0 (fresh_state x0) x0.
Hypothesis Hstep : forall n s x, Inv n s x -> exists delta s' x', update n (g n) s x = Some (delta, s') /\ m_sub_in d x delta = Some x' /\ Inv (S n) s' x' /\ Q n x x'.

Lemma run_inv n : exists p s, run d opt g n (new_param d x0) = OK p /\
  (match p_state d p with None => Some (fresh_state (p_value d p)) | Some s => unwrap s end) = Some s /\ Inv n s (p_value d p).
Proof.
  induction n as [|n (p & s & Hr & Hs & HI)].
  - exists (new_param d x0), (fresh_state x0). cbn. auto.
  - cbn [run]. rewrite Hr. destruct (Hstep n s (p_value d p) HI) as (delta & s' & x' & Hu & Hv & HI' & _).
    exists (mkParam d x' None (Some (wrap s'))), s'. split; [|split; [apply unwrap_wrap|exact HI']].
    unfold opt, optimize. cbn [p_state with_grad p_grad p_value]. rewrite Hs, Hu, Hv. reflexivity.
Qed.
Lemma run_successive n : exists x x', successive d opt g x0 n x x' /\ Q n x x'.
Proof.
  destruct (run_inv n) as (p & s & Hr & Hs & HI). destruct (Hstep n s (p_value d p) HI) as (delta & s' & x' & Hu & Hv & _ & HQ).
  exists (p_value d p), x'. split; [|exact HQ]. exists p, (mkParam d x' None (Some (wrap s'))). split; [exact Hr|]. split; [|split; reflexivity].
  cbn [run]. rewrite Hr. unfold opt, optimize. cbn [p_state with_grad p_grad p_value]. rewrite Hs, Hu, Hv. reflexivity.
Qed.
End Run.

(** ** The updates, element by element *)
Definition avg (b x c y : val d) : val d := fadd (fmul x b) (fmul y c).
Notation cv := (conv F64 d).
Definition moments_shaped (s : moments d) (r c : nat) : Prop :=
  shaped (mo_1 d s) r c /\ shaped (mo_2 d s) r c /\ shaped (mo_b1 d s) r c /\ shaped (mo_b2 d s) r c /\ shaped (mo_b3 d s) r c.
Lemma moments_fresh_shaped x r c : shaped x r c -> moments_shaped (moments_fresh d x) r c /\
  (forall i j, i < r -> j < c -> get (mo_1 d (moments_fresh d x)) i j = fzero) /\ (forall i j, i < r -> j < c -> get (mo_2 d (moments_fresh d x)) i j = fzero).
Proof.
  intros (_ & <- & <-). pose proof (zeros_elems (rows x) (cols x)) as (Z & E). split; [repeat split; apply Z|]. split; exact E.
Qed.
Lemma first_elems b g s r c : moments_shaped s r c -> shaped g r c ->
  exists s', update_first d b g s = Some s' /\ moments_shaped s' r c /\ mo_2 d s' = mo_2 d s /\
    forall i j, i < r -> j < c -> get (mo_1 d s') i j = avg (cv b) (get (mo_1 d s) i j) (cv (fsub fone b)) (get g i j).
Proof.
  intros (S1 & S2 & S3 & S4 & S5) Sg. unfold update_first. destruct (pms_elems (mo_b1 d s) g (fsub fone b) r c S3 Sg) as (m & -> & Em). cbn [bind].
  pose proof (const_in_elems fmul (mo_1 d s) (cv b) r c S1) as Ev.
  destruct (binary_in_elems fadd (m_prods_in d (mo_1 d s) b) m r c (proj1 Ev) (proj1 Em)) as (v & E & Ev'). unfold m_add_in. rewrite E. cbn [bind].
  eexists. split; [reflexivity|]. unfold moments_shaped. cbn [mo_1 mo_2 mo_b1 mo_b2 mo_b3]. split; [repeat split; first [apply Ev'|apply S2|apply Em|apply S4|apply S5]|]. split; [reflexivity|]. intros i j Hi Hj.
  rewrite (proj2 Ev' i j Hi Hj), (proj2 Em i j Hi Hj). unfold m_prods_in. rewrite (proj2 Ev i j Hi Hj). reflexivity.
Qed.
Lemma second_elems b g s r c : moments_shaped s r c -> shaped g r c ->
  exists s', update_second d b g s = Some s' /\ moments_shaped s' r c /\ mo_1 d s' = mo_1 d s /\
    forall i j, i < r -> j < c -> get (mo_2 d s') i j = avg (cv b) (get (mo_2 d s) i j) (cv (fsub fone b)) (fmul (get g i j) (get g i j)).
Proof.
  intros (S1 & S2 & S3 & S4 & S5) Sg. unfold update_second. destruct (prod_elems g g r c Sg Sg) as (q & -> & Eq). cbn [bind].
  destruct (pms_elems (mo_b2 d s) q (fsub fone b) r c S4 (proj1 Eq)) as (m & -> & Em). cbn [bind].
  pose proof (const_in_elems fmul (mo_2 d s) (cv b) r c S2) as Ev.
  destruct (binary_in_elems fadd (m_prods_in d (mo_2 d s) b) m r c (proj1 Ev) (proj1 Em)) as (v & E & Ev'). unfold m_add_in. rewrite E. cbn [bind].
  eexists. split; [reflexivity|]. unfold moments_shaped. cbn [mo_1 mo_2 mo_b1 mo_b2 mo_b3]. split; [repeat split; first [apply Ev'|apply S1|apply Em|apply S3|apply S5]|]. split; [reflexivity|]. intros i j Hi Hj.
  rewrite (proj2 Ev' i j Hi Hj), (proj2 Em i j Hi Hj), (proj2 Eq i j Hi Hj). unfold m_prods_in. rewrite (proj2 Ev i j Hi Hj). reflexivity.
Qed.
Lemma quotient_elems a m e r c : shaped a r c -> shaped m r c ->
  exists q, m_div d a (m_adds_in d (m_sqrt d m) e) = Some q /\ elems q r c (fun i j => fdiv (get a i j) (fadd (elem_sqrt d (get m i j)) (cv e))).
Proof.
  intros Sa Sm. pose proof (sqrt_elems m r c Sm) as Es. pose proof (const_in_elems fadd (m_sqrt d m) (cv e) r c (proj1 Es)) as Ea.
  destruct (binary_elems fdiv a (m_adds_in d (m_sqrt d m) e) r c Sa (proj1 Ea)) as (q & E & Eq). exists q. split; [exact E|].
  eapply elems_ext; [exact Eq|]. intros i j Hi Hj. cbn beta. unfold m_adds_in. rewrite (proj2 Ea i j Hi Hj), (proj2 Es i j Hi Hj). reflexivity.
Qed.
Lemma adam_elems al b1 b2 e la g s w r c : moments_shaped s r c -> shaped g r c -> shaped w r c ->
  exists delta s', adam_update d al b1 b2 e la g s w = Some (delta, s') /\ moments_shaped s' r c /\ shaped delta r c /\ forall i j, i < r -> j < c ->
    let v' := avg (cv b1) (get (mo_1 d s) i j) (cv (fsub fone b1)) (get g i j) in
    let m' := avg (cv b2) (get (mo_2 d s) i j) (cv (fsub fone b2)) (fmul (get g i j) (get g i j)) in
    let q := fdiv v' (fadd (elem_sqrt d m') (cv e)) in
    get (mo_1 d s') i j = v' /\ get (mo_2 d s') i j = m' /\
    get delta i j = fmul (if is0 la then q else fadd q (fmul (get w i j) (cv la))) (cv al).
Proof.
  intros Ss Sg Sw. unfold adam_update. destruct (first_elems b1 g s r c Ss Sg) as (s1 & -> & Ss1 & E12 & E11). cbn [bind].
  destruct (second_elems b2 g s1 r c Ss1 Sg) as (s2 & -> & Ss2 & E21 & E22). cbn [bind]. destruct Ss2 as (S1 & S2 & S3 & S4 & S5).
  destruct (quotient_elems (mo_1 d s2) (mo_2 d s2) e r c S1 S2) as (q & -> & Eq). cbn [bind].
  set (Q := fun i j => let q := fdiv (get (mo_1 d s2) i j) (fadd (elem_sqrt d (get (mo_2 d s2) i j)) (cv e)) in if is0 la then q else fadd q (fmul (get w i j) (cv la))).
  assert (X : exists q', (if is0 la then Some q else m_add_in d q (m_prods d w la)) = Some q' /\ elems q' r c Q).
  { unfold Q. destruct (is0 la); [exists q; auto|]. pose proof (const_elems fmul w (cv la) r c Sw) as El.
    destruct (binary_in_elems fadd q (m_prods d w la) r c (proj1 Eq) (proj1 El)) as (q' & E & Eq'). exists q'. split; [exact E|].
    eapply elems_ext; [exact Eq'|]. intros i j Hi Hj. cbn beta. rewrite (proj2 Eq i j Hi Hj). unfold m_prods. rewrite (proj2 El i j Hi Hj). reflexivity. }
  destruct X as (q' & -> & Eq'). cbn [bind]. destruct (pms_elems (mo_b3 d s2) q' al r c S5 (proj1 Eq')) as (b3 & -> & Eb). cbn [bind].
  eexists _, _. split; [reflexivity|]. unfold moments_shaped, set_b3. cbn [mo_1 mo_2 mo_b1 mo_b2 mo_b3]. cbv zeta. split; [repeat split; first [apply S1|apply S2|apply S3|apply S4|apply Eb]|]. split; [apply Eb|]. intros i j Hi Hj.
  rewrite E21, (E11 i j Hi Hj), (E22 i j Hi Hj), E12. split; [reflexivity|]. split; [reflexivity|].
  rewrite (proj2 Eb i j Hi Hj), (proj2 Eq' i j Hi Hj). unfold Q. cbv zeta. rewrite E21, (E11 i j Hi Hj), (E22 i j Hi Hj), E12. reflexivity.
Qed.
Lemma radam_elems al rt b1 b2 e g s w r c : moments_shaped s r c -> shaped g r c ->
  exists delta s', radam_update d al rt b1 b2 e g s w = Some (delta, s') /\ moments_shaped s' r c /\ shaped delta r c /\ forall i j, i < r -> j < c ->
    let v' := avg (cv b1) (get (mo_1 d s) i j) (cv (fsub fone b1)) (get g i j) in
    let m' := avg (cv b2) (get (mo_2 d s) i j) (cv (fsub fone b2)) (fmul (get g i j) (get g i j)) in
    get (mo_1 d s') i j = v' /\ get (mo_2 d s') i j = m' /\ get delta i j = fmul (fdiv v' (fadd (elem_sqrt d m') (cv (fmul e rt)))) (cv al).
Proof.
  intros Ss Sg. unfold radam_update. destruct (first_elems b1 g s r c Ss Sg) as (s1 & -> & Ss1 & E12 & E11). cbn [bind].
  destruct (second_elems b2 g s1 r c Ss1 Sg) as (s2 & -> & Ss2 & E21 & E22). cbn [bind]. destruct Ss2 as (S1 & S2 & S3 & S4 & S5).
  destruct (quotient_elems (mo_1 d s2) (mo_2 d s2) (fmul e rt) r c S1 S2) as (q & -> & Eq). cbn [bind].
  destruct (pms_elems (mo_b3 d s2) q al r c S5 (proj1 Eq)) as (b3 & -> & Eb). cbn [bind].
  eexists _, _. split; [reflexivity|]. unfold moments_shaped, set_b3. cbn [mo_1 mo_2 mo_b1 mo_b2 mo_b3]. cbv zeta. split; [repeat split; first [apply S1|apply S2|apply S3|apply S4|apply Eb]|]. split; [apply Eb|]. intros i j Hi Hj.
  rewrite E21, (E11 i j Hi Hj), (E22 i j Hi Hj), E12. split; [reflexivity|]. split; [reflexivity|].
  rewrite (proj2 Eb i j Hi Hj), (proj2 Eq i j Hi Hj). rewrite E21, (E11 i j Hi Hj), (E22 i j Hi Hj), E12. reflexivity.
Qed.
Lemma adagrad_elems lr e g s w r c : shaped s r c -> shaped g r c ->
  exists delta s', adagrad_update d lr e g s w = Some (delta, s') /\ shaped s' r c /\ shaped delta r c /\ forall i j, i < r -> j < c ->
    let m' := fadd (get s i j) (fmul (get g i j) (get g i j)) in
    get s' i j = m' /\ get delta i j = fmul (fdiv (get g i j) (fadd (elem_sqrt d m') (cv e))) (cv lr).
Proof.
  intros Ss Sg. unfold adagrad_update. destruct (prod_elems g g r c Sg Sg) as (q & -> & Eq). cbn [bind].
  destruct (binary_in_elems fadd s q r c Ss (proj1 Eq)) as (m & E & Em). unfold m_add_in. rewrite E. cbn [bind].
  destruct (quotient_elems g m e r c Sg (proj1 Em)) as (p & -> & Ep). cbn [bind]. pose proof (const_in_elems fmul p (cv lr) r c (proj1 Ep)) as Ed.
  eexists _, _. split; [reflexivity|]. split; [apply Em|]. split; [apply Ed|]. intros i j Hi Hj. cbv zeta.
  unfold m_prods_in. rewrite (proj2 Ed i j Hi Hj), (proj2 Ep i j Hi Hj), (proj2 Em i j Hi Hj), (proj2 Eq i j Hi Hj). auto.
Qed.
Lemma rmsprop_elems lr e b g s w r c : shaped s r c -> shaped g r c ->
  exists delta s', rmsprop_update d lr e b g s w = Some (delta, s') /\ shaped s' r c /\ shaped delta r c /\ forall i j, i < r -> j < c ->
    let m' := avg (cv b) (get s i j) (cv (fsub fone b)) (fmul (get g i j) (get g i j)) in
    get s' i j = m' /\ get delta i j = fmul (fdiv (get g i j) (fadd (elem_sqrt d m') (cv e))) (cv lr).
Proof.
  intros Ss Sg. unfold rmsprop_update. destruct (prod_elems g g r c Sg Sg) as (q & -> & Eq). cbn [bind].
  pose proof (const_in_elems fmul s (cv b) r c Ss) as Ev. pose proof (const_in_elems fmul q (cv (fsub fone b)) r c (proj1 Eq)) as Eb.
  destruct (binary_in_elems fadd (m_prods_in d s b) (m_prods_in d q (fsub fone b)) r c (proj1 Ev) (proj1 Eb)) as (m & E & Em). unfold m_add_in. rewrite E. cbn [bind].
  destruct (quotient_elems g m e r c Sg (proj1 Em)) as (p & -> & Ep). cbn [bind]. pose proof (const_in_elems fmul p (cv lr) r c (proj1 Ep)) as Ed.
  eexists _, _. split; [reflexivity|]. split; [apply Em|]. split; [apply Ed|]. intros i j Hi Hj. cbv zeta.
  assert (Y : get m i j = avg (cv b) (get s i j) (cv (fsub fone b)) (fmul (get g i j) (get g i j))).
  { rewrite (proj2 Em i j Hi Hj). unfold m_prods_in. rewrite (proj2 Ev i j Hi Hj), (proj2 Eb i j Hi Hj), (proj2 Eq i j Hi Hj). reflexivity. }
  split; [exact Y|]. unfold m_prods_in. rewrite (proj2 Ed i j Hi Hj), (proj2 Ep i j Hi Hj), Y. reflexivity.
Qed.
Lemma sub_elems x delta r c : shaped x r c -> shaped delta r c -> exists x', m_sub_in d x delta = Some x' /\ elems x' r c (fun i j => fsub (get x i j) (get delta i j)).
Proof. apply binary_in_elems. Qed.
End Matrices.
