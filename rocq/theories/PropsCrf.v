(** * C30, C31: conditional random fields *)
From Coq Require Import Reals List Arith Bool ZArith Lia Lra.
From Verif Require Import DenseModel DenseSpec ArithModel GradModel GradSpec GradLemmas OpsModel OpsLemmas CrfModel CrfSpec CrfProofs CrfProofs2.
Import ListNotations.
Open Scope R_scope.

(** ** C30 *)
(** Finite scores: no label sequence scores more than the decoded one. *)
Theorem C30_decode_best : forall n (tr : dense ext) t xs es, (0 < n)%nat ->
  transitions tr n (fun i j => Some (t i j)) -> xs <> [] -> List.Forall2 (fun x e => emission n x (fun j => Some (e j))) xs es ->
  exists ys, viterbi ext_add ext_lt None tr xs = Some ys /\ labelling n es ys /\
    forall zs, labelling n es zs -> score t es zs <= score t es ys.
Proof. exact viterbi_real. Qed.
Print Assumptions C30_decode_best.
(** Scores of -infinity (forbidden transitions) are allowed. *)
Theorem C30_decode_best_masked : forall n tr t xs es, (0 < n)%nat -> transitions tr n t -> xs <> [] -> List.Forall2 (emission n) xs es ->
  exists ys, viterbi ext_add ext_lt None tr xs = Some ys /\ labelling n es ys /\
    forall zs, labelling n es zs -> ext_lt (ext_sum (terms t es ys)) (ext_sum (terms t es zs)) = false.
Proof. exact viterbi_ext. Qed.
Print Assumptions C30_decode_best_masked.
(** Any monotone addition, such as the rounded one of float64, the scores being added in the order of the path. *)
Theorem C30_decode_best_rounded : forall (T : Type) (add : T -> T -> T) lt ninf n tr t xs es, scoring add lt ninf -> (0 < n)%nat ->
  transitions tr n t -> xs <> [] -> List.Forall2 (emission n) xs es ->
  exists ys, viterbi add lt ninf tr xs = Some ys /\ labelling n es ys /\
    forall zs, labelling n es zs -> lt (added add ninf (terms t es ys)) (added add ninf (terms t es zs)) = false.
Proof. exact @viterbi_best. Qed.
Print Assumptions C30_decode_best_rounded.
Theorem C30_rounding : forall rnd, (forall a b, a <= b -> rnd a <= rnd b) -> scoring (rounded_add rnd) ext_lt None.
Proof. exact rounded_scoring. Qed.
Print Assumptions C30_rounding.
Theorem C30_no_positions : forall (T : Type) (add : T -> T -> T) lt ninf tr, viterbi add lt ninf tr [] = None.
Proof. reflexivity. Qed.
Print Assumptions C30_no_positions.

(** two labels, three positions, integer scores: the decoded path is not the greedy one *)
Definition c30_tr : dense Z := mkDense 3 3 [0; 0; 0;  0; 0; -9;  0; -9; 0]%Z.
Definition c30_xs : list (dense Z) := [mkDense 2 1 [3; 0]; mkDense 2 1 [0; 4]; mkDense 2 1 [0; 5]]%Z.
Example C30_case :
  viterbi Z.add Z.ltb (-100)%Z c30_tr c30_xs = Some [1; 1; 1]%nat /\
  transitions c30_tr 2 (fun i j => nth (i * 3 + j) (data c30_tr) 0%Z) /\
  List.Forall2 (emission 2) c30_xs (map (fun x j => nth j (data x) 0%Z) c30_xs).
Proof.
  split; [reflexivity|]. split.
  - repeat split. intros i j Hi Hj. destruct i as [|[|[|]]]; [| | |lia]; destruct j as [|[|[|]]]; try lia; reflexivity.
  - repeat constructor; intros j Hj; destruct j as [|[|]]; try lia; reflexivity.
Qed.

(** ** C31 *)
Theorem C31_negative_log_likelihood : forall n tr t xs es ys, (0 < n)%nat -> transitions tr n t -> xs <> [] ->
  List.Forall2 (score_col n) xs es -> labelling n es ys ->
  negative_log_loss n tr xs (map Z.of_nat ys) =
  Some (scalar (ln (sum_over (fun zs => exp (score t es zs)) (labellings n (length es))) - score t es ys)).
Proof. exact loss_value. Qed.
Print Assumptions C31_negative_log_likelihood.
Theorem C31_labellings : forall n k, NoDup (labellings n k) /\
  forall ys, In ys (labellings n k) <-> length ys = k /\ List.Forall (fun y => (y < n)%nat) ys.
Proof. intros n k. split; [apply labellings_nodup|apply labellings_spec]. Qed.
Print Assumptions C31_labellings.
Theorem C31_nonnegative : forall n tr t xs es ys, (0 < n)%nat -> transitions tr n t -> xs <> [] ->
  List.Forall2 (score_col n) xs es -> labelling n es ys ->
  exists v, negative_log_loss n tr xs (map Z.of_nat ys) = Some (scalar v) /\ 0 <= v.
Proof. intros n tr t xs es ys Np Tr Nx F L. eexists. split; [eapply loss_value; eassumption|now apply loss_nonneg]. Qed.
Print Assumptions C31_nonnegative.
(** The exponentials of minus the losses are a probability distribution over the label sequences. *)
Theorem C31_distribution : forall n tr t xs es, (0 < n)%nat -> transitions tr n t -> xs <> [] -> List.Forall2 (score_col n) xs es ->
  exists loss, (forall ys, labelling n es ys -> negative_log_loss n tr xs (map Z.of_nat ys) = Some (scalar (loss ys))) /\
    sum_over (fun ys => exp (- loss ys)) (labellings n (length es)) = 1.
Proof.
  intros n tr t xs es Np Tr Nx F. exists (fun ys => ln (sum_over (fun zs => exp (score t es zs)) (labellings n (length es))) - score t es ys).
  split; [intros ys L; now apply loss_value|now apply loss_distribution].
Qed.
Print Assumptions C31_distribution.
(** A target shorter than the input is not refused, and then the loss may be negative. *)
Theorem C31_short_target_refuted : ~ forall n tr t xs es ys, (0 < n)%nat -> transitions tr n t -> xs <> [] ->
  List.Forall2 (score_col n) xs es -> ys <> [] -> List.Forall (fun y => (y < n)%nat) ys ->
  forall v, negative_log_loss n tr xs (map Z.of_nat ys) = Some (scalar v) -> 0 <= v.
Proof.
  intros H.
  set (tr := mkDense 2 2 [0; 0; 0; 0] : mat). set (xs := [mkDense 1 1 [0]; mkDense 1 1 [-5]] : list mat).
  assert (Tr : transitions tr 1 (fun _ _ => 0)).
  { repeat split. intros i j Hi Hj. destruct i as [|[|]]; [| |lia]; destruct j as [|[|]]; try lia; reflexivity. }
  assert (F : List.Forall2 (score_col 1) xs [fun _ => 0; fun _ => -5]).
  { repeat constructor; repeat split; intros i j Hi Hj; destruct i as [|]; [|lia| |lia]; destruct j as [|]; try lia; reflexivity. }
  assert (N : negative_log_loss 1 tr xs (map Z.of_nat [0%nat]) = Some (scalar (-5))).
  { unfold negative_log_loss. rewrite (total_value 1 tr _ Tr xs _ ltac:(lia) ltac:(discriminate) F).
    assert (G : gold_score tr xs (map Z.of_nat [0%nat]) = Some (scalar 0)).
    { cbn [map gold_score xs Z.of_nat]. cbn [gold_loop].
      rewrite (f_at (mkDense 1 1 [0]) _ 0) by reflexivity. cbn [bind]. rewrite (f_at tr _ 0) by reflexivity. cbn [bind]. rewrite add_s. cbn [bind fst snd].
      rewrite (f_at tr _ 0) by reflexivity. cbn [bind]. rewrite add_s. do 2 f_equal. ring. }
    rewrite G. cbn [bind]. rewrite s_sub. do 2 f_equal. cbn [length labellings seq flat_map map app]. unfold sum_over. cbn [map fold_right]. unfold score. cbn [terms later_terms fold_right].
    rewrite Rplus_0_r, ln_exp. ring. }
  assert (X : 0 <= -5) by (eapply (H 1%nat tr _ xs _ [0%nat]); eauto; try lia; try discriminate; repeat constructor; lia). lra.
Qed.
Print Assumptions C31_short_target_refuted.
Example C31_case : exists tr t xs es, transitions tr 2 t /\ List.Forall2 (score_col 2) xs es /\ labelling 2 es [1; 0; 1]%nat /\ xs <> [] /\
  length (labellings 2 (length es)) = 8%nat /\ score t es [1; 0; 1]%nat = 48.
Proof.
  exists (mkDense 3 3 [0; 1; 2; 3; 4; 5; 6; 7; 8]), (fun i j => INR (i * 3 + j)), [mkDense 2 1 [1; 10]; mkDense 2 1 [8; -3]; mkDense 2 1 [0; 10]],
    [fun j => nth j [1; 10] 0; fun j => nth j [8; -3] 0; fun j => nth j [0; 10] 0].
  split.
  { repeat split. intros i j Hi Hj. destruct i as [|[|[|]]]; [| | |lia]; destruct j as [|[|[|]]]; try lia; cbn; do 2 f_equal; lra. }
  split.
  { repeat constructor; repeat split; intros i j Hi Hj; (destruct i as [|[|]]; [| |lia]); destruct j as [|]; try lia; reflexivity. }
  split; [repeat constructor|]. split; [discriminate|]. split; [reflexivity|]. unfold score. cbn. lra.
Qed.
