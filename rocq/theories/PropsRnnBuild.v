(** * C43: the networks the constructors of nn/birnn make *)
From Coq Require Import Reals List Arith Bool Lia Lra.
From Verif Require Import DenseModel DenseSpec GradModel GradSpec GradLemmas OpsModel OpsSpec OpsLemmas AttSpec AttProofs RnnModel RnnSpec RnnProofs RnnBuildModel RnnBuildSpec.
Import ListNotations.
Open Scope nat_scope.

Lemma trained_gate_fits i o g : trained_gate (new_gate i o) g -> gate_fits g o i.
Proof. intros (A & B & C). exact (conj A (conj B C)). Qed.
Lemma trained_lstm_fits i o m : trained_lstm (new_lstm i o) m -> lstm_fits m o i.
Proof.
  intros (A & B & C & D & E). split; [now apply trained_gate_fits|]. split; [now apply trained_gate_fits|]. split; [now apply trained_gate_fits|].
  split; [now apply trained_gate_fits|]. cbn in E. congruence.
Qed.
Lemma trained_gru_fits i o m : trained_gru (new_gru i o) m -> gru_fits m o i.
Proof. intros (A & B & C). split; [now apply trained_gate_fits|]. split; now apply trained_gate_fits. Qed.
Lemma merged_vec t n a b : is_vec n a -> is_vec n b -> is_vec (merged_size t n) (merged t n a b).
Proof.
  intros A B. destruct t; cbn [merged merged_size]; try apply vec_fits.
  destruct A as (Wa & Ra & Ca), B as (Wb & Rb & Cb). unfold wf in *. rewrite Ra, Ca in Wa. rewrite Rb, Cb in Wb.
  assert (length (data a ++ data b) = 2 * n) as L by (rewrite app_length; lia).
  unfold is_vec, fits, wf, column. cbn. rewrite L. lia.
Qed.
Lemma lstm_vec n m xs a : lstm_output n m xs = Some a -> is_vec n a.
Proof.
  unfold lstm_output. destruct (after _ xs) as [s|] eqn:E; [|discriminate]. cbn [option_map]. intros [= <-].
  eapply (after_inv _ (fun s => is_vec n (snd s))); [|exact E]. intros; apply vec_fits.
Qed.
Lemma gru_vec n m xs a : gru_output n m xs = Some a -> is_vec n a.
Proof. unfold gru_output. intros E. eapply (after_inv _ (fun s => is_vec n s)); [|exact E]. intros; apply vec_fits. Qed.
Lemma joined pos neg f g t n d xs : causal_by d pos f -> causal_by d neg g -> (forall xs a, f xs = Some a -> is_vec n a) -> (forall xs a, g xs = Some a -> is_vec n a) ->
  List.Forall (is_vec d) xs -> exists ys, birnn_forward pos neg t xs = Some ys /\ joins t n f g xs ys.
Proof.
  intros P N F G X. destruct (birnn_value pos neg f g t n d xs P N F G X) as (ys & E & L & H). exists ys. split; [exact E|]. split; [exact L|]. split; [|exact H].
  apply Forall_forall. intros y Y. apply In_nth_error in Y. destruct Y as [i Y]. assert (i < length xs) as I by (rewrite <- L; apply nth_error_Some; congruence).
  destruct (H i I) as (a & b & A & B & M). assert (y = merged t n a b) as -> by congruence. apply merged_vec; eauto.
Qed.

(** A bidirectional LSTM or GRU made by the constructors and trained in any way takes every sequence of vectors of the size it was
    made for, and joins at every position the two directions; its outputs have the hidden size, or twice that if it concatenates. *)
Theorem C43_new_bilstm : forall wide input hidden t m xs, trained trained_lstm (new_bilstm input hidden t) m -> List.Forall (is_vec input) xs ->
  exists ys, bilstm_forward wide m xs = Some ys /\ joins t hidden (lstm_output hidden (bi_pos m)) (lstm_output hidden (bi_neg m)) xs ys.
Proof.
  intros wide input hidden t m xs (P & N & M) X. unfold bilstm_forward. rewrite M. apply (joined _ _ _ _ _ _ input); auto using lstm_causal, trained_lstm_fits.
  all: intros; eapply lstm_vec; eauto.
Qed.
Theorem C43_new_bigru : forall wide input hidden t m xs, trained trained_gru (new_bigru input hidden t) m -> List.Forall (is_vec input) xs ->
  exists ys, bigru_forward wide m xs = Some ys /\ joins t hidden (gru_output hidden (bi_pos m)) (gru_output hidden (bi_neg m)) xs ys.
Proof.
  intros wide input hidden t m xs (P & N & M) X. unfold bigru_forward. rewrite M. apply (joined _ _ _ _ _ _ input); auto using gru_causal, trained_gru_fits.
  all: intros; eapply gru_vec; eauto.
Qed.
(** The two networks of NewBiBiLSTM fit on each other: whatever the sizes, the merge mode and the training, running one after the
    other succeeds on every sequence of vectors of the input size. *)
Theorem C43_new_bibilstm : forall wide input hidden t ms xs, Forall2 (trained trained_lstm) (new_bibilstm input hidden t) ms -> List.Forall (is_vec input) xs ->
  exists m1 m2 zs ys, ms = [m1; m2] /\ module_list_forward (map (bilstm_forward wide) ms) xs = Some ys /\
    joins MConcat hidden (lstm_output hidden (bi_pos m1)) (lstm_output hidden (bi_neg m1)) xs zs /\
    joins t hidden (lstm_output hidden (bi_pos m2)) (lstm_output hidden (bi_neg m2)) zs ys.
Proof.
  intros wide input hidden t ms xs F X. inversion F as [|a m1 l ms1 T1 F1 E1 E2]; subst. inversion F1 as [|a m2 l' ms2 T2 F2 E1 E2]; subst. inversion F2; subst.
  destruct (C43_new_bilstm wide _ _ _ _ _ T1 X) as (zs & Z & J). pose proof J as (_ & JV & _). cbn [merged_size] in JV. rewrite (Nat.mul_comm 2 hidden) in JV.
  destruct (C43_new_bilstm wide _ _ _ _ _ T2 JV) as (ys & Y & K). exists m1, m2, zs, ys. split; [reflexivity|]. split; [|auto].
  unfold module_list_forward. cbn. rewrite Z. cbn. now rewrite Y.
Qed.

(** two layers of sizes 3 and 2, as made and with other numbers, and a sequence of two vectors *)
Example C43_build_case : exists m xs, Forall2 (trained trained_lstm) (new_bibilstm 3 2 MAvg) (m :: skipn 1 (new_bibilstm 3 2 MAvg)) /\ bi_pos m <> new_lstm 3 2 /\
  List.Forall (is_vec 3) xs /\ length xs = 2.
Proof.
  exists (mkBi (mkLstm (mkGate (mkDense 2 3 (repeat 1%R 6)) (zeros 0%R 2 2) (zeros 0%R 2 1)) (new_gate 3 2) (new_gate 3 2) (new_gate 3 2) false) (new_lstm 3 2) MConcat), [column [1%R; 2%R; 3%R]; column [0%R; 1%R; 0%R]].
  split; [|split; [|split; [|reflexivity]]].
  - cbn. repeat constructor.
  - cbn. intros E. injection E. intros. apply R1_neq_R0. congruence.
  - repeat constructor.
Qed.

Print Assumptions C43_new_bilstm.
Print Assumptions C43_new_bigru.
Print Assumptions C43_new_bibilstm.
