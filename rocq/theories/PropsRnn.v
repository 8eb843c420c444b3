(** * C43, C52: recurrent networks *)
From Coq Require Import Reals List Arith Bool Lia Lra.
From Verif Require Import DenseModel DenseSpec GradModel GradSpec GradLemmas OpsModel OpsSpec OpsLemmas AttSpec AttProofs RnnModel RnnSpec RnnProofs SlstmModel SlstmSpec SlstmProofs.
Import ListNotations.
Open Scope nat_scope.

(** ** C43 *)
(** The output at position i is the state, in the sense of the network's equations, after the first i+1 inputs. *)
Theorem C43_srn : forall wide m n d, gate_fits m n d -> causal_by d (srn_forward wide m) (srn_output n m).
Proof. exact srn_causal. Qed.
Print Assumptions C43_srn.
Theorem C43_gru : forall wide m n d, gru_fits m n d -> causal_by d (gru_forward wide m) (gru_output n m).
Proof. exact gru_causal. Qed.
Print Assumptions C43_gru.
Theorem C43_lstm : forall wide m n d, lstm_fits m n d -> causal_by d (lstm_forward wide m) (lstm_output n m).
Proof. exact lstm_causal. Qed.
Print Assumptions C43_lstm.

(** A sequence fed to Next in two parts, the second from the state the first ends in. *)
Theorem C43_two_parts : forall S (next : option S -> mat -> option S) xs ys ss, run next None (xs ++ ys) = Some ss ->
  exists s1 s2, run next None xs = Some s1 /\ run next (nth_error s1 (length s1 - 1)) ys = Some s2 /\ ss = s1 ++ s2 /\ length s1 = length xs.
Proof.
  intros S next xs ys ss E. rewrite run_app in E. destruct (run next None xs) as [s1|] eqn:E1; [|discriminate]. cbn [bind] in E.
  assert (L : forall xs s l, run next s xs = Some l -> length l = length xs).
  { clear. induction xs as [|x xs IH]; intros s l; cbn [run]; [now intros [= <-]|]. destruct (next s x); [|discriminate]. cbn [bind]. destruct (run next (Some s0) xs) eqn:E; [|discriminate]. cbn [bind]. intros [= <-]. cbn. now rewrite (IH _ _ E). }
  assert (X : match rev s1 with [] => None | t :: _ => Some t end = nth_error s1 (length s1 - 1)).
  { destruct s1 as [|t s1 _] using rev_ind; [reflexivity|]. rewrite rev_unit, app_length. cbn [length]. replace (length s1 + 1 - 1) with (length s1) by lia. rewrite nth_error_app2, Nat.sub_diag by lia. reflexivity. }
  rewrite X in E. destruct (run next (nth_error s1 (length s1 - 1)) ys) as [s2|] eqn:E2; [|discriminate]. injection E as <-. exists s1, s2. split; [reflexivity|]. split; [auto|]. split; [reflexivity|exact (L _ _ _ E1)].
Qed.
Print Assumptions C43_two_parts.

(** BiRNN: position i joins the forward network's output for the inputs up to i with the
    backward network's output for the inputs from i on, read from the end. *)
Theorem C43_birnn : forall pos neg hp hn t n d xs, causal_by d pos hp -> causal_by d neg hn ->
  (forall xs a, hp xs = Some a -> is_vec n a) -> (forall xs a, hn xs = Some a -> is_vec n a) -> List.Forall (is_vec d) xs ->
  exists ys, birnn_forward pos neg t xs = Some ys /\ length ys = length xs /\
    forall i, i < length xs -> exists a b, hp (firstn (S i) xs) = Some a /\ hn (rev (skipn i xs)) = Some b /\ nth_error ys i = Some (merged t n a b).
Proof. exact birnn_value. Qed.
Print Assumptions C43_birnn.
(** for instance with two LSTMs *)
Theorem C43_bilstm : forall wide m1 m2 t n d xs, lstm_fits m1 n d -> lstm_fits m2 n d -> List.Forall (is_vec d) xs ->
  exists ys, birnn_forward (lstm_forward wide m1) (lstm_forward wide m2) t xs = Some ys /\ length ys = length xs /\
    forall i, i < length xs -> exists a b, lstm_output n m1 (firstn (S i) xs) = Some a /\ lstm_output n m2 (rev (skipn i xs)) = Some b /\ nth_error ys i = Some (merged t n a b).
Proof.
  intros wide m1 m2 t n d xs F1 F2 Fx. apply (birnn_value _ _ _ _ t n d); auto using lstm_causal.
  all: intros ys a; unfold lstm_output; destruct (after _ ys) as [s|] eqn:E; [|discriminate]; cbn [option_map]; intros [= <-];
    eapply (after_inv _ (fun s => is_vec n (snd s))); [|exact E]; intros; apply vec_fits.
Qed.
Print Assumptions C43_bilstm.

(** the hypotheses can be met, and the outputs do depend on the earlier inputs *)
Definition g1 (w r : R) : gate := mkGate (scalar w) (scalar r) (scalar 0%R).
Example C43_case : gate_fits (g1 1 2) 1 1 /\ gru_fits (mkGru (g1 1 2) (g1 0 1) (g1 1 1)) 1 1 /\ lstm_fits (mkLstm (g1 1 2) (g1 0 1) (g1 1 1) (g1 1 0) true) 1 1 /\
  srn_output 1 (g1 1 2) [scalar 1%R; scalar 0%R] = Some (scalar (tanh (2 * tanh 1))) /\ srn_output 1 (g1 1 2) [scalar 0%R; scalar 0%R] = Some (scalar 0%R).
Proof.
  assert (F : forall w r, gate_fits (g1 w r) 1 1) by (intros; repeat split). split; [apply F|]. split; [repeat split|]. split; [repeat split|].
  assert (T0 : tanh 0 = 0%R) by (unfold tanh, sinh; rewrite Ropp_0; lra).
  unfold srn_output, after, srn_step. cbn [fold_left]. unfold pre, vec, column, scalar. cbn [rows cols map seq length g_b g_w g_rec g1]. unfold entry, Rsum, rget. cbn.
  split; do 3 f_equal.
  - f_equal. replace (0 + (1 * 1 + 0) + 0)%R with 1%R by ring. ring.
  - replace (0 + (1 * 0 + 0) + 0)%R with 0%R by ring. rewrite T0. replace (0 + (1 * 0 + 0) + (2 * 0 + 0))%R with 0%R by ring. now rewrite T0.
Qed.

(** ** C52 *)
(** If inputs and outputs have the same size, Forward gives one vector per word, the result of
    Steps - 1 rounds of the equations, except that the candidate multiplies the sentence vector by U instead of V. *)
Theorem C52_value : forall wide m n xs steps, slstm_fits m n n -> sl_steps m = S steps -> List.Forall (is_vec n) xs -> xs <> [] ->
  slstm_forward wide m xs = Some (fst (fst (sentence (h4_u (sl_act m)) m n xs steps))).
Proof. intros wide m n xs steps F Hs Fx Hne. now apply slstm_value. Qed.
Print Assumptions C52_value.
Theorem C52_outputs_partial : forall wide m n xs steps, slstm_fits m n n -> sl_steps m = S steps -> List.Forall (is_vec n) xs -> xs <> [] ->
  exists ys, slstm_forward wide m xs = Some ys /\ length ys = length xs /\ List.Forall (is_vec n) ys.
Proof.
  intros wide m n xs steps F Hs Fx Hne. eexists. split; [now apply (C52_value wide m n xs steps)|].
  pose proof (state_fits m n F xs steps) as P. destruct (sentence (h4_u (sl_act m)) m n xs steps) as [[h c] g]. cbn [fst]. tauto.
Qed.
Print Assumptions C52_outputs_partial.
(** With different sizes, which New accepts, Forward panics as soon as there is a round to do. *)
Theorem C52_sizes_refuted : forall wide m d n xs steps, slstm_fits m d n -> d <> n -> sl_steps m = S (S steps) -> slstm_forward wide m xs = None.
Proof. exact slstm_fails. Qed.
Print Assumptions C52_sizes_refuted.
(** The matrix V of the candidate has no influence at all. *)
Theorem C52_candidate_refuted : forall wide m xs v,
  slstm_forward wide (mkSlstm (sl_steps m) (sl_input m) (sl_left m) (sl_right m) (sl_cell m) (sl_sent m) (sl_output m)
    (mkH4 (h4_w (sl_act m)) (h4_u (sl_act m)) v (h4_b (sl_act m))) (sl_nl_sent m) (sl_nl_input m) (sl_nl_output m) (sl_start m) (sl_end m) (sl_init m)) xs = slstm_forward wide m xs.
Proof.
  intros wide m xs v. unfold slstm_forward. cbn [sl_steps sl_init]. destruct (sl_steps m) as [|steps]; [reflexivity|]. 
  match goal with |- context [each (compute_ux1 wide ?M) xs] => set (m' := M) end. assert (E : each (compute_ux1 wide m') xs = each (compute_ux1 wide m) xs) by reflexivity.
  rewrite E. destruct (each (compute_ux1 wide m) xs) as [uxs|]; [|reflexivity]. cbn [bind].
  assert (X : forall k g c h, rounds wide m' uxs k h c g = rounds wide m uxs k h c g); [|apply X].
  induction k as [|k IH]; intros g c h; [reflexivity|]. cbn [rounds]. change (compute_vg wide m' g) with (compute_vg wide m g). destruct (compute_vg wide m g) as [vg|]; [|reflexivity]. cbn [bind].
  change (update_hidden wide m' uxs vg h c g) with (update_hidden wide m uxs vg h c g). destruct (update_hidden wide m uxs vg h c g); [|reflexivity]. cbn [bind].
  change (update_sentence wide m' h c g) with (update_sentence wide m h c g). destruct (update_sentence wide m h c g); [|reflexivity]. cbn [bind]. apply IH.
Qed.
Print Assumptions C52_candidate_refuted.

Lemma tanh_inj a b : tanh a = tanh b -> a = b.
Proof.
  unfold tanh, sinh, cosh. intros H. pose proof (exp_pos a) as Pa. pose proof (exp_pos b) as Pb. rewrite !exp_Ropp in H. apply exp_inv.
  set (x := exp a) in *. set (y := exp b) in *.
  assert (X : forall u, (0 < u)%R -> ((u - / u) / 2 / ((u + / u) / 2) = 1 - 2 / (u * u + 1))%R).
  { intros u Hu. field. split; nra. }
  rewrite !X in H by auto. assert (Q : (2 / (x * x + 1) = 2 / (y * y + 1))%R) by lra. unfold Rdiv in Q. apply Rmult_eq_reg_l in Q; [|lra].
  assert (Q2 : (x * x + 1 = y * y + 1)%R). { rewrite <- (Rinv_inv (x * x + 1)), <- (Rinv_inv (y * y + 1)). now rewrite Q. } nra.
Qed.
(** the equations do depend on V: with the sentence vector 1 and V = 1 the first round already differs *)
Definition h4_zero (u v : R) : hyper4 := mkH4 (mkDense 1 3 [0%R; 0%R; 0%R]) (scalar u) (scalar v) (scalar 0%R).
Definition h3_zero : hyper3 := mkH3 (scalar 0%R) (scalar 0%R) (scalar 0%R).
Definition tiny_slstm : slstm := mkSlstm 2 (h4_zero 0 0) (h4_zero 0 0) (h4_zero 0 0) (h4_zero 0 0) (h4_zero 0 0) (h4_zero 0 0) (h4_zero 0 1) h3_zero h3_zero h3_zero (scalar 0%R) (scalar 0%R) (scalar 1%R).
Example C52_case : slstm_fits tiny_slstm 1 1 /\ sl_steps tiny_slstm = 2 /\
  fst (fst (sentence (h4_u (sl_act tiny_slstm)) tiny_slstm 1 [scalar 0%R] 1)) <> fst (fst (sentence (h4_v (sl_act tiny_slstm)) tiny_slstm 1 [scalar 0%R] 1)).
Proof.
  split; [repeat split|]. split; [reflexivity|]. cbn [sentence fst repeat length seq map]. intros H. unfold new_hidden, new_cell, vec, column in H. cbn [map seq length] in H. injection H as H.
  assert (L : forall a b c, (0 < c -> c * a = c * b -> a = b)%R) by (intros a b c Hc E; apply Rmult_eq_reg_l in E; lra).
  apply L in H; [|unfold logistic; match goal with |- (0 < 1 / (1 + exp ?t))%R => pose proof (exp_pos t); apply Rdiv_lt_0_compat; lra end]. apply tanh_inj in H.
  assert (E1 : forall a : R, entry (mkDense 1 1 [a]) 0 = a) by reflexivity. rewrite !E1 in H.
  match type of H with (?A + ?c * tanh ?p = ?B + ?c2 * tanh ?q)%R => assert (K : (c * tanh p = c * tanh q)%R) by lra end.
  apply L in K; [|unfold logistic; match goal with |- (0 < 1 / (1 + exp ?t))%R => pose proof (exp_pos t); apply Rdiv_lt_0_compat; lra end]. apply tanh_inj in K.
  unfold gate4, row_times, entry, rget, Rsum in K. cbn in K. lra.
Qed.
