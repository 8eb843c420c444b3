(** * Recurrent networks in floating point: NaN *)
From Coq Require Import ZArith Bool Lia List Arith Reals Lra Permutation.
From Flocq Require Import Core BinarySingleNaN.
From Verif Require Import AsmModel AsmCalls AsmSpec FloatModel NumModel NumSpec NumLemmas AsmFloat2 NormFloatModel NormFloatBack5 LossFloatModel LossFloatProofs6 RnnFloatModel RnnFloatSpec RnnFloatProofs RnnFloatProofs3.
Import ListNotations.
Local Open Scope list_scope.

Section Nan.
Variables (m : libm) (d : dtype) (dot : list nat -> list (val d * val d) -> val d) (vexp : list (val d) -> list (val d)).
Hypothesis D : dots_all dot.
Hypothesis T : Tanh m B754_nan = B754_nan.
Hypothesis V : forall l, length (vexp l) = length l.
Notation vec := (list (val d)).
Lemma add_nan' (a b : val d) : a = B754_nan \/ b = B754_nan -> fadd a b = B754_nan.
Proof. intros [-> | ->]; apply add_nan; auto. Qed.
Lemma dot_nan v (l : list (val d * val d)) : dot_of (floats d) v l -> Exists (fun p => fst p = B754_nan \/ snd p = B754_nan) l -> v = B754_nan.
Proof.
  induction 1 as [|x y|a b l k p Sa IHa Sb IHb P|a x y l p Sa IHa P]; intros E.
  - inversion E.
  - inversion E as [? ? H|? ? H]; subst; [|inversion H]. apply mul_nan. exact H.
  - apply (Permutation_Exists (Permutation_sym P)) in E. apply Exists_app in E. apply add_nan'. destruct E as [E|E]; auto.
  - apply (Permutation_Exists (Permutation_sym P)) in E. apply Exists_app in E. cbn [fma floats]. destruct E as [E|E]; [rewrite (IHa E); apply fma_nan_add; reflexivity|].
    inversion E as [? ? H|? ? H]; subst; [|inversion H]. apply fma_nan_mul. apply mul_nan. exact H.
Qed.
Lemma combine_nan (r y : vec) : length r = length y -> some_nan y -> Exists (fun p => fst p = B754_nan \/ snd p = B754_nan) (combine r y).
Proof. intros L H. revert r L. induction H as [b y H|b y H IH]; intros [|a r] L; cbn in L; try discriminate; cbn [combine]; [left; right; exact H|right; apply IH; lia]. Qed.
Lemma mul_rows_nan k rows (y : vec) : Forall (fun r => length r = length y) rows -> some_nan y -> forall i, all_nan (mul_rows d dot k i rows y).
Proof. intros F H. induction F as [|r rows L F IH]; intros i; cbn [mul_rows]; [constructor|]. constructor; [apply (dot_nan _ (combine r y)); [apply D|apply combine_nan; assumption]|apply IH]. Qed.
Lemma zip_nan_l (f : val d -> val d -> val d) x y : (forall a b, a = B754_nan -> f a b = B754_nan) -> all_nan x -> all_nan (zip f x y).
Proof. intros H Hx. revert y. induction Hx as [|a x Ha Hx IH]; intros y; [destruct y; constructor|]. destruct y as [|b y]; constructor; auto. apply IH. Qed.
Lemma zip_nan_r (f : val d -> val d -> val d) x y : (forall a b, b = B754_nan -> f a b = B754_nan) -> all_nan y -> all_nan (zip f x y).
Proof. intros H Hy. revert x. induction Hy as [|b y Hb Hy IH]; intros x; [destruct x; constructor|]. destruct x as [|a x]; constructor; auto. apply IH. Qed.
Lemma affine_nan t j k n (g : gate d) x y : shaped k n g -> length y = n -> some_nan y -> all_nan (affine d dot t j g x (Some y)).
Proof. intros (_ & _ & _ & _ & F) L H. apply zip_nan_r; [intros; apply add_nan'; auto|]. apply mul_rows_nan; [rewrite L; exact F|exact H]. Qed.
Lemma tanh_nan (x : vec) : all_nan x -> all_nan (tanh_op m d x).
Proof. intros H. unfold all_nan, tanh_op. rewrite Forall_map. eapply Forall_impl; [|exact H]. intros e ->. change (conv d F64 B754_nan) with (B754_nan : val F64). unfold go_tanh. rewrite T. reflexivity. Qed.
Lemma affine_size t j k n (g : gate d) x y : shaped k n g -> length (affine d dot t j g x y) = n.
Proof.
  intros (L1 & L2 & L3 & _). unfold affine. assert (L : length (zip fadd (mul_rows d dot [0%nat; j; t] 0 (W g) x) (Bias g)) = n) by (apply zip_len; rewrite ?mul_rows_length; assumption).
  destruct y as [y|]; [|exact L]. apply zip_len; [exact L|]. now rewrite mul_rows_length.
Qed.
Lemma sigmoid_size (x : vec) : length (sigmoid d vexp x) = length x.
Proof. unfold sigmoid. now rewrite map_length, V, map_length. Qed.
Lemma tanh_size (x : vec) : length (tanh_op m d x) = length x.
Proof. apply map_length. Qed.
Lemma all_some (v : vec) n : (0 < n)%nat -> length v = n -> all_nan v -> some_nan v.
Proof. intros P L H. destruct H as [|e v He Hv]; [cbn in L; lia|]. left. exact He. Qed.
Lemma prod_some (y r : vec) : length r = length y -> some_nan y -> some_nan (prod d y r).
Proof. intros L H. revert r L. induction H as [b y H|b y H IH]; intros [|a r] L; cbn in L; try discriminate; unfold prod; cbn [zip]; [left; apply mul_nan; auto|right; apply IH; lia]. Qed.
Lemma mul_l (a b : val d) : a = B754_nan -> fmul a b = B754_nan. Proof. intros H. apply mul_nan. auto. Qed.
Lemma mul_r (a b : val d) : b = B754_nan -> fmul a b = B754_nan. Proof. intros H. apply mul_nan. auto. Qed.
Lemma add_l (a b : val d) : a = B754_nan -> fadd a b = B754_nan. Proof. intros H. apply add_nan'. auto. Qed.

Variables (k n : nat).
Hypothesis P : (0 < n)%nat.
Lemma run_all {S} (next : nat -> option S -> vec -> S) (I J : S -> Prop) : (forall t s x, I s -> I (next t (Some s) x) /\ J (next t (Some s) x)) -> forall xs t s, I s -> Forall J (run d next t (Some s) xs).
Proof. intros H. induction xs as [|x xs IH]; intros t s Hs; cbn [run]; [constructor|]. destruct (H t s x Hs) as (A & B). constructor; [exact B|]. apply IH. exact A. Qed.
Lemma srn_nan (g : gate d) t y xs : shaped k n g -> length y = n -> some_nan y -> Forall all_nan (run d (srn_next m d dot g) t (Some y) xs).
Proof.
  intros Hs L H. apply (run_all (srn_next m d dot g) (fun y => length y = n /\ some_nan y) all_nan); [|split; assumption]. clear t y xs L H. intros t y x (L & H).
  assert (A : all_nan (srn_next m d dot g t (Some y) x)) by (apply tanh_nan; eapply affine_nan; eassumption).
  assert (Ln : length (srn_next m d dot g t (Some y) x) = n) by (unfold srn_next; rewrite tanh_size; eapply affine_size; eassumption).
  split; [split; [exact Ln|eapply all_some; eassumption]|exact A].
Qed.
Lemma gru_nan (g : gru d) t s xs : shaped k n (Res g) -> shaped k n (Part g) -> shaped k n (Cand g) -> length (gY s) = n -> some_nan (gY s) ->
  Forall (fun s => all_nan (gC s) /\ all_nan (gY s)) (run d (gru_next m d dot vexp g) t (Some s) xs).
Proof.
  intros S1 S2 S3 L H. apply (run_all (gru_next m d dot vexp g) (fun s => length (gY s) = n /\ some_nan (gY s)) (fun s => all_nan (gC s) /\ all_nan (gY s))); [|split; assumption]. clear t s xs L H. intros t s x (L & H).
  set (s' := gru_next m d dot vexp g t (Some s) x).
  assert (LR : length (gR s') = n) by (unfold s', gru_next; cbn [gR]; rewrite sigmoid_size; eapply affine_size; eassumption).
  assert (LP : length (gP s') = n) by (unfold s', gru_next; cbn [gP]; rewrite sigmoid_size; eapply affine_size; eassumption).
  assert (LC : length (gC s') = n) by (unfold s', gru_next; cbn [gC]; rewrite tanh_size; eapply affine_size; eassumption).
  assert (AC : all_nan (gC s')).
  { change (gC s') with (tanh_op m d (affine d dot t 2 (Cand g) x (Some (prod d (gY s) (gR s'))))). apply tanh_nan. eapply affine_nan; [eassumption|apply zip_len; assumption|apply prod_some; [congruence|exact H]]. }
  assert (EY : gY s' = add d (prod d (gP s') (gC s')) (prod d (map (one_minus d) (gP s')) (gY s))) by reflexivity.
  assert (AY : all_nan (gY s')) by (rewrite EY; apply zip_nan_l; [exact add_l|]; apply zip_nan_r; [exact mul_r|exact AC]).
  assert (LY : length (gY s') = n) by (rewrite EY; repeat apply zip_len; rewrite ?map_length; assumption).
  split; [split; [exact LY|eapply all_some; eassumption]|split; assumption].
Qed.
Lemma lstm_nan (g : lstm d) t s xs : (Refined g = true -> k = n) -> shaped k n (InG g) -> shaped k n (OutG g) -> shaped k n (ForG g) -> shaped k n (CandG g) -> length (lCell s) = n -> length (lY s) = n -> some_nan (lY s) ->
  Forall (fun x : vec => length x = k) xs -> Forall (fun s => all_nan (lCand s) /\ all_nan (lCell s) /\ all_nan (lY s)) (run d (lstm_next m d dot vexp g) t (Some s) xs).
Proof.
  intros Hr S1 S2 S3 S4 Lc L H Fx. revert t s Lc L H. induction Fx as [|x xs Hx Fx IH]; intros t s Lc L H; cbn [run]; [constructor|].
  set (s' := lstm_next m d dot vexp g t (Some s) x).
  assert (LI : length (lIn s') = n). { unfold s', lstm_next. cbn [lIn]. destruct (Refined g); [apply zip_len; [|rewrite Hx; auto]|]; rewrite sigmoid_size; eapply affine_size; eassumption. }
  assert (LO : length (lOut s') = n). { unfold s', lstm_next. cbn [lOut]. destruct (Refined g); [apply zip_len; [|rewrite Hx; auto]|]; rewrite sigmoid_size; eapply affine_size; eassumption. }
  assert (LF : length (lFor s') = n) by (unfold s', lstm_next; cbn [lFor]; rewrite sigmoid_size; eapply affine_size; eassumption).
  assert (LC : length (lCand s') = n) by (unfold s', lstm_next; cbn [lCand]; rewrite tanh_size; eapply affine_size; eassumption).
  assert (AC : all_nan (lCand s')) by (apply tanh_nan; eapply affine_nan; eassumption).
  assert (EC : lCell s' = add d (prod d (lIn s') (lCand s')) (prod d (lFor s') (lCell s))) by reflexivity.
  assert (EY : lY s' = prod d (lOut s') (tanh_op m d (lCell s'))) by reflexivity.
  assert (AE : all_nan (lCell s')) by (rewrite EC; apply zip_nan_l; [exact add_l|]; apply zip_nan_r; [exact mul_r|exact AC]).
  assert (LE : length (lCell s') = n) by (rewrite EC; repeat apply zip_len; assumption).
  assert (AY : all_nan (lY s')) by (rewrite EY; apply zip_nan_r; [exact mul_r|]; apply tanh_nan; exact AE).
  assert (LY : length (lY s') = n) by (rewrite EY; apply zip_len; [exact LO|now rewrite tanh_size]).
  constructor; [split; [exact AC|split; assumption]|]. apply IH; [exact LE|exact LY|eapply all_some; eassumption].
Qed.
End Nan.
