(** * The plain loops, and the kernels that are chosen *)
From Coq Require Import ZArith String Bool Lia List Permutation.
From Verif Require Import AsmModel AsmCode AsmCalls AsmSpec AsmLemmas AsmProofs AsmProofs2 AsmProofs3 AsmProofs4 AsmProofs5.
Import ListNotations.

Section Plain.
Context {T : Type}.
Lemma loop2_eq (op : T -> T -> T) x1 : forall x2 i y done rest, y = done ++ rest -> length done = i -> i + length x1 <= length x2 -> length x1 <= length rest ->
  loop2 op x1 x2 i y = Some (done ++ map (fun p => op (fst p) (snd p)) (combine x1 (skipn i x2)) ++ skipn (length x1) rest).
Proof.
  induction x1 as [|a x1 IH]; intros x2 i y done rest -> Hd H2 Hr; [reflexivity|]; cbn [loop2].
  cbn [length] in *. destruct rest as [|r rest]; cbn [length] in Hr; [lia|].
  assert (exists b, nth_error x2 i = Some b /\ skipn i x2 = b :: skipn (S i) x2) as (b & Eb & Es).
  { destruct (nth_error x2 i) as [b|] eqn:E; [|apply nth_error_None in E; lia]. exists b. split; [reflexivity|].
    clear - E. revert i E. induction x2; intros [|i] E; cbn in *; try discriminate; [now injection E as -> | auto]. }
  rewrite Eb. rewrite app_length. cbn [length]. replace (Nat.ltb i (length done + S (length rest))) with true by (symmetry; apply Nat.ltb_lt; lia).
  assert (F : firstn i (done ++ r :: rest) = done) by (subst i; rewrite firstn_app, Nat.sub_diag, firstn_all; cbn; apply app_nil_r).
  assert (G : skipn (S i) (done ++ r :: rest) = rest) by (rewrite skipn_app, skipn_all2 by lia; replace (S i - length done) with 1 by lia; reflexivity).
  rewrite F, G. rewrite (IH x2 (S i) _ (done ++ [op a b]) rest); [|now rewrite <- app_assoc|rewrite app_length; cbn; lia|lia|lia].
  rewrite Es. cbn [combine map fst snd app skipn]. rewrite <- app_assoc. reflexivity.
Qed.
Lemma plain2_eq (op : T -> T -> T) x1 x2 y : length x2 = length x1 -> length y = length x1 -> plain2 op x1 x2 y = Some (map (fun p => op (fst p) (snd p)) (combine x1 x2)).
Proof.
  intros H2 Hy. unfold plain2. destruct x1 as [|a x1]; [destruct y; [reflexivity|discriminate]|].
  rewrite H2, Hy, Nat.ltb_irrefl. rewrite (loop2_eq op (a :: x1) x2 0 y [] y); auto; try lia.
  cbn [app skipn]. rewrite <- Hy, skipn_all, app_nil_r. reflexivity.
Qed.
Lemma loop1_eq (op : T -> T -> T) c x : forall i y done rest, y = done ++ rest -> length done = i -> length x <= length rest ->
  loop1 op c x i y = Some (done ++ map (fun a => op a c) x ++ skipn (length x) rest).
Proof.
  induction x as [|a x IH]; intros i y done rest -> Hd Hr; [reflexivity|]; cbn [loop1].
  cbn [length] in *. destruct rest as [|r rest]; cbn [length] in Hr; [lia|].
  rewrite app_length. cbn [length]. replace (Nat.ltb i (length done + S (length rest))) with true by (symmetry; apply Nat.ltb_lt; lia).
  assert (F : firstn i (done ++ r :: rest) = done) by (subst i; rewrite firstn_app, Nat.sub_diag, firstn_all; cbn; apply app_nil_r).
  assert (G : skipn (S i) (done ++ r :: rest) = rest) by (rewrite skipn_app, skipn_all2 by lia; replace (S i - length done) with 1 by lia; reflexivity).
  rewrite F, G. rewrite (IH (S i) _ (done ++ [op a c]) rest); [|now rewrite <- app_assoc|rewrite app_length; cbn; lia|lia].
  rewrite <- app_assoc. reflexivity.
Qed.
Lemma plain1_eq (op : T -> T -> T) c x y : length y = length x -> plain1 op c x y = Some (map (fun a => op a c) x).
Proof.
  intros Hy. unfold plain1. destruct x as [|a x]; [destruct y; [reflexivity|discriminate]|].
  rewrite Hy, Nat.ltb_irrefl. rewrite (loop1_eq op c (a :: x) 0 y [] y); auto; try lia.
  cbn [app skipn]. rewrite <- Hy, skipn_all, app_nil_r. reflexivity.
Qed.
End Plain.

Section Agree.
Variable A : lanes.
Variable esize : Z.
Variable half : nat.
Lemma nth_error_combine {S T} (l : list S) (k : list T) : forall i, nth_error (combine l k) i = match nth_error l i, nth_error k i with Some a, Some b => Some (a, b) | _, _ => None end.
Proof. revert k. induction l as [|a l IH]; intros [|b k] [|i]; cbn; auto. now destruct (nth_error l i). Qed.
Lemma computes_agrees2 c f : computes2 A esize half c f -> agrees2 A esize half c f.
Proof.
  intros H F st x1 x2 y l1 l2 ly E1 E2 E3 E4 L2 Ly S1 S2 S3 D1 D2 Al.
  destruct (H F st x1 x2 y l1 l2 ly E1 E2 E3 E4 L2 Ly S1 S2 S3 D1 D2 Al) as (st' & R & V & O).
  exists st', (map (fun p => f (fst p) (snd p)) (combine l1 l2)). split; [exact R|]. split; [now apply plain2_eq|]. split; [|exact O].
  intros i v E. rewrite nth_error_map, nth_error_combine in E. destruct (nth_error l1 i) eqn:Ei, (nth_error l2 i) eqn:Ej; try discriminate.
  injection E as <-. eapply V; eauto.
Qed.
Lemma computes_agrees1 c f : computes1 A esize half c f -> agrees1 A esize half c f.
Proof.
  intros H F st x y k l ly E1 E2 E3 E4 Ly S1 S2 D.
  destruct (H F st x y k l ly E1 E2 E3 E4 Ly S1 S2 D) as (st' & R & V & O).
  exists st', (map (fun a => f a k) l). split; [exact R|]. split; [now apply plain1_eq|]. split; [|exact O].
  intros i v E. rewrite nth_error_map in E. destruct (nth_error l i) eqn:Ei; try discriminate.
  injection E as <-. eapply V; eauto.
Qed.
(** ** Sums *)
Lemma plain_sum_of l : sum_of A (plain_sum (zero A) (bin A Add) l) l.
Proof.
  unfold plain_sum. enough (G : forall k z, sum_of A z k -> sum_of A (fold_left (bin A Add) l z) (k ++ l)) by (apply (G []); constructor).
  induction l as [|x l IH]; intros k z Hz; cbn [fold_left]; [now rewrite app_nil_r|].
  replace (k ++ x :: l) with ((k ++ [x]) ++ l) by (now rewrite <- app_assoc). apply IH. eapply sum_add; [exact Hz|apply sum_one|reflexivity].
Qed.
Lemma plain_dot_of x1 x2 v : plain_dot (zero A) (bin A Add) (bin A Mul) x1 x2 = Some v -> dot_of A v (combine x1 x2).
Proof.
  assert (G : forall x1 x2 k z w, dot_of A z k -> loop_dot (bin A Add) (bin A Mul) x1 x2 z = Some w -> dot_of A w (k ++ combine x1 x2)).
  { clear. induction x1 as [|a x1 IH]; intros x2 k z w Hz E; cbn [loop_dot] in E; [injection E as <-; cbn; now rewrite app_nil_r|].
    destruct x2 as [|b x2]; [discriminate|]. cbn [combine]. replace (k ++ (a, b) :: combine x1 x2) with ((k ++ [(a, b)]) ++ combine x1 x2) by (now rewrite <- app_assoc).
    eapply IH; [|exact E]. eapply dot_add; [exact Hz|apply dot_one|reflexivity]. }
  unfold plain_dot. destruct x1 as [|a x1]; [intros [= <-]; constructor|]. destruct (Nat.ltb _ _); [discriminate|].
  intros E. eapply (G (a :: x1) x2 []); [constructor|exact E].
Qed.
Lemma plain_dot_some x1 x2 : length x2 = length x1 -> exists v, plain_dot (zero A) (bin A Add) (bin A Mul) x1 x2 = Some v.
Proof.
  intros L. unfold plain_dot. destruct x1 as [|a x1]; [eauto|]. rewrite L, Nat.ltb_irrefl.
  generalize (zero A). revert L. generalize (a :: x1) as k. clear. intros k. revert x2.
  induction k as [|x k IH]; intros [|b x2] L z; try discriminate; cbn [loop_dot]; [eauto|]. apply IH. now injection L.
Qed.
(** *** with an exact addition *)
Section Exact.
Hypothesis addA : forall a b c, bin A Add a (bin A Add b c) = bin A Add (bin A Add a b) c.
Hypothesis addC : forall a b, bin A Add a b = bin A Add b a.
Hypothesis add0 : forall a, bin A Add (zero A) a = a.
Lemma sum_app l k : fold_right (bin A Add) (zero A) (l ++ k) = bin A Add (fold_right (bin A Add) (zero A) l) (fold_right (bin A Add) (zero A) k).
Proof. induction l; cbn; [now rewrite add0|]. now rewrite IHl, addA. Qed.
Lemma sum_permutation l k : Permutation l k -> fold_right (bin A Add) (zero A) l = fold_right (bin A Add) (zero A) k.
Proof. induction 1; cbn; [reflexivity|congruence|now rewrite !addA, (addC y x)|congruence]. Qed.
Lemma sum_exact v l : sum_of A v l -> v = fold_right (bin A Add) (zero A) l.
Proof.
  induction 1 as [|x|a b l k m Sa IHa Sb IHb P]; cbn; [reflexivity|now rewrite addC, add0|].
  rewrite <- (sum_permutation _ _ P), sum_app. congruence.
Qed.
Lemma dot_exact v l : (forall a b c, fma A a b c = bin A Add (bin A Mul a b) c) -> dot_of A v l -> v = fold_right (bin A Add) (zero A) (map (fun p => bin A Mul (fst p) (snd p)) l).
Proof.
  intros Hf. induction 1 as [|x y|a b l k m Sa IHa Sb IHb P|a x y l m Sa IHa P]; cbn; [reflexivity|now rewrite addC, add0| |].
  - apply (Permutation_map (fun p => bin A Mul (fst p) (snd p))) in P. rewrite <- (sum_permutation _ _ P), map_app, sum_app. congruence.
  - apply (Permutation_map (fun p => bin A Mul (fst p) (snd p))) in P. rewrite <- (sum_permutation _ _ P), map_app, sum_app, <- IHa, Hf. cbn.
    now rewrite (addC _ (zero A)), add0, addC.
Qed.
End Exact.
End Agree.

Section Chosen.
Variable A : lanes.
Variable c : cpu.
Ltac pick t1 t2 := match goal with |- context [if ?b then _ else _] => destruct b; [t1|t2] end.
Ltac two s1 s2 := unfold choose; pick ltac:(rewrite s1; apply avx2_ok; lia) ltac:(rewrite s2; first [apply sse2_32_ok | apply sse2_64_ok]).
Lemma add32_ok : computes2 A 4 4 (Add32 c) (bin A Add). Proof. unfold Add32. two add_avx32_shape add_sse32_shape. Qed.
Lemma add64_ok : computes2 A 8 2 (Add64 c) (bin A Add). Proof. unfold Add64. two add_avx64_shape add_sse64_shape. Qed.
Lemma sub32_ok : computes2 A 4 4 (Sub32 c) (bin A Sub). Proof. unfold Sub32. two sub_avx32_shape sub_sse32_shape. Qed.
Lemma sub64_ok : computes2 A 8 2 (Sub64 c) (bin A Sub). Proof. unfold Sub64. two sub_avx64_shape sub_sse64_shape. Qed.
Lemma div32_ok : computes2 A 4 4 (Div32 c) (bin A Div). Proof. unfold Div32. two div_avx32_shape div_sse32_shape. Qed.
Lemma div64_ok : computes2 A 8 2 (Div64 c) (bin A Div). Proof. unfold Div64. two div_avx64_shape div_sse64_shape. Qed.
Ltac one s1 s2 C := unfold choose; pick ltac:(rewrite s1; apply avxc_ok; [lia|lia|exact C]) ltac:(rewrite s2; apply ssec_ok; lia).
Lemma add_const32_ok : (forall a b, bin A Add a b = bin A Add b a) -> computes1 A 4 4 (AddConst32 c) (bin A Add).
Proof. intros C. unfold AddConst32. one add_const_avx32_shape add_const_sse32_shape C. Qed.
Lemma add_const64_ok : (forall a b, bin A Add a b = bin A Add b a) -> computes1 A 8 2 (AddConst64 c) (bin A Add).
Proof. intros C. unfold AddConst64. one add_const_avx64_shape add_const_sse64_shape C. Qed.
Lemma mul_const32_ok : (forall a b, bin A Mul a b = bin A Mul b a) -> computes1 A 4 4 (MulConst32 c) (bin A Mul).
Proof. intros C. unfold MulConst32. one mul_const_avx32_shape mul_const_sse32_shape C. Qed.
Lemma mul_const64_ok : (forall a b, bin A Mul a b = bin A Mul b a) -> computes1 A 8 2 (MulConst64 c) (bin A Mul).
Proof. intros C. unfold MulConst64. one mul_const_avx64_shape mul_const_sse64_shape C. Qed.
Lemma sum32_ok : computes_sum A 4 4 (Sum32 c).
Proof. unfold Sum32, choose. destruct (avx c); [rewrite sum_avx32_shape; apply sum_avx_ok|rewrite sum_sse32_shape; apply sum_sse32_ok]; auto; lia. Qed.
Lemma sum64_ok : computes_sum A 8 2 (Sum64 c).
Proof. unfold Sum64, choose. destruct (avx c); [rewrite sum_avx64_shape; apply sum_avx_ok|rewrite sum_sse64_shape; apply sum_sse64_ok]; auto; lia. Qed.
Lemma dot32_ok : computes_dot A 4 4 (DotProd32 c).
Proof. unfold DotProd32, choose. destruct (avx c && has_fma c); [rewrite dot_prod_avx32_shape; apply dot_avx_ok|rewrite dot_prod_sse32_shape; apply dot_sse32_ok]; auto; lia. Qed.
Lemma dot64_ok : computes_dot A 8 2 (DotProd64 c).
Proof. unfold DotProd64, choose. destruct (avx c && has_fma c); [rewrite dot_prod_avx64_shape; apply dot_avx_ok|rewrite dot_prod_sse64_shape; apply dot_sse64_ok]; auto; lia. Qed.
End Chosen.
