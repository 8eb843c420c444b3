(** * Attention in floating point: what the causal mask hides *)
From Coq Require Import ZArith Bool Lia List Arith Reals Lra Permutation.
From Flocq Require Import Core BinarySingleNaN Plus_error.
From Verif Require Import AsmModel AsmCalls AsmSpec FloatModel FloatSpec FloatProofs NumModel NumSpec NumLemmas AsmFloatSpec AsmFloat AsmFloat2 SoftSpec SoftProofs SoftFloat SoftFloat2 OptFloatNum NormFloatModel NormFloatSpec NormFloatBack NormFloatBack5 LossFloatModel LossFloatSpec LossFloatProofs LossFloatProofs4 RnnFloatModel RnnFloatSpec RnnFloatProofs RnnFloatProofs3 AttFloatModel AttFloatSpec AttFloatProofs AttFloatProofs2 AttFloatProofs3.
Import ListNotations.
Local Open Scope list_scope.
Local Open Scope R_scope.

(** a sum is -0 only if both terms are *)
Lemma sum_minus_zero d (x y : val d) : fadd x y = B754_zero true -> y = B754_zero true.
Proof.
  intros E. destruct (is_finite x) eqn:Fx; [|destruct x as [s|[|]| |s m e H], y as [[|]|[|]| |[|] m' e' H']; try discriminate; reflexivity].
  destruct (is_finite y) eqn:Fy; [|destruct x as [[|]|s| |[|] m e H], y as [[|]|[|]| |[|] m' e' H']; try discriminate; reflexivity].
  pose proof (@Bplus_correct (prec d) (emax d) (prec_pos d) (prec_emax d) mode_NE x y Fx Fy) as C. fold (fadd x y) in C. rewrite E in C. destruct (Rlt_bool _ _).
  - destruct C as (V & _ & S). cbn [B2R Bsign] in V, S. destruct (Req_dec (B2R x + B2R y) 0) as [Z|Z].
    + rewrite Z, Rcompare_Eq in S by reflexivity. symmetry in S. apply andb_true_iff in S. destruct S as (S1 & S2).
      assert (X : B2R x <= 0). { destruct x as [s|s| |s m e H]; try discriminate; cbn in *; try lra. subst s. left. apply F2R_lt_0. reflexivity. }
      destruct y as [s|s| |s m e H]; try discriminate; cbn in S2; subst s; [reflexivity|]. assert (Y : B2R (B754_finite true m e H : val d) < 0) by (cbn; apply F2R_lt_0; reflexivity). lra.
    + exfalso. pose proof (fexp_correct (prec d) (emax d) (prec_pos d)) as Vd. assert (Fz : Exp_not_FTZ (SpecFloat.fexp (prec d) (emax d))) by (change (SpecFloat.fexp (prec d) (emax d)) with (FLT_exp (SpecFloat.emin (prec d) (emax d)) (prec d)); apply monotone_exp_not_FTZ; [exact Vd|apply FLT_exp_monotone]).
      exact (round_plus_neq_0 radix2 (SpecFloat.fexp (prec d) (emax d)) (round_mode mode_NE) (B2R x) (B2R y) (generic_format_B2R _ _ _) (generic_format_B2R _ _ _) Z (eq_sym V)).
  - destruct C as (C & _). destruct (Bsign x); discriminate.
Qed.

Section Loop.
Variable d : dtype.
Notation vec := (list (val d)).
Notation loop ps o := (fold_left (fun (o : val d) (p : val d * val d) => fadd (fmul (fst p) (snd p)) o) ps o).
Lemma loop_sign (ps : list (val d * val d)) : forall o, o <> B754_zero true -> loop ps o <> B754_zero true.
Proof. induction ps as [|p ps IH]; intros o H; cbn [fold_left]; [exact H|]. apply IH. intros E. apply H, (sum_minus_zero d _ _ E). Qed.
Lemma times_zero (x : val d) : finite x -> exists s, fmul x fzero = B754_zero s.
Proof. destruct x as [s|s| |s m e H]; intros F; try discriminate; eexists; reflexivity. Qed.
Lemma plus_zero s (o : val d) : o <> B754_zero true -> fadd (B754_zero s) o = o.
Proof. destruct o as [[|]|s'| |s' m e H]; intros N; [contradiction|destruct s; reflexivity..]. Qed.
Lemma loop_hidden (ps : list (val d * val d)) : Forall (fun p => finite (fst p) /\ snd p = fzero) ps -> forall o, o <> B754_zero true -> loop ps o = o.
Proof.
  induction 1 as [|p ps (F & Z) H IH]; intros o N; cbn [fold_left]; [reflexivity|]. rewrite Z. destruct (times_zero _ F) as (s & ->). rewrite plus_zero by exact N. now apply IH.
Qed.
Lemma Forall_skipn {A} (P : A -> Prop) z (l : list A) : forall m, (forall j, (m <= j < length l)%nat -> P (nth j l z)) -> Forall P (skipn m l).
Proof.
  induction l as [|x l IH]; intros [|m] H; cbn [skipn]; try constructor.
  - apply (H 0%nat). cbn. lia.
  - apply (IH 0%nat). intros j Hj. apply (H (S j)). cbn. lia.
  - apply IH. intros j Hj. apply (H (S j)). cbn. lia.
Qed.
Lemma firstn_same {A} (z : A) (l k : list A) m : length l = length k -> (forall j, (j < m)%nat -> (j < length l)%nat -> nth j l z = nth j k z) -> firstn m l = firstn m k.
Proof.
  revert l k. induction m as [|m IH]; intros l k L H; [reflexivity|]. destruct l as [|x l], k as [|y k]; cbn in L; try discriminate; [reflexivity|]. cbn [firstn]. f_equal; [apply (H 0%nat); cbn; lia|]. apply IH; [lia|]. intros j Hj Hl. apply (H (S j)); cbn; lia.
Qed.
Variable dot : list nat -> list (val d * val d) -> val d.
Lemma mul_rows_at t rows x : forall i j, (j < length rows)%nat -> nth j (mul_rows d dot t i rows x) fzero = dot ((i + j)%nat :: t) (combine (nth j rows []) x).
Proof.
  induction rows as [|r rows IH]; intros i j H; cbn in H; [lia|]. destruct j as [|j]; cbn [mul_rows nth]; [now rewrite Nat.add_0_r|]. rewrite IH by lia. do 2 f_equal. lia.
Qed.
End Loop.

Lemma weights_at d dot sum vexp q k v scale causal i : (i < length q)%nat ->
  nth i (snd (attention d dot sum vexp q k v scale causal)) [] = softmax d sum vexp i (scores d dot k scale (causal && (1 <? length q)%nat) i (nth i q [])) /\
  nth i (fst (attention d dot sum vexp q k v scale causal)) [] = mul_t d v (softmax d sum vexp i (scores d dot k scale (causal && (1 <? length q)%nat) i (nth i q []))).
Proof.
  intros H. unfold attention. cbn [fst snd]. set (F := fun p : nat * list (val d) => softmax d sum vexp (fst p) (scores d dot k scale (causal && (1 <? length q)%nat) (fst p) (snd p))).
  assert (L : length (combine (seq 0 (length q)) q) = length q) by (rewrite combine_length, seq_length; lia).
  assert (E : nth i (map F (combine (seq 0 (length q)) q)) [] = F (i, nth i q [])).
  { rewrite (nth_indep _ [] (F (0%nat, []))) by (now rewrite map_length, L). rewrite (map_nth F). rewrite combine_nth by apply seq_length. now rewrite seq_nth by exact H. }
  split; [exact E|]. rewrite (nth_indep _ [] (mul_t d v [])) by (now rewrite !map_length, L). rewrite (map_nth (mul_t d v)), E. reflexivity.
Qed.

Section Hidden.
Variable g : libm.
Hypothesis G : go_math g.
Variable d : dtype.
Variable cp : cpu.
Notation vec := (list (val d)).
Variable dot : list nat -> list (val d * val d) -> val d.
Hypothesis D : dots_all dot.
Variable sum : nat -> vec -> val d.
Hypothesis A : adds_all sum.
Variable vexp : vec -> vec.
Hypothesis Hexp : forall l, exps g d cp l (vexp l).
Variables (a b n : nat) (scale : val F64).

(** what comes after i does not change the attention of query i *)
Theorem hidden (B V B' V' : R) (q k v q' k' v' : list vec) i :
  good_inputs a b n B V q k v scale -> good_inputs a b n B' V' q' k' v' scale -> length q' = length q -> (1 < length q)%nat -> (i < length q)%nat ->
  nth i q' [] = nth i q [] -> (forall j, (j <= i)%nat -> nth j k' [] = nth j k [] /\ nth j v' [] = nth j v []) ->
  nth i (snd (attention d dot sum vexp q' k' v' scale true)) [] = nth i (snd (attention d dot sum vexp q k v scale true)) [] /\
  nth i (fst (attention d dot sum vexp q' k' v' scale true)) [] = nth i (fst (attention d dot sum vexp q k v scale true)) [].
Proof.
  intros Q Q' Lq Mq Hi Eq Ek. destruct (weights_at d dot sum vexp q k v scale true i Hi) as (-> & ->). destruct (weights_at d dot sum vexp q' k' v' scale true i ltac:(lia)) as (-> & ->).
  rewrite Lq, Eq. replace (1 <? length q)%nat with true by (symmetry; now apply Nat.ltb_lt). cbn [andb].
  assert (M : (true && (1 <? length q))%bool = true) by (cbn [andb]; now apply Nat.ltb_lt).
  pose proof (scores_length d dot a b n B V q k v scale true Q i) as L1. pose proof (scores_length d dot a b n B' V' q' k' v' scale true Q' i) as L2.
  pose proof (scores_nth d dot D a b n B V q k v scale true Q i Hi) as N1. pose proof (scores_nth d dot D a b n B' V' q' k' v' scale true Q' i ltac:(lia)) as N2.
  destruct (weights_ok g G d cp dot D sum A vexp Hexp a b n B V q k v scale true Q i Hi) as (Lw & W1 & _).
  unfold visible in N1, N2, W1. rewrite Lq, M, Eq in *.
  assert (ES : scores d dot k' scale true i (nth i q []) = scores d dot k scale true i (nth i q [])).
  { apply (nth_ext _ _ fzero fzero); [congruence|]. rewrite L2. intros j Hj. specialize (N1 j Hj). specialize (N2 j Hj). destruct (j <? Nat.min (i + 1) n)%nat eqn:E.
    - apply Nat.ltb_lt in E. unfold scores. assert (K1 : length k = n) by apply (in_keys _ _ _ _ _ _ _ _ _ Q). assert (K2 : length k' = n) by apply (in_keys _ _ _ _ _ _ _ _ _ Q').
      rewrite !nth_zip by (rewrite ?map_length, ?mul_rows_length, ?mask_length; lia). rewrite K1, K2. f_equal.
      rewrite !(nth_indep _ fzero (fmul fzero (conv F64 d scale))) by (rewrite map_length, mul_rows_length; lia). rewrite !(map_nth (fun v => fmul v (conv F64 d scale))). rewrite !mul_rows_at by lia. now rewrite (proj1 (Ek j ltac:(lia))).
    - now rewrite N1, N2. }
  rewrite ES. split; [reflexivity|]. set (w := softmax d sum vexp i (scores d dot k scale true i (nth i q []))) in *. clearbody w. clear N1 N2.
  destruct (in_values _ _ _ _ _ _ _ _ _ Q) as (V1 & F1). destruct (in_values _ _ _ _ _ _ _ _ _ Q') as (V2 & F2). destruct (in_count _ _ _ _ _ _ _ _ _ Q) as (Pn & _).
  assert (R1 : Forall (fun r : vec => length r = b) v) by (eapply Forall_impl; [|exact F1]; cbv beta; tauto). assert (R2 : Forall (fun r : vec => length r = b) v') by (eapply Forall_impl; [|exact F2]; cbv beta; tauto).
  assert (H1 : length (hd [] v) = b) by (destruct R1 as [|r rows Lr R1]; [cbn in V1; lia|exact Lr]). assert (H2 : length (hd [] v') = b) by (destruct R2 as [|r rows Lr R2]; [cbn in V2; lia|exact Lr]).
  unfold mul_t. rewrite H1, H2. destruct (Nat.eq_dec b 0) as [B0|B0].
  { rewrite B0 in *. cbn [repeat]. assert (Z : forall rows : list vec, Forall (fun r : vec => length r = 0%nat) rows -> forall w, fold_left (fun out p => zip (fun x o => fadd (fmul x (snd p)) o) (fst p) out) (combine rows w) [] = []).
    { clear. induction 1 as [|r rows Lr F IH]; intros w; [reflexivity|]. destruct w as [|y w]; [reflexivity|]. cbn [combine fold_left fst snd]. destruct r; [|discriminate]. cbn [zip]. apply IH. }
    now rewrite !Z. }
  pose proof (fun c H => mul_t_nth d b q i Hi c v R1 w (repeat fzero b) (repeat_length _ _) H) as T1. pose proof (fun c H => mul_t_nth d b q i Hi c v' R2 w (repeat fzero b) (repeat_length _ _) H) as T2.
  apply (nth_ext _ _ fzero fzero); [rewrite (proj1 (T1 0%nat ltac:(lia))), (proj1 (T2 0%nat ltac:(lia))); reflexivity|]. rewrite (proj1 (T2 0%nat ltac:(lia))). intros c Hc. rewrite (proj2 (T1 c Hc)), (proj2 (T2 c Hc)), nth_repeat.
  assert (Tail : forall vv : list vec, length vv = n -> (forall j, (j < n)%nat -> finite (nth c (nth j vv []) fzero)) -> Forall (fun p => finite (fst p) /\ snd p = fzero) (skipn (i + 1) (combine (map (fun r : vec => nth c r fzero) vv) w))).
  { intros vv Lv Fv. apply (Forall_skipn _ (nth c (@nil (val d)) fzero, fzero)). rewrite combine_length, map_length, Lv, Lw, Nat.min_id. intros j Hj. rewrite combine_nth by (rewrite map_length; lia). cbn [fst snd]. rewrite (map_nth (fun r : vec => nth c r fzero)). split; [apply Fv; lia|]. apply (W1 j); lia. }
  assert (Head : firstn (i + 1) (combine (map (fun r : vec => nth c r fzero) v') w) = firstn (i + 1) (combine (map (fun r : vec => nth c r fzero) v) w)).
  { rewrite !combine_firstn. f_equal. apply (firstn_same (nth c (@nil (val d)) fzero)); [rewrite !map_length; lia|]. intros j Hj _. rewrite !(map_nth (fun r : vec => nth c r fzero)). now rewrite (proj2 (Ek j ltac:(lia))). }
  rewrite <- (firstn_skipn (i + 1) (combine (map (fun r : vec => nth c r fzero) v') w)), <- (firstn_skipn (i + 1) (combine (map (fun r : vec => nth c r fzero) v) w)), !fold_left_app, Head.
  rewrite (loop_hidden d (skipn (i + 1) (combine (map (fun r : vec => nth c r fzero) v) w))); [|apply Tail; [exact V1|intros j Hj; eapply (value_in d a b n B V q k v scale Q i Hi); assumption]|apply loop_sign; discriminate].
  apply loop_hidden; [apply Tail; [exact V2|intros j Hj; eapply (value_in d a b n B' V' q' k' v' scale Q' i ltac:(lia)); assumption]|apply loop_sign; discriminate].
Qed.

(** but an infinity or a NaN among the later values makes it NaN *)
Theorem leaks (B V : R) (q k v v' : list vec) i j c :
  good_inputs a b n B V q k v scale -> (1 < length q)%nat -> (i < j < n)%nat -> (i < length q)%nat -> (c < b)%nat -> length v' = n -> Forall (fun r => length r = b) v' ->
  is_finite (nth c (nth j v' []) fzero) = false -> nth c (nth i (fst (attention d dot sum vexp q k v' scale true)) []) fzero = B754_nan.
Proof.
  intros Q Mq Hj Hi Hc L F N. destruct (weights_at d dot sum vexp q k v' scale true i Hi) as (_ & ->).
  destruct (weights_ok g G d cp dot D sum A vexp Hexp a b n B V q k v scale true Q i Hi) as (Lw & W1 & _). set (w := softmax d sum vexp i (scores d dot k scale (true && (1 <? length q)%nat) i (nth i q []))) in *. clearbody w.
  unfold visible in W1. replace (true && (1 <? length q))%bool with true in W1 by (symmetry; cbn [andb]; now apply Nat.ltb_lt). destruct (W1 j ltac:(lia)) as (_ & _ & Z). specialize (Z ltac:(lia)).
  assert (H0 : length (hd [] v') = b) by (destruct F as [|r rows Lr F]; [cbn in L; lia|exact Lr]). unfold mul_t. rewrite H0. rewrite (proj2 (mul_t_nth d b q i Hi c v' F w (repeat fzero b) (repeat_length _ _) Hc)), nth_repeat.
  apply (dot_nan d _ _ (loop_dot d _ fzero [] (dot_zero (floats d)))). cbn [app]. apply Exists_exists. exists (nth c (nth j v' []) fzero, fzero). split.
  - replace (nth c (nth j v' []) fzero, fzero) with (nth j (combine (map (fun r : vec => nth c r fzero) v') w) (nth c (@nil (val d)) fzero, fzero)); [apply nth_In; rewrite combine_length, map_length; lia|].
    rewrite combine_nth by (rewrite map_length; lia). rewrite (map_nth (fun r : vec => nth c r fzero)), Z. reflexivity.
  - cbn [fst snd]. destruct (nth c (nth j v' []) fzero) as [s|s| |s m e H]; try discriminate; reflexivity.
Qed.
End Hidden.
