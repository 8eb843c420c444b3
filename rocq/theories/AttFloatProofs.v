(** * Attention in floating point: Softmax with masked elements *)
From Coq Require Import ZArith Bool Lia List Arith Reals Lra Psatz Permutation.
From Flocq Require Import Core BinarySingleNaN Relative.
From Verif Require Import AsmModel AsmCode AsmCalls AsmSpec FloatModel FloatSpec FloatProofs NumModel NumSpec NumLemmas NumProofs NumProofs2 AsmFloatSpec AsmFloat AsmFloat2 AsmWords AsmWordsSpec AsmExp AsmExp2 AsmExp4 SoftModel SoftSpec SoftProofs SoftFloat SoftFloat2.
Import ListNotations.
Local Open Scope list_scope.
Local Open Scope R_scope.

(** e^(x - mx), and 0 for -Inf *)
Definition ex {d} (mx x : val d) : R := if is_finite x then exp (real x - real mx) else 0.
Definition exs {d} (mx : val d) (l : list (val d)) : R := fold_right (fun x s => ex mx x + s) 0 l.
Definition seen {d} (x : val d) : Prop := finite x \/ x = B754_infinity true.
Lemma ex_pos d (mx x : val d) : 0 <= ex mx x.
Proof. unfold ex. destruct (is_finite x); [left; apply exp_pos|lra]. Qed.
Lemma exs_pos d (mx : val d) l : 0 <= exs mx l.
Proof. unfold exs. induction l as [|x l IH]; cbn [fold_right]; [lra|]. pose proof (ex_pos d mx x). lra. Qed.
Lemma exs_in d (mx x : val d) l : In x l -> ex mx x <= exs mx l.
Proof.
  unfold exs. induction l as [|y l IH]; cbn [fold_right]; [intros []|]. intros [->|H].
  - pose proof (exs_pos d mx l). unfold exs in *. lra.
  - specialize (IH H). pose proof (ex_pos d mx y). lra.
Qed.
Lemma exs_near d (mx : val d) h t (l es : list (val d)) : Forall2 (fun x e => Rabs (real e - ex mx x) <= h * ex mx x + t) l es ->
  Rabs (total es - exs mx l) <= h * exs mx l + INR (length l) * t.
Proof.
  unfold exs, total. induction 1 as [|x e l es H F IH]; cbn [fold_right]; [cbn; rewrite Rminus_0_r, Rabs_R0; lra|].
  cbn [length]. rewrite S_INR. replace (real e + fold_right (fun x s => real x + s) 0 es - (ex mx x + fold_right (fun x s => ex mx x + s) 0 l))
    with ((real e - ex mx x) + (fold_right (fun x s => real x + s) 0 es - fold_right (fun x s => ex mx x + s) 0 l)) by ring.
  eapply Rle_trans; [apply Rabs_triang|]. lra.
Qed.
Lemma not_below d (v : val d) : finite v -> flt v (B754_infinity true) = false.
Proof. destruct v as [[|]| | |[|] ? ? ?]; intros H; try discriminate; reflexivity. Qed.
Lemma max_seen d (vs : list (val d)) : forall v, finite v -> Forall seen vs -> let mx := ArithModel.max_loop flt v vs in
  finite mx /\ In mx (v :: vs) /\ forall x, In x (v :: vs) -> finite x -> real x <= real mx.
Proof.
  unfold ArithModel.max_loop. induction vs as [|w vs IH]; intros v Fv F; cbn [fold_left].
  - split; [exact Fv|]. split; [now left|]. intros x [<-|[]] _. lra.
  - inversion F as [|? ? [Fw|Nw] F']; subst.
    + destruct (flt v w) eqn:E.
      * destruct (IH w Fw F') as (A & I & M). split; [exact A|]. split; [now right|]. intros x [<-|H] Fx; [|now apply M]. apply lt_eq in E; auto. specialize (M w (or_introl eq_refl) Fw). lra.
      * destruct (IH v Fv F') as (A & I & M). split; [exact A|]. split; [destruct I as [I|I]; [now left|right; now right]|]. apply lt_false in E; auto. intros x [<-|[<-|H]] Fx; [apply M; auto; now left| |apply M; auto; now right]. specialize (M v (or_introl eq_refl) Fv). lra.
    + rewrite not_below by exact Fv. destruct (IH v Fv F') as (A & I & M). split; [exact A|]. split; [destruct I as [I|I]; [now left|right; now right]|]. intros x [<-|[<-|H]] Fx; [apply M; auto; now left|discriminate|apply M; auto; now right].
Qed.

Section Softmax.
Variable g : libm.
Hypothesis G : go_math g.
Variable d : dtype.
Variable c : cpu.
Lemma minus_shift (mx : val d) : finite mx -> fadd (B754_infinity true) (fneg mx) = B754_infinity true.
Proof. destruct mx as [[|]| | |[|] ? ? ?]; intros H; try discriminate; reflexivity. Qed.
Lemma exp_low_inf i n (e : val d) : SoftProofs.exp_value g d c i n (B754_infinity true) e -> e = B754_zero false.
Proof.
  unfold SoftProofs.exp_value. destruct d.
  - intros (w & Ew & ->). destruct (i <? whole (width c) n)%nat.
    + rewrite exp_lane, (exp_low_zero w (clamp_low w Ew)). reflexivity.
    + unfold scalar. rewrite decode_encode, Ew. change (conv F32 F64 (B754_infinity true)) with (NumSpec.minus_infinity : val F64). rewrite (exp_minus_infinity g G). reflexivity.
  - intros ->. exact (exp_minus_infinity g G).
Qed.
Lemma zero_mul (k : val d) : finite k -> 0 < real k -> fmul (B754_zero false) k = fzero.
Proof. destruct k as [s|s| |s m e H]; intros F P; try discriminate; [unfold real in P; cbn in P; lra|]. destruct s; [|reflexivity]. unfold real in P. cbn in P. pose proof (F2R_lt_0 radix2 (Float radix2 (Z.neg m) e) eq_refl). cbn in *. lra. Qed.
Lemma exps_seen (mx : val d) (l es : list (val d)) : finite mx -> Forall seen l -> (forall x, In x l -> finite x -> real x <= real mx) -> exps g d c (map (fun w => fadd w (fneg mx)) l) es ->
  length es = length l /\ Forall2 (fun x e => finite e /\ 0 <= real e /\ Rabs (real e - ex mx x) <= eta d * ex mx x + tau d /\ (is_finite x = false -> e = B754_zero false)) l es.
Proof.
  intros Fm Fl M (L & H). rewrite map_length in *. split; [exact L|]. revert H. generalize (length l) at 1. intros n.
  assert (K : forall k l es, length es = length l -> Forall seen l -> (forall x, In x l -> finite x -> real x <= real mx) -> (forall i t e, nth_error (map (fun w => fadd w (fneg mx)) l) i = Some t -> nth_error es i = Some e -> SoftProofs.exp_value g d c (k + i) n t e) ->
    Forall2 (fun x e => finite e /\ 0 <= real e /\ Rabs (real e - ex mx x) <= eta d * ex mx x + tau d /\ (is_finite x = false -> e = B754_zero false)) l es).
  { clear l es Fl M L. intros k l. revert k. induction l as [|x l IH]; intros k [|e es] L Fl M H; cbn [length] in L; try discriminate; [constructor|]. inversion Fl as [|? ? [Fx|Nx] Fl']; subst.
    - constructor.
      + unfold ex. rewrite Fx. destruct (elem g d c (k + 0) n x mx e G) as (A1 & A2 & A3); [assumption|assumption|apply M; [now left|assumption]|now apply H|]. split; [exact A1|]. split; [exact A2|]. split; [exact A3|]. intros E. discriminate.
      + apply (IH (S k)); auto; [intros; apply M; auto; now right|]. intros i t e' Ht He. replace (S k + i)%nat with (k + S i)%nat by lia. now apply H.
    - constructor.
      + pose proof (H 0%nat _ e eq_refl eq_refl) as E. rewrite minus_shift in E by exact Fm. rewrite (exp_low_inf (k + 0) n e E). split; [reflexivity|]. change (real (B754_zero false : val d)) with 0. split; [lra|]. split; [|reflexivity]. unfold ex. cbn [is_finite]. destruct (eta_tau d) as (T1 & T2 & _). rewrite Rminus_0_r, Rabs_R0. lra.
      + apply (IH (S k)); auto; [intros; apply M; auto; now right|]. intros i t e' Ht He. replace (S k + i)%nat with (k + S i)%nat by lia. now apply H. }
  intros H. apply (K 0%nat); auto.
Qed.

Theorem softmax_seen (v : val d) vs es s : let l := v :: vs in let mx := ArithModel.max_loop flt v vs in
  finite v -> Forall seen vs -> INR (length l) * u d <= / 8 -> exps g d c (map (fun w => fadd w (fneg mx)) l) es -> sum_of (floats d) s es ->
  let out := map (fun e => fmul e (fdiv fone s)) es in
  finite mx /\ 1 <= exs mx l /\ finite (fdiv fone s) /\ 0 < real (fdiv fone s) /\
  Forall2 (fun x p => finite p /\ 0 <= real p <= 1 /\ Rabs (real p - ex mx x / exs mx l) <= soft_rel d (length l) * (ex mx x / exs mx l) + soft_abs d /\ (is_finite x = false -> p = fzero)) l out.
Proof.
  intros l mx Fv Fl Ha He Hs out. destruct (max_seen d vs v Fv Fl) as (Fm & Im & Mm). fold mx in Fm, Im, Mm. fold l in Im, Mm. split; [exact Fm|].
  assert (Hn : INR (length l) * u d <= 64) by lra.
  destruct (exps_seen mx l es Fm ltac:(constructor; [now left|exact Fl]) Mm He) as (Le & Ne). destruct (eta_tau d) as (Eh & Et & Et'). pose proof (u_pos d) as U.
  assert (E1 : forall x, In x l -> ex mx x <= 1). { intros x Ix. unfold ex. destruct (is_finite x) eqn:Fx; [|lra]. apply exp_le_1. specialize (Mm x Ix Fx). lra. }
  assert (B2 : Forall (fun e => finite e /\ 0 <= real e <= 2) es).
  { clear - Ne E1 Eh Et Et'. clearbody mx. induction Ne as [|x e l' es (A & B & C & _) N IH]; constructor; [|apply IH; intros; apply E1; now right].
    split; [exact A|]. split; [exact B|]. pose proof (E1 x (or_introl eq_refl)) as X. pose proof (ex_pos d mx x). apply Rabs_le_inv in C. assert (eta d * ex mx x <= / 1000 * 1) by (apply Rmult_le_compat; lra). lra. }
  assert (Fe : Forall finite es) by (eapply Forall_impl; [|exact B2]; cbv beta; tauto).
  assert (Pe : Forall (fun e => 0 <= real e) es) by (eapply Forall_impl; [|exact B2]; cbv beta; intros ? (? & ? & ?); assumption).
  assert (T2 : total es <= 2 * INR (length l)). { rewrite <- Le. apply total_count. eapply Forall_impl; [|exact B2]. cbv beta; tauto. }
  pose proof (most_ok d (length l) Hn) as Mo. pose proof (gamma_exp d (length l)) as Ge. pose proof (gamma_pos d (length l)) as Gp. pose proof (pos_INR (length l)) as Pn.
  assert (T0 : 0 <= total es) by (rewrite <- total_abs_nonneg by exact Pe; apply total_abs_pos).
  assert (Sz : (1 + gamma d (length es)) * total_abs es <= 2 ^ most d).
  { rewrite total_abs_nonneg, Le by exact Pe. eapply Rle_trans; [|exact Mo]. apply Rmult_le_compat; lra. }
  assert (Fs : finite s).
  { apply (sum_finite d s es Hs Fe). eapply Rle_trans; [exact Sz|]. unfold AsmFloatSpec.largest, most. destruct d.
    - apply Rle_trans with (2 ^ 20 * 2 ^ 104); [rewrite <- pow_add; apply Rle_refl|]. apply Rmult_le_compat_r; [apply pow_le; lra|]. cbn. lra.
    - apply Rle_trans with (1 * 2 ^ 971); [rewrite Rmult_1_l; apply Rle_pow; [lra|lia]|]. apply Rmult_le_compat_r; [apply pow_le; lra|]. cbn. lra. }
  destruct (sum_above d s es Hs Fs Pe) as (Ps & As). pose proof (sum_size d s es Hs Fs) as Ss. rewrite Rabs_right in Ss by lra.
  assert (Em : ex mx mx = 1) by (unfold ex; rewrite Fm, Rminus_eq_0, exp_0; reflexivity).
  assert (Xm : exists em, In em es /\ 0.9 <= real em).
  { clear - Ne Im Em Eh Et Et'. clearbody mx. induction Ne as [|x e l' es (A & B & C & _) N IH]; [destruct Im|]. destruct Im as [->|I].
    - exists e. split; [now left|]. rewrite Em in C. apply Rabs_le_inv in C. lra.
    - destruct (IH I) as (em & I' & B'). exists em. split; [now right|exact B']. }
  destruct Xm as (em & Iem & Bem). assert (Bs : 0.9 <= real s <= 2 ^ most d). { split; [|eapply Rle_trans; [exact Ss|exact Sz]]. rewrite Forall_forall in As. specialize (As em Iem). lra. }
  assert (O : Forall (fun e => 0 <= real e <= real s) es). { rewrite Forall_forall in *. intros e I. specialize (As e I). specialize (Pe e I). lra. }
  destruct (inverse d s Fs Bs) as (Fi & Ei & Li). destruct (sum_error d s es Hs Fs) as (_ & Er0).
  pose proof (exs_in d mx mx l Im) as X1. rewrite Em in X1. split; [exact X1|]. split; [exact Fi|]. split; [pose proof (inv_pos (S (most d))); lra|].
  assert (Er : Rabs (real s - total es) <= gamma d (length l - 1) * total es). { rewrite <- Le. eapply Rle_trans; [exact Er0|]. rewrite total_abs_nonneg by exact Pe. apply Rle_refl. }
  assert (Gs : gamma d (length l - 1) <= 8 / 7 * (INR (length l) * u d)). { eapply Rle_trans; [apply (gamma_le d _ (length l)); lia|]. now apply gamma_small. }
  pose proof (gamma_pos d (length l - 1)) as G0.
  pose proof (exs_near d mx (eta d) (tau d) l es) as Tn. specialize (Tn ltac:(eapply Forall2_weaken; [|exact Ne]; cbv beta; tauto)).
  assert (Nt : INR (length l) * tau d <= eta d / 8).
  { apply Rle_trans with (/ 8 * / u d * tau d). { apply Rmult_le_compat_r; [lra|]. apply Rmult_le_reg_r with (u d); [exact U|]. replace (/ 8 * / u d * u d) with (/ 8) by (field; lra). exact Ha. }
    assert (Q : / u d * tau d <= eta d); [|lra]. unfold u, tau, eta. rewrite Rinv_inv. destruct d.
    - change 125%nat with (24 + (17 + 84))%nat. rewrite (inv_split 24), <- Rmult_assoc, Rinv_r, Rmult_1_l by (apply pow_nonzero; lra). apply inv_le. lia.
    - change 1021%nat with (53 + 968)%nat. rewrite (inv_split 53), <- Rmult_assoc, Rinv_r, Rmult_1_l by (apply pow_nonzero; lra). apply inv_le. lia. }
  assert (Hu : u d <= eta d / 128). { unfold u, eta, Rdiv. replace (/ 128) with (/ 2 ^ 7) by (cbn; lra). destruct d; rewrite <- inv_split; apply inv_le; lia. }
  assert (Hh : half_tiny d <= tau d / 2). { unfold half_tiny, tau, Rdiv. replace (/ 2) with (/ 2 ^ 1) by (cbn; lra). destruct d; rewrite <- inv_split; apply inv_le; lia. }
  pose proof (half_tiny_pos d) as Ht.
  assert (Rel : 4 * eta d + 2 * (INR (length l) * u d) = soft_rel d (length l)).
  { unfold soft_rel. f_equal. unfold eta. replace 4 with (2 ^ 2) by (cbn; lra). destruct d; [change 17%nat with (2 + 15)%nat|change 42%nat with (2 + 40)%nat]; rewrite inv_split, <- Rmult_assoc, Rinv_r, Rmult_1_l by (apply pow_nonzero; lra); reflexivity. }
  assert (Abs : 2 * tau d = soft_abs d).
  { unfold soft_abs, tau. replace 2 with (2 ^ 1) at 1 by (cbn; lra). destruct d; [change 125%nat with (1 + 124)%nat|change 1021%nat with (1 + 1020)%nat]; rewrite inv_split, <- Rmult_assoc, Rinv_r, Rmult_1_l by (apply pow_nonzero; lra); reflexivity. }
  rewrite <- Rel, <- Abs. unfold out.
  assert (Ne' : Forall2 (fun x e => In x l /\ In e es /\ Rabs (real e - ex mx x) <= eta d * ex mx x + tau d /\ (is_finite x = false -> e = B754_zero false)) l es).
  { assert (K : forall l' es', incl l' l -> incl es' es -> Forall2 (fun x e => finite e /\ 0 <= real e /\ Rabs (real e - ex mx x) <= eta d * ex mx x + tau d /\ (is_finite x = false -> e = B754_zero false)) l' es' -> Forall2 (fun x e => In x l /\ In e es /\ Rabs (real e - ex mx x) <= eta d * ex mx x + tau d /\ (is_finite x = false -> e = B754_zero false)) l' es').
    { intros l' es' I1 I2 F. induction F as [|x e l' es' (A & B & C & D) F IH]; constructor.
      - split; [apply I1; now left|]. split; [apply I2; now left|]. split; [exact C|exact D].
      - apply IH; intros z Hz; [apply I1|apply I2]; now right. }
    apply K; auto; apply incl_refl. }
  assert (Mp : forall (P : val d -> val d -> Prop) (f : val d -> val d) l es, Forall2 (fun x e => P x (f e)) l es -> Forall2 P l (map f es)) by (clear; induction 1; cbn; constructor; auto).
  apply Mp. eapply Forall2_weaken; [|exact Ne']. intros x e (Ix & Ie & C & Z).
  rewrite Forall_forall in Fe, O. destruct (output d e s Fs Bs (Fe e Ie) (O e Ie)) as (O1 & O2 & V & _). pose proof (round_error d (real e * real (fdiv fone s))) as Ro. rewrite <- V in Ro.
  assert (I0 : 0 <= real (fdiv fone s)) by (pose proof (inv_pos (S (most d))); lra).
  rewrite (Rabs_right (real e * real (fdiv fone s))) in Ro by (apply Rle_ge, Rmult_le_pos; [apply (O e Ie)|exact I0]).
  split; [exact O1|]. split; [exact O2|]. split.
  - apply (soft_real _ _ (real e) (real s) (total es) (real (fdiv fone s)) _ (eta d) (tau d) _ (gamma d (length l - 1)) (u d) (half_tiny d) (INR (length l) * tau d)); auto; try lra.
    + split; [apply ex_pos|now apply exs_in].
    + apply (O e Ie).
    + apply Rmult_le_pos; lra.
  - intros E. rewrite (Z E). apply zero_mul; [exact Fi|]. pose proof (inv_pos (S (most d))). lra.
Qed.
End Softmax.
