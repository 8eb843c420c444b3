(** * Softmax in floating point: the sum, its inverse, and the outputs *)
From Coq Require Import ZArith Bool Lia List Arith Reals Lra Psatz Permutation.
From Flocq Require Import Core BinarySingleNaN Relative.
From Verif Require Import AsmModel AsmCode AsmCalls AsmSpec FloatModel FloatSpec FloatProofs NumModel NumSpec NumLemmas NumProofs NumProofs2 AsmFloatSpec AsmFloat AsmFloat2 AsmWords AsmWordsSpec AsmExp AsmExp2 AsmExp4 AsmLog5 AsmLog6 AsmProofs7 SoftModel SoftSpec SoftProofs SoftFloat.
Import ListNotations.
Local Open Scope list_scope.
Local Open Scope R_scope.

Lemma Forall2_weaken {A B} (P Q : A -> B -> Prop) l k : (forall a b, P a b -> Q a b) -> Forall2 P l k -> Forall2 Q l k.
Proof. induction 2; constructor; auto. Qed.
Section Sum.
Variable d : dtype.

(** a sum of numbers that are not negative is at least each of them *)
Lemma sum_above s l : sum_of (floats d) s l -> finite s -> Forall (fun e => 0 <= real e) l -> 0 <= real s /\ Forall (fun e => real e <= real s) l.
Proof.
  induction 1 as [|x|a b l k m Sa IHa Sb IHb P]; intros F N.
  - split; [|constructor]. unfold real. cbn. lra.
  - inversion N; subst. split; [assumption|]. constructor; [lra|constructor].
  - cbn [bin floats] in *. destruct (add_back d a b F) as (Fa & Fb & V). apply Permutation_sym in P. eapply Permutation_Forall in N; [|exact P]. apply Forall_app in N. destruct N as (Nl & Nk).
    destruct (IHa Fa Nl) as (Pa & Ba), (IHb Fb Nk) as (Pb & Bb).
    assert (A : real a <= real (fadd a b)). { rewrite V, <- (proj1 (rep_real d a Fa)) at 1. apply nearest_le. lra. }
    assert (B : real b <= real (fadd a b)). { rewrite V, <- (proj1 (rep_real d b Fb)) at 1. apply nearest_le. lra. }
    split; [lra|]. eapply Permutation_Forall; [apply Permutation_sym; exact P|]. apply Forall_app. split; (eapply Forall_impl; [|eassumption]); cbv beta; intros; lra.
Qed.
Lemma total_abs_nonneg l : Forall (fun e : val d => 0 <= real e) l -> total_abs l = total l.
Proof. unfold total_abs, total. induction 1; cbn [fold_right]; [reflexivity|]. rewrite Rabs_right by lra. lra. Qed.
(** the number of roundings *)
Lemma gamma_exp n : 1 + gamma d n <= exp (INR n * u d).
Proof.
  unfold gamma. replace (1 + ((1 + u d) ^ n - 1)) with ((1 + u d) ^ n) by ring. pose proof (u_pos d). induction n as [|n IH].
  - cbn [pow INR]. rewrite Rmult_0_l, exp_0. lra.
  - rewrite S_INR, Rmult_plus_distr_r, Rmult_1_l, exp_plus. cbn [pow]. rewrite Rmult_comm. apply Rmult_le_compat; [apply pow_le; lra|lra|exact IH|apply exp_ineq1_le].
Qed.
Lemma gamma_small n : INR n * u d <= / 8 -> gamma d n <= 8 / 7 * (INR n * u d).
Proof.
  intros H. pose proof (gamma_exp n) as G. set (a := INR n * u d) in *. assert (A : 0 <= a) by (apply Rmult_le_pos; [apply pos_INR|apply Rlt_le, u_pos]). clearbody a.
  pose proof (exp_ineq1_le (- a)) as M. rewrite exp_Ropp in M. pose proof (exp_pos a) as P.
  assert (E : exp a * (1 - a) <= 1). { apply Rmult_le_compat_l with (r := exp a) in M; [|lra]. rewrite Rinv_r in M by lra. lra. }
  assert (exp a <= 1 + 8 / 7 * a); [|lra]. apply Rnot_lt_le. intros X. nra.
Qed.
Lemma exp_64 : exp 64 <= 2 ^ 93.
Proof. rewrite pow2, pow_exp. pose proof ln2_lower. left. apply exp_increasing. cbn [Z.of_nat Pos.of_succ_nat Pos.succ]. lra. Qed.
Definition most (d : dtype) : nat := match d with F32 => 124 | F64 => 153 end.
Lemma most_ok n : INR n * u d <= 64 -> exp (INR n * u d) * (2 * INR n) <= 2 ^ most d.
Proof.
  intros H. pose proof (u_pos d) as U. pose proof (pos_INR n) as N.
  apply Rle_trans with (2 ^ 93 * (128 * / u d)).
  - apply Rmult_le_compat; [left; apply exp_pos|lra| |].
    + eapply Rle_trans; [|exact exp_64]. destruct H as [H|H]; [left; now apply exp_increasing|rewrite H; lra].
    + apply Rmult_le_reg_r with (u d); [exact U|]. replace (128 * / u d * u d) with 128 by (field; lra). lra.
  - unfold u. rewrite Rinv_inv. right. replace 128 with (2 ^ 7) by (cbn; lra). destruct d; rewrite <- !pow_add; reflexivity.
Qed.
End Sum.

(** ** The outputs *)
Lemma round_normal d x : bpow radix2 (3 - emax d + - 1) <= Rabs x -> Rabs (nearest d x - x) <= u d * Rabs x.
Proof.
  intros H. rewrite nearest_eq, u_eq.
  apply (relative_error_N_FLT radix2 (3 - emax d - prec d) (prec d) ltac:(destruct d; reflexivity) (fun t => negb (Z.even t))).
  eapply Rle_trans; [|exact H]. apply bpow_le. destruct d; cbn; lia.
Qed.
Lemma one_more d : nearest d (1 + u d) = 1.
Proof.
  destruct (one_eq d) as (Fo & Vo).
  assert (X : exists t : val d, finite t /\ real t = u d /\ fadd fone t = fone).
  { destruct d.
    - exists (lit 1 (-24)). destruct (lit_eq F32 1 (-24) (u F32)) as (A & B); [unfold u; rewrite pow2, <- bpow_opp; change (- Z.of_nat 24)%Z with (-24)%Z; lra|cbn; lia..|]. split; [exact A|]. split; [exact B|]. apply B2SF_inj. vm_compute. reflexivity.
    - exists (lit 1 (-53)). destruct (lit_eq F64 1 (-53) (u F64)) as (A & B); [unfold u; rewrite pow2, <- bpow_opp; change (- Z.of_nat 53)%Z with (-53)%Z; lra|cbn; lia..|]. split; [exact A|]. split; [exact B|]. apply B2SF_inj. vm_compute. reflexivity. }
  destruct X as (t & Ft & Vt & E). destruct (add_back d fone t) as (_ & _ & V); [rewrite E; exact Fo|]. rewrite E, Vo, Vt in V. symmetry. exact V.
Qed.
Lemma inverse d (s : val d) : finite s -> 0.9 <= real s <= 2 ^ most d -> let inv := fdiv fone s in finite inv /\ Rabs (real inv - / real s) <= u d * / real s /\ / 2 ^ S (most d) <= real inv.
Proof.
  intros F B inv. destruct (one_eq d) as (Fo & Vo). assert (P : 0 < real s) by lra.
  assert (I : / 2 ^ most d <= / real s) by (apply Rinv_le_contravar; lra).
  assert (I2 : / real s <= 2). { replace 2 with (/ (/ 2)) by lra. apply Rinv_le_contravar; lra. }
  assert (R : rep d (/ 2 ^ most d)) by (rewrite pow2, <- bpow_opp; apply rep_pow; destruct d; cbn; lia).
  destruct (div_in d fone s (/ 2 ^ most d) 2 Fo ltac:(lra) R) as (A & L & V); [apply (rep_int d 2); reflexivity|unfold Rdiv; rewrite Vo, Rmult_1_l; lra|]. fold inv in A, L, V.
  split; [exact A|]. rewrite Vo in V. unfold Rdiv in V. rewrite Rmult_1_l in V. split; [|eapply Rle_trans; [|apply L]; apply inv_le; lia].
  rewrite V. pose proof (round_normal d (/ real s)) as E. rewrite (Rabs_right (/ real s)) in E by (left; now apply Rinv_0_lt_compat). apply E.
  eapply Rle_trans; [|exact I]. rewrite pow2, <- bpow_opp. apply bpow_le. destruct d; cbn; lia.
Qed.
Lemma output d (e s : val d) : finite s -> 0.9 <= real s <= 2 ^ most d -> finite e -> 0 <= real e <= real s ->
  let inv := fdiv fone s in let p := fmul e inv in finite p /\ 0 <= real p <= 1 /\ real p = nearest d (real e * real inv) /\ (0.9 <= real e -> 0 < real p).
Proof.
  intros Fs Bs Fe Be inv p. destruct (inverse d s Fs Bs) as (Fi & Ei & Li). fold inv in Fi, Ei, Li. pose proof (u_pos d) as U.
  assert (P : 0 < real s) by lra. assert (Pi : 0 < / real s) by (now apply Rinv_0_lt_compat).
  assert (I0 : 0 <= real inv) by (pose proof (inv_pos (S (most d))); lra).
  assert (B : real e * real inv <= 1 + u d).
  { apply Rle_trans with (real s * real inv); [apply Rmult_le_compat_r; lra|]. apply Rabs_le_inv in Ei. apply Rle_trans with (real s * (/ real s * (1 + u d))); [apply Rmult_le_compat_l; lra|]. right. field. lra. }
  assert (U1 : u d <= 1). { unfold u. rewrite <- Rinv_1. apply Rinv_le_contravar; [lra|]. apply pow_R1_Rle. lra. }
  assert (B0 : 0 <= real e * real inv) by (apply Rmult_le_pos; lra).
  destruct (mul_in d e inv 0 2 Fe Fi (rep_0 d) (rep_int d 2 eq_refl)) as (A & L & V); [lra|]. fold p in A, L, V.
  split; [exact A|]. split; [split; [lra|]; rewrite V, <- (one_more d); now apply nearest_le|]. split; [exact V|]. intros H.
  assert (R : rep d (/ 2 ^ (S (S (most d))))) by (rewrite pow2, <- bpow_opp; apply rep_pow; destruct d; cbn; lia).
  destruct (mul_in d e inv (/ 2 ^ (S (S (most d)))) 2 Fe Fi R (rep_int d 2 eq_refl)) as (_ & L' & _).
  - split; [|lra]. replace (S (S (most d))) with (S (most d) + 1)%nat by lia. rewrite inv_split, pow_1. pose proof (inv_pos (S (most d))). nra.
  - fold p in L'. pose proof (inv_pos (S (S (most d)))). lra.
Qed.

(** ** The sum of the exponentials *)
Definition exact {d} (mx : val d) (l : list (val d)) : R := fold_right (fun x s => exp (real x - real mx) + s) 0 l.
Lemma exact_shift d (mx : val d) l : exp_total l = exp (real mx) * exact mx l.
Proof.
  unfold exp_total, exact. induction l as [|x l IH]; cbn [fold_right]; [lra|]. rewrite IH. rewrite Rmult_plus_distr_l, <- exp_plus. replace (real mx + (real x - real mx)) with (real x) by ring. reflexivity.
Qed.
Lemma exact_pos d (mx : val d) l : 0 <= exact mx l.
Proof. unfold exact. induction l as [|x l IH]; cbn [fold_right]; [lra|]. pose proof (exp_pos (real x - real mx)). lra. Qed.
Lemma exact_in d (mx x : val d) l : In x l -> exp (real x - real mx) <= exact mx l.
Proof.
  unfold exact. induction l as [|y l IH]; cbn [fold_right]; [intros []|]. intros [->|H].
  - pose proof (exact_pos d mx l). unfold exact in *. lra.
  - specialize (IH H). pose proof (exp_pos (real y - real mx)). lra.
Qed.
Lemma total_near d (mx : val d) h t (l es : list (val d)) : Forall2 (fun x e => Rabs (real e - exp (real x - real mx)) <= h * exp (real x - real mx) + t) l es ->
  Rabs (total es - exact mx l) <= h * exact mx l + INR (length l) * t.
Proof.
  unfold exact, total. induction 1 as [|x e l es H F IH]; cbn [fold_right]; [cbn; rewrite Rminus_0_r, Rabs_R0; lra|].
  cbn [length]. rewrite S_INR. replace (real e + fold_right (fun x s => real x + s) 0 es - (exp (real x - real mx) + fold_right (fun x s => exp (real x - real mx) + s) 0 l))
    with ((real e - exp (real x - real mx)) + (fold_right (fun x s => real x + s) 0 es - fold_right (fun x s => exp (real x - real mx) + s) 0 l)) by ring.
  eapply Rle_trans; [apply Rabs_triang|]. lra.
Qed.
Lemma total_count d (es : list (val d)) : Forall (fun e => 0 <= real e <= 2) es -> total es <= 2 * INR (length es).
Proof. unfold total. induction 1 as [|e es H F IH]; cbn [fold_right length]; [cbn; lra|]. rewrite S_INR. lra. Qed.

Section Softmax.
Variable g : libm.
Hypothesis G : go_math g.
Variable d : dtype.
Variable c : cpu.

Lemma exps_near (mx : val d) (l es : list (val d)) : finite mx -> Forall finite l -> (forall x, In x l -> real x <= real mx) -> exps g d c (map (fun w => fadd w (fneg mx)) l) es ->
  length es = length l /\ Forall2 (fun x e => finite e /\ 0 <= real e /\ Rabs (real e - exp (real x - real mx)) <= eta d * exp (real x - real mx) + tau d) l es.
Proof.
  intros Fm Fl M (L & H). rewrite map_length in *. split; [exact L|]. revert H. generalize (length l) at 1. intros n. 
  assert (K : forall k l es, length es = length l -> Forall finite l -> (forall x, In x l -> real x <= real mx) -> (forall i t e, nth_error (map (fun w => fadd w (fneg mx)) l) i = Some t -> nth_error es i = Some e -> SoftProofs.exp_value g d c (k + i) n t e) ->
    Forall2 (fun x e => finite e /\ 0 <= real e /\ Rabs (real e - exp (real x - real mx)) <= eta d * exp (real x - real mx) + tau d) l es).
  { clear l es Fl M L. intros k l. revert k. induction l as [|x l IH]; intros k [|e es] L Fl M H; cbn [length] in L; try discriminate; [constructor|]. inversion Fl; subst. constructor.
    - apply (elem g d c (k + 0) n x mx e G); [assumption|assumption|apply M; now left|]. now apply H.
    - apply (IH (S k)); auto; [intros; apply M; now right|]. intros i t e' Ht He. replace (S k + i)%nat with (k + S i)%nat by lia. now apply H. }
  intros H. apply (K 0%nat); auto.
Qed.
Lemma exp_le_1 r : r <= 0 -> exp r <= 1.
Proof. intros H. rewrite <- exp_0. destruct H as [H|H]; [left; now apply exp_increasing|rewrite H; lra]. Qed.

Theorem softmax_values (v : val d) vs es s : let l := v :: vs in let mx := ArithModel.max_loop flt v vs in
  Forall finite l -> INR (length l) * u d <= 64 -> exps g d c (map (fun w => fadd w (fneg mx)) l) es -> sum_of (floats d) s es ->
  let out := map (fun e => fmul e (fdiv fone s)) es in
  length out = length l /\ Forall (fun p => finite p /\ 0 <= real p <= 1) out /\ Exists (fun p => 0 < real p) out /\
  (INR (length l) * u d <= / 8 -> Forall2 (fun x p => Rabs (real p - softmax_of l x) <= soft_rel d (length l) * softmax_of l x + soft_abs d) l out).
Proof.
  intros l mx Fl Hn He Hs out. destruct (max_finite d vs v Fl) as (Im & Mm). fold mx in Im, Mm. fold l in Im, Mm.
  assert (Fm : finite mx) by (rewrite Forall_forall in Fl; now apply Fl).
  destruct (exps_near mx l es Fm Fl Mm He) as (Le & Ne). destruct (eta_tau d) as (Eh & Et & Et'). pose proof (u_pos d) as U.
  assert (B2 : Forall (fun e => finite e /\ 0 <= real e <= 2) es).
  { clear - Ne Mm Eh Et Et'. assert (Mm' : forall x, In x l -> real x - real mx <= 0) by (intros x Hx; specialize (Mm x Hx); lra). clearbody mx. clear Mm. induction Ne as [|x e l' es (A & B & C) N IH]; constructor; [|apply IH; intros; apply Mm'; now right].
    split; [exact A|]. split; [exact B|]. pose proof (exp_le_1 _ (Mm' x (or_introl eq_refl))) as X. apply Rabs_le_inv in C. pose proof (exp_pos (real x - real mx)). assert (eta d * exp (real x - real mx) <= / 1000 * 1) by (apply Rmult_le_compat; lra). lra. }
  assert (Fe : Forall finite es) by (eapply Forall_impl; [|exact B2]; cbv beta; tauto).
  assert (Pe : Forall (fun e => 0 <= real e) es) by (eapply Forall_impl; [|exact B2]; cbv beta; intros ? (? & ? & ?); assumption).
  assert (T2 : total es <= 2 * INR (length l)). { rewrite <- Le. apply total_count. eapply Forall_impl; [|exact B2]. cbv beta; tauto. }
  pose proof (most_ok d (length l) Hn) as Mo. pose proof (gamma_exp d (length l)) as Ge. pose proof (gamma_pos d (length l)) as Gp. pose proof (pos_INR (length l)) as Pn.
  assert (T0 : 0 <= total es) by (rewrite <- total_abs_nonneg by exact Pe; apply total_abs_pos).
  assert (Sz : (1 + gamma d (length es)) * total_abs es <= 2 ^ most d).
  { rewrite total_abs_nonneg, Le by exact Pe. eapply Rle_trans; [|exact Mo]. apply Rmult_le_compat; lra. }
  assert (Fs : finite s).
  { apply (sum_finite d s es Hs Fe). eapply Rle_trans; [exact Sz|]. unfold AsmFloatSpec.largest, most. destruct d.
    - apply Rle_trans with (2 ^ 20 * 2 ^ 104); [rewrite <- pow_add; apply Rle_refl|]. apply Rmult_le_compat_r; [apply pow_le; lra|]. cbn. lra.
    - apply Rle_trans with (1 * 2 ^ 971); [rewrite Rmult_1_l; apply Rle_pow; [lra|lia]|]. apply Rmult_le_compat_r; [apply pow_le; lra|]. cbn. lra. }
  destruct (sum_above d s es Hs Fs Pe) as (Ps & As). pose proof (sum_size d s es Hs Fs) as Ss. rewrite Rabs_right in Ss by lra.
  assert (Xm : exists em, In em es /\ 0.9 <= real em).
  { clear - Ne Im Eh Et Et'. clearbody mx. induction Ne as [|x e l' es (A & B & C) N IH]; [destruct Im|]. destruct Im as [->|I].
    - exists e. split; [now left|]. rewrite Rminus_eq_0, exp_0 in C. apply Rabs_le_inv in C. lra.
    - destruct (IH I) as (em & I' & B'). exists em. split; [now right|exact B']. }
  destruct Xm as (em & Iem & Bem). assert (Bs : 0.9 <= real s <= 2 ^ most d). { split; [|eapply Rle_trans; [exact Ss|exact Sz]]. rewrite Forall_forall in As. specialize (As em Iem). lra. }
  assert (O : Forall (fun e => 0 <= real e <= real s) es). { rewrite Forall_forall in *. intros e I. specialize (As e I). specialize (Pe e I). lra. }
  split; [unfold out; rewrite map_length; exact Le|]. split; [|split].
  - unfold out. apply Forall_map. rewrite Forall_forall in *. intros e I. destruct (output d e s Fs Bs (Fe e I) (O e I)) as (A & B & _). split; [exact A|exact B].
  - apply Exists_exists. exists (fmul em (fdiv fone s)). split; [unfold out; apply in_map_iff; exists em; auto|]. rewrite Forall_forall in *. apply (output d em s Fs Bs (Fe em Iem) (O em Iem)). exact Bem.
  - intros Ha. destruct (inverse d s Fs Bs) as (Fi & Ei & _). destruct (sum_error d s es Hs Fs) as (_ & Er0).
    assert (Er : Rabs (real s - total es) <= gamma d (length l - 1) * total es). { rewrite <- Le. eapply Rle_trans; [exact Er0|]. rewrite total_abs_nonneg by exact Pe. apply Rle_refl. }
    assert (Gs : gamma d (length l - 1) <= 8 / 7 * (INR (length l) * u d)). { eapply Rle_trans; [apply (gamma_le d _ (length l)); lia|]. now apply gamma_small. }
    pose proof (gamma_pos d (length l - 1)) as G0.
    pose proof (total_near d mx (eta d) (tau d) l es) as Tn. specialize (Tn ltac:(eapply Forall2_weaken; [|exact Ne]; cbv beta; tauto)).
    pose proof (exact_in d mx mx l Im) as X1. rewrite Rminus_eq_0, exp_0 in X1.
    assert (Nt : INR (length l) * tau d <= eta d / 8).
    { apply Rle_trans with (/ 8 * / u d * tau d). { apply Rmult_le_compat_r; [lra|]. apply Rmult_le_reg_r with (u d); [exact U|]. replace (/ 8 * / u d * u d) with (/ 8) by (field; lra). exact Ha. }
      assert (Q : / u d * tau d <= eta d); [|lra]. unfold u, tau, eta. rewrite Rinv_inv. destruct d.
      - change 125%nat with (24 + (17 + 84))%nat. rewrite (inv_split 24), <- Rmult_assoc, Rinv_r, Rmult_1_l by (apply pow_nonzero; lra). apply inv_le. lia.
      - change 1021%nat with (53 + 968)%nat. rewrite (inv_split 53), <- Rmult_assoc, Rinv_r, Rmult_1_l by (apply pow_nonzero; lra). apply inv_le. lia. }
    assert (Hu : u d <= eta d / 128). { unfold u, eta, Rdiv. replace (/ 128) with (/ 2 ^ 7) by (cbn; lra). destruct d; rewrite <- inv_split; apply inv_le; lia. }
    assert (Hh : half_tiny d <= tau d / 2). { unfold half_tiny, tau, Rdiv. replace (/ 2) with (/ 2 ^ 1) by (cbn; lra). destruct d; rewrite <- inv_split; apply inv_le; lia. }
    pose proof (half_tiny_pos d) as Ht.
    assert (Rel : 4 * eta d + 2 * (INR (length l) * u d) = soft_rel d (length l)).
    { unfold soft_rel. f_equal. unfold eta. replace 4 with (2 ^ 2) by (cbn; lra). destruct d; [change 17%nat with (2 + 15)%nat|change 42%nat with (2 + 40)%nat]; rewrite inv_split, <- Rmult_assoc, Rinv_r, Rmult_1_l by (apply pow_nonzero; lra); reflexivity. }
    assert (Abs : 2 * tau d = soft_abs d).
    { unfold soft_abs, tau. replace 2 with (2 ^ 1) at 1 by (cbn; lra). destruct d; [change 125%nat with (1 + 124)%nat|change 1021%nat with (1 + 1020)%nat]; rewrite inv_split, <- Rmult_assoc, Rinv_r, Rmult_1_l by (apply pow_nonzero; lra); reflexivity. }
    rewrite <- Rel, <- Abs. unfold out.
    assert (Ne' : Forall2 (fun x e => In x l /\ In e es /\ Rabs (real e - exp (real x - real mx)) <= eta d * exp (real x - real mx) + tau d) l es).
    { assert (K : forall l' es', incl l' l -> incl es' es -> Forall2 (fun x e => finite e /\ 0 <= real e /\ Rabs (real e - exp (real x - real mx)) <= eta d * exp (real x - real mx) + tau d) l' es' -> Forall2 (fun x e => In x l /\ In e es /\ Rabs (real e - exp (real x - real mx)) <= eta d * exp (real x - real mx) + tau d) l' es').
      { intros l' es' I1 I2 F. induction F as [|x e l' es' (A & B & C) F IH]; constructor.
        - split; [apply I1; now left|]. split; [apply I2; now left|exact C].
        - apply IH; intros z Hz; [apply I1|apply I2]; now right. }
      apply K; auto; apply incl_refl. }
    assert (Mp : forall (P : val d -> val d -> Prop) (f : val d -> val d) l es, Forall2 (fun x e => P x (f e)) l es -> Forall2 P l (map f es)) by (clear; induction 1; cbn; constructor; auto).
    apply Mp. eapply Forall2_weaken; [|exact Ne']. intros x e (Ix & Ie & C).
    rewrite Forall_forall in Fe, O. destruct (output d e s Fs Bs (Fe e Ie) (O e Ie)) as (_ & _ & V & _). pose proof (round_error d (real e * real (fdiv fone s))) as Ro. rewrite <- V in Ro.
    assert (I0 : 0 <= real (fdiv fone s)). { destruct (inverse d s Fs Bs) as (_ & _ & X). pose proof (inv_pos (S (most d))). lra. }
    rewrite (Rabs_right (real e * real (fdiv fone s))) in Ro by (apply Rle_ge, Rmult_le_pos; [apply (O e Ie)|exact I0]).
    assert (Q : softmax_of l x = exp (real x - real mx) / exact mx l).
    { unfold softmax_of. rewrite (exact_shift d mx l). replace (real x) with (real mx + (real x - real mx)) at 1 by ring. rewrite exp_plus. pose proof (exp_pos (real mx)). field. split; lra. }
    rewrite Q. apply (soft_real _ _ (real e) (real s) (total es) (real (fdiv fone s)) _ (eta d) (tau d) _ (gamma d (length l - 1)) (u d) (half_tiny d) (INR (length l) * tau d)); auto; try lra.
    + split; [left; apply exp_pos|now apply exact_in].
    + apply (O e Ie).
    + apply Rmult_le_pos; lra.
Qed.
End Softmax.
