(** * Softmax and Sigmoid of vectors with a NaN, for float32 *)
From Coq Require Import ZArith Bool Lia List Arith Reals Lra Psatz Permutation.
From Flocq Require Import Core BinarySingleNaN Relative.
From Verif Require Import AsmModel AsmCode AsmCalls AsmSpec FloatModel FloatSpec FloatProofs NumModel NumSpec NumLemmas NumProofs NumProofs2 AsmFloatSpec AsmFloat AsmFloat2 AsmWords AsmWordsSpec AsmExp AsmExp2 AsmExp4 AsmLog5 AsmLog6 SoftModel SoftSpec SoftProofs SoftFloat SoftFloat2 SoftFloat3.
Import ListNotations.
Local Open Scope list_scope.
Local Open Scope R_scope.

(** what the kernel returns for a NaN: about 2.4 * 10^38 *)
Definition peak : val F32 := lit 11863204 104.
Lemma peak_eq : finite peak /\ real peak = 11863204 * bpow radix2 104.
Proof. apply lit_eq; [reflexivity|cbn; lia..]. Qed.
Lemma flt_nan_l d (x : val d) : flt B754_nan x = false. Proof. reflexivity. Qed.
Lemma flt_nan_r d (x : val d) : flt x B754_nan = false. Proof. destruct x; reflexivity. Qed.
Lemma exp_nan g c i n (t e : val F32) : SoftProofs.exp_value g F32 c i n t e -> t = B754_nan -> (i < whole (width c) n)%nat -> e = peak.
Proof.
  cbn [SoftProofs.exp_value]. intros (w & Ew & ->) -> H. apply Nat.ltb_lt in H. rewrite H. apply exp_saturates. rewrite Ew. apply flt_nan_l.
Qed.
Lemma mul_nan (k : val F32) : fmul B754_nan k = B754_nan. Proof. reflexivity. Qed.
Lemma add_nan_l (k : val F32) : fadd B754_nan k = B754_nan. Proof. reflexivity. Qed.
Lemma add_nan_r (k : val F32) : fadd k B754_nan = B754_nan. Proof. destruct k; reflexivity. Qed.
(** Sigmoid of a NaN *)
Lemma sigm_nan : let p := fdiv fone (fadd fone peak) in finite p /\ 0 <= real p <= / 2 ^ 127.
Proof.
  destruct peak_eq as (Fp & Vp). assert (P : bpow radix2 127 <= real peak). { rewrite Vp. change 127%Z with (23 + 104)%Z. rewrite bpow_plus. apply Rmult_le_compat_r; [apply bpow_ge_0|]. change (bpow radix2 23) with 8388608. lra. }
  pose proof (bpow_gt_0 radix2 127) as B0. cbv zeta. destruct (one_plus F32 peak Fp ltac:(lra)) as (Fq & L1 & L2). destruct (one_eq F32) as (Fo & Vo).
  assert (R : rep F32 (/ 2 ^ 127)) by (rewrite pow2, <- bpow_opp; apply rep_pow; cbn; lia).
  assert (I : 0 < / real (fadd fone peak)) by (apply Rinv_0_lt_compat; lra).
  destruct (div_in F32 fone (fadd fone peak) 0 (/ 2 ^ 127) Fo ltac:(lra) (rep_0 F32) R) as (A & B & _); [|split; [exact A|exact B]].
  unfold Rdiv. rewrite Vo, Rmult_1_l. split; [lra|]. rewrite pow2. change (Z.of_nat 127) with 127%Z. apply Rinv_le_contravar; lra.
Qed.
Theorem sigmoid_nan g c (l es : list (val F32)) i : exps g F32 c (map (fun w => fmul w (conv F64 F32 (lit (-1) 0))) l) es -> nth_error l i = Some (B754_nan : val F32) -> (i < whole (width c) (length l))%nat ->
  exists p, nth_error (map (fun e => fdiv fone (fadd fone e)) es) i = Some p /\ finite p /\ 0 <= real p <= / 2 ^ 127.
Proof.
  intros (L & H) N W. rewrite map_length in *. destruct (nth_error es i) as [e|] eqn:E; [|apply nth_error_None in E; assert (i < length l)%nat by (apply nth_error_Some; congruence); lia].
  assert (X : e = peak). { apply (exp_nan g c i (length l) B754_nan e); auto. apply H; [|exact E]. rewrite nth_error_map, N. reflexivity. }
  subst e. exists (fdiv fone (fadd fone peak)). split; [rewrite nth_error_map, E; reflexivity|]. apply sigm_nan.
Qed.

(** ** Softmax with a NaN first *)
Lemma peak_twice : fadd peak peak = NumSpec.infinity. Proof. apply B2SF_inj. vm_compute. reflexivity. Qed.
Lemma peak_zero : fadd peak fzero = peak /\ fadd fzero peak = peak. Proof. split; apply B2SF_inj; vm_compute; reflexivity. Qed.
Lemma infinity_more : fadd (NumSpec.infinity : val F32) fzero = NumSpec.infinity /\ fadd (fzero : val F32) NumSpec.infinity = NumSpec.infinity /\ fadd NumSpec.infinity peak = NumSpec.infinity /\ fadd peak NumSpec.infinity = NumSpec.infinity /\ fadd (NumSpec.infinity : val F32) NumSpec.infinity = NumSpec.infinity.
Proof. repeat split; apply B2SF_inj; vm_compute; reflexivity. Qed.
Lemma sum_peaks s l : sum_of (floats F32) s l -> Forall (fun e => e = peak) l -> s = match length l with O => fzero | 1%nat => peak | _ => NumSpec.infinity end.
Proof.
  destruct peak_zero as (Z1 & Z2). destruct infinity_more as (I1 & I2 & I3 & I4 & I5).
  induction 1 as [|x|a b l k m Sa IHa Sb IHb P]; intros F; [reflexivity|inversion F; subst; reflexivity|].
  apply Permutation_sym in P. eapply Permutation_Forall in F; [|exact P]. apply Forall_app in F. destruct F as (Fl & Fk). rewrite (Permutation_length P), app_length. specialize (IHa Fl). specialize (IHb Fk). cbn [bin floats]. rewrite IHa, IHb.
  destruct (length l) as [|[|n]], (length k) as [|[|n']]; cbn [Nat.add]; auto using peak_twice; apply B2SF_inj; vm_compute; reflexivity.
Qed.
Lemma max_nan (vs : list (val F32)) : ArithModel.max_loop flt B754_nan vs = B754_nan.
Proof. unfold ArithModel.max_loop. induction vs as [|w vs IH]; cbn [fold_left]; [reflexivity|]. rewrite flt_nan_l. exact IH. Qed.
Theorem softmax_nan_first g c (vs es : list (val F32)) s : let l : list (val F32) := B754_nan :: vs in
  (2 <= length l)%nat -> whole (width c) (length l) = length l ->
  exps g F32 c (map (fun w => fadd w (fneg (ArithModel.max_loop flt B754_nan vs))) l) es -> sum_of (floats F32) s es ->
  map (fun e => fmul e (fdiv fone s)) es = repeat (B754_zero false) (length l).
Proof.
  intros l L2 W. rewrite max_nan. clearbody l. intros (L & H) S. rewrite map_length in *. change (fneg (B754_nan : val F32)) with (B754_nan : val F32) in H.
  assert (A : Forall (fun e => e = peak) es).
  { apply Forall_forall. intros e I. apply In_nth_error in I. destruct I as (i & E). assert (Hi : (i < length l)%nat) by (apply Nat.lt_le_trans with (length es); [apply nth_error_Some; congruence|apply Nat.eq_le_incl; exact L]).
    destruct (nth_error l i) as [x|] eqn:X; [|apply nth_error_None in X; lia]. apply (exp_nan g c i (length l) (fadd x B754_nan) e); [|apply add_nan_r|lia]. apply H; [|exact E]. rewrite nth_error_map, X. reflexivity. }
  pose proof (sum_peaks s es S A) as V. assert (L2' : (2 <= length es)%nat) by (rewrite L; exact L2). replace (length l) with (length es) by exact L. clear L L2 W H. assert (V' : s = NumSpec.infinity) by (rewrite V; destruct es as [|e1 [|e2 es]]; [cbn in L2'; lia|cbn in L2'; lia|reflexivity]). rewrite V'.
  clear - A. assert (Z : fmul peak (fdiv fone NumSpec.infinity) = B754_zero false) by (apply B2SF_inj; vm_compute; reflexivity).
  induction A as [|e es -> A IH]; cbn [map length repeat]; [reflexivity|]. rewrite Z, IH. reflexivity.
Qed.

(** ** Softmax with a NaN that is not the first element *)
Lemma max_skips (vs : list (val F32)) : forall v, finite v -> Forall (fun x => finite x \/ x = B754_nan) vs -> let mx := ArithModel.max_loop flt v vs in finite mx /\ forall x, In x (v :: vs) -> finite x -> real x <= real mx.
Proof.
  unfold ArithModel.max_loop. induction vs as [|w vs IH]; intros v Fv F; cbn [fold_left].
  - split; [exact Fv|]. intros x [<-|[]] _. lra.
  - inversion F as [|? ? [Fw|Nw] F']; subst.
    + destruct (flt v w) eqn:E.
      * destruct (IH w Fw F') as (A & M). split; [exact A|]. intros x [<-|H] Fx; [|now apply M]. apply lt_eq in E; auto. specialize (M w (or_introl eq_refl) Fw). lra.
      * destruct (IH v Fv F') as (A & M). split; [exact A|]. apply lt_false in E; auto. intros x [<-|[<-|H]] Fx; [apply M; auto; now left| |apply M; auto; now right]. specialize (M v (or_introl eq_refl) Fv). lra.
    + rewrite flt_nan_r. destruct (IH v Fv F') as (A & M). split; [exact A|]. intros x [<-|[<-|H]] Fx; [apply M; auto; now left|discriminate|apply M; auto; now right].
Qed.
Lemma u32 : u F32 = / 16777216. Proof. unfold u. f_equal. cbn. lra. Qed.
Theorem softmax_nan g c (v : val F32) vs es s i : go_math g -> let l := v :: vs in let mx := ArithModel.max_loop flt v vs in
  (forall j x, nth_error l j = Some x -> j <> S i -> finite x) -> nth_error l (S i) = Some (B754_nan : val F32) -> (S i < whole (width c) (length l))%nat -> INR (length l) * u F32 <= / 8 ->
  exps g F32 c (map (fun w => fadd w (fneg mx)) l) es -> sum_of (floats F32) s es ->
  let out := map (fun e => fmul e (fdiv fone s)) es in length out = length l /\
  forall j p, nth_error out j = Some p -> finite p /\ (j = S i -> / 2 <= real p) /\ (j <> S i -> 0 <= real p <= / 2 ^ 126).
Proof.
  intros G l mx Fl Nl W Hn He Hs out. destruct peak_eq as (Fk & Vk).
  destruct (max_skips vs v) as (Fm & Mm).
  { apply (Fl 0%nat); [reflexivity|lia]. }
  { apply Forall_forall. intros x I. apply In_nth_error in I. destruct I as (j & E). destruct (Nat.eq_dec j i) as [->|D]; [right; assert (Q : Some x = Some (B754_nan : val F32)) by (rewrite <- E; exact Nl); injection Q as Q; exact Q|left]. apply (Fl (S j)); [exact E|lia]. }
  fold mx in Fm, Mm. fold l in Mm. destruct He as (Le & He). rewrite map_length in *. destruct (eta_tau F32) as (T1 & T2 & T3).
  assert (Ve : forall j e, nth_error es j = Some e -> (j = S i -> e = peak) /\ (j <> S i -> finite e /\ 0 <= real e <= 1.01)).
  { intros j e E. assert (Hj : (j < length l)%nat) by (rewrite <- Le; apply nth_error_Some; congruence). destruct (nth_error l j) as [x|] eqn:X; [|apply nth_error_None in X; lia].
    assert (Y : SoftProofs.exp_value g F32 c j (length l) (fadd x (fneg mx)) e) by (apply He; [rewrite nth_error_map, X; reflexivity|exact E]). split; intros D.
    - subst j. rewrite Nl in X. injection X as <-. apply (exp_nan g c (S i) (length l) _ e Y); [apply add_nan_l|exact W].
    - pose proof (Fl j x X D) as Fx. pose proof (Mm x (nth_error_In _ _ X) Fx) as Lx. destruct (elem g F32 c j (length l) x mx e G Fx Fm Lx Y) as (A & B & C). split; [exact A|]. split; [exact B|].
      pose proof (exp_le_1 (real x - real mx) ltac:(lra)) as E1. pose proof (exp_pos (real x - real mx)). apply Rabs_le_inv in C. assert (eta F32 * exp (real x - real mx) <= / 1000 * 1) by (apply Rmult_le_compat; lra). lra. }
  assert (Ei : exists e1 e2, es = e1 ++ peak :: e2 /\ length e1 = S i).
  { assert (Hi : (S i < length l)%nat) by (apply nth_error_Some; congruence). rewrite <- Le in Hi. destruct (nth_error es (S i)) as [e|] eqn:E; [|apply nth_error_None in E; lia]. destruct (nth_error_split es (S i) E) as (e1 & e2 & E1 & E2). exists e1, e2. split; [|exact E2]. rewrite E1 at 1. f_equal. f_equal. now apply (Ve (S i)). }
  destruct Ei as (e1 & e2 & Ees & L1).
  assert (F1 : Forall (fun e => finite e /\ 0 <= real e <= 2) e1).
  { apply Forall_forall. intros e I. apply In_nth_error in I. destruct I as (j & E). assert (Hj : (j < length e1)%nat) by (apply nth_error_Some; congruence). destruct (Ve j e) as (_ & V); [rewrite Ees, nth_error_app1 by exact Hj; exact E|]. destruct (V ltac:(lia)) as (A & B). split; [exact A|lra]. }
  assert (F2 : Forall (fun e => finite e /\ 0 <= real e <= 2) e2).
  { apply Forall_forall. intros e I. apply In_nth_error in I. destruct I as (j & E). destruct (Ve (S i + S j)%nat e) as (_ & V); [rewrite Ees, nth_error_app2 by lia; rewrite L1; replace (S i + S j - S i)%nat with (S j) by lia; exact E|]. destruct (V ltac:(lia)) as (A & B). split; [exact A|lra]. }
  set (K := real peak) in *. assert (P23 : 8388608 * bpow radix2 104 <= K) by (rewrite Vk; pose proof (bpow_gt_0 radix2 104); lra). assert (B104 : 1048576 <= bpow radix2 104) by (change 1048576 with (bpow radix2 20); apply bpow_le; lia).
  assert (Hu : u F32 = / 16777216) by exact u32. assert (N21 : INR (length es) <= 2097152) by (rewrite Le; clear - Hn Hu; rewrite Hu in Hn; lra).
  assert (C12 : INR (length e1) + 1 + INR (length e2) = INR (length es)). { rewrite Ees, app_length. cbn [length]. rewrite plus_INR, S_INR. lra. }
  assert (Tc : forall e0, Forall (fun e : val F32 => finite e /\ 0 <= real e <= 2) e0 -> 0 <= total e0 <= 2 * INR (length e0)).
  { intros e0 F. split; [|apply total_count; eapply Forall_impl; [|exact F]; cbv beta; tauto]. rewrite <- total_abs_nonneg; [apply total_abs_pos|]. eapply Forall_impl; [|exact F]; cbv beta; intros ? (? & ? & ?); assumption. }
  pose proof (Tc e1 F1) as T1'. pose proof (Tc e2 F2) as T2'.
  assert (Pe : Forall (fun e : val F32 => 0 <= real e) es). { rewrite Ees. apply Forall_app. split; [|constructor; [fold K; pose proof (bpow_gt_0 radix2 104); lra|]]; (eapply Forall_impl; [|eassumption]); cbv beta; intros ? (? & ? & ?); assumption. }
  assert (Fe : Forall finite es). { rewrite Ees. apply Forall_app. split; [|constructor; [exact Fk|]]; (eapply Forall_impl; [|eassumption]); cbv beta; tauto. }
  assert (Te : total es <= 1.0001 * K). { rewrite Ees, total_app. change (total (peak :: e2)) with (K + total e2). pose proof (pos_INR (length e1)). pose proof (pos_INR (length e2)). lra. }
  assert (Gm : gamma F32 (length es) <= 0.143). { rewrite Le. eapply Rle_trans; [apply gamma_small; exact Hn|]. lra. }
  pose proof (gamma_pos F32 (length es)) as Gp. assert (T0 : 0 <= total es) by (rewrite <- total_abs_nonneg by exact Pe; apply total_abs_pos).
  assert (Sz : (1 + gamma F32 (length es)) * total_abs es <= 1.1432 * K). { rewrite total_abs_nonneg by exact Pe. pose proof (bpow_gt_0 radix2 104). apply Rle_trans with (1.143 * (1.0001 * K)); [apply Rmult_le_compat; lra|lra]. }
  assert (KL : 1.1432 * K <= AsmFloatSpec.largest F32). { unfold AsmFloatSpec.largest. rewrite Vk, !pow2. change (Z.of_nat 104) with 104%Z. change (bpow radix2 (Z.of_nat 24)) with 16777216. pose proof (bpow_gt_0 radix2 104). lra. }
  assert (Fs : finite s) by (apply (sum_finite F32 s es Hs Fe); eapply Rle_trans; [exact Sz|exact KL]).
  destruct (sum_above F32 s es Hs Fs Pe) as (Ps & As). pose proof (sum_size F32 s es Hs Fs) as Ss. rewrite Rabs_right in Ss by lra.
  assert (Ks : K <= real s). { rewrite Forall_forall in As. apply (As peak). rewrite Ees. apply in_or_app. right. now left. }
  assert (Bs : K <= real s <= 1.1432 * K) by (split; [exact Ks|eapply Rle_trans; [exact Ss|exact Sz]]). clear Ss Sz.
  destruct (one_eq F32) as (Fo & Vo). pose proof (bpow_gt_0 radix2 104) as B0. assert (K0 : 0 < K) by lra.
  assert (Is : / (1.1432 * K) <= / real s <= / K) by (split; apply Rinv_le_contravar; lra).
  assert (Ik : 0 < / K) by (now apply Rinv_0_lt_compat).
  set (q := / 2 ^ 127). assert (Rq : rep F32 q) by (unfold q; rewrite pow2, <- bpow_opp; apply rep_pow; cbn; lia).
  assert (Kq : / K <= q). { unfold q. apply Rinv_le_contravar; [apply pow_lt; lra|]. rewrite pow2. change (Z.of_nat 127) with (23 + 104)%Z. rewrite bpow_plus. change (bpow radix2 23) with 8388608. exact P23. }
  assert (Irw : / (1.1432 * K) = / 1.1432 * / K) by (apply Rinv_mult).
  destruct (div_in F32 fone s 0 q Fo ltac:(lra) (rep_0 F32) Rq) as (Fi & Bi & Vi). { unfold Rdiv. rewrite Vo, Rmult_1_l. assert (0 < / 1.1432 * / K) by (apply Rmult_lt_0_compat; lra). lra. }
  set (inv := fdiv fone s) in *. unfold Rdiv in Vi. rewrite Vo, Rmult_1_l in Vi. pose proof (round_error F32 (/ real s)) as Ei. rewrite <- Vi in Ei.
  assert (Is0 : 0 < / real s) by (apply Rinv_0_lt_compat; lra). rewrite (Rabs_right (/ real s)) in Ei by lra.
  assert (Hk : K * half_tiny F32 <= 0.001).
  { unfold half_tiny. rewrite Vk, pow2, <- bpow_opp. rewrite Rmult_assoc, <- bpow_plus. change (104 + - Z.of_nat 150)%Z with (-46)%Z. apply Rle_trans with (16777216 * bpow radix2 (-46)); [apply Rmult_le_compat_r; [apply bpow_ge_0|lra]|]. change (bpow radix2 (-46)) with (/ 70368744177664). lra. }
  assert (Kinv : 0.85 <= K * real inv <= 1.1).
  { apply Rabs_le_inv in Ei. rewrite Hu in Ei. assert (X1 : K * / real s <= 1) by (replace 1 with (K * / K) by (apply Rinv_r; lra); apply Rmult_le_compat_l; lra).
    assert (X2 : / 1.1432 <= K * / real s). { rewrite Irw in Is. apply Rle_trans with (K * (/ 1.1432 * / K)); [right; field; lra|]. apply Rmult_le_compat_l; lra. }
    set (h := half_tiny F32) in *. set (r := / real s) in *. set (w := real inv) in *. clearbody h r w K. clear - Ei X1 X2 Hk K0. split.
    - apply Rle_trans with (K * (r - / 16777216 * r - h)); [|apply Rmult_le_compat_l; lra]. lra.
    - apply Rle_trans with (K * (r + / 16777216 * r + h)); [apply Rmult_le_compat_l; lra|]. lra. }
  split; [unfold out; rewrite map_length; exact Le|]. intros j p Hp. unfold out in Hp. rewrite nth_error_map in Hp. destruct (nth_error es j) as [e|] eqn:E; [|discriminate]. cbn [option_map] in Hp. injection Hp as <-. destruct (Ve j e E) as (V1 & V2).
  destruct (Nat.eq_dec j (S i)) as [D|D].
  - specialize (V1 D). subst e. assert (Rh : rep F32 (/ 2)) by (apply (rep_pow F32 (-1)); cbn; lia).
    destruct (mul_in F32 peak inv (/ 2) 2 Fk Fi Rh (rep_int F32 2 eq_refl)) as (A & B & _); [fold K; lra|]. split; [exact A|]. split; [intros _; apply B|intros X; contradiction].
  - destruct (V2 D) as (Fe' & Be). assert (R6 : rep F32 (/ 2 ^ 126)) by (rewrite pow2, <- bpow_opp; apply rep_pow; cbn; lia).
    destruct (mul_in F32 e inv 0 (/ 2 ^ 126) Fe' Fi (rep_0 F32) R6) as (A & B & _); [|split; [exact A|]; split; [intros X; contradiction|intros _; exact B]].
    split; [apply Rmult_le_pos; lra|]. apply Rle_trans with (2 * q); [apply Rmult_le_compat; lra|]. unfold q. right. change 127%nat with (1 + 126)%nat. rewrite inv_split, <- Rmult_assoc. replace (2 * / 2 ^ 1) with 1 by (cbn; lra). lra.
Qed.

(** ** NaNs outside the whole vectors of the kernel *)
Lemma exp_nan_rest g d c i n (t e : val d) : Exp g B754_nan = B754_nan -> SoftProofs.exp_value g d c i n t e -> t = B754_nan -> (d = F32 -> whole (width c) n <= i)%nat -> e = B754_nan.
Proof.
  intros E. destruct d; cbn [SoftProofs.exp_value].
  - intros (w & Ew & ->) -> H. specialize (H eq_refl). apply Nat.ltb_ge in H. rewrite H. unfold scalar. rewrite decode_encode, Ew. change (conv F32 F64 B754_nan) with (B754_nan : val F64). rewrite E. reflexivity.
  - intros -> -> _. exact E.
Qed.
Lemma sigmoid_nan_rest g d c (l es : list (val d)) i : Exp g B754_nan = B754_nan -> exps g d c (map (fun w => fmul w (conv F64 d (lit (-1) 0))) l) es -> nth_error l i = Some (B754_nan : val d) -> (d = F32 -> whole (width c) (length l) <= i)%nat ->
  nth_error (map (fun e => fdiv fone (fadd fone e)) es) i = Some (B754_nan : val d).
Proof.
  intros X (L & H) N W. rewrite map_length in *. destruct (nth_error es i) as [e|] eqn:E; [|apply nth_error_None in E; assert (i < length l)%nat by (apply nth_error_Some; congruence); lia].
  assert (Y : e = B754_nan). { apply (exp_nan_rest g d c i (length l) (fmul B754_nan (conv F64 d (lit (-1) 0))) e X); auto. apply H; [|exact E]. rewrite nth_error_map, N. reflexivity. }
  rewrite nth_error_map, E, Y. destruct d; reflexivity.
Qed.
Lemma sum_nan d s (l : list (val d)) : sum_of (floats d) s l -> In B754_nan l -> s = B754_nan.
Proof.
  induction 1 as [|x|a b l k m Sa IHa Sb IHb P]; intros I.
  - destruct I.
  - destruct I as [I|[]]. exact I.
  - cbn [bin floats]. apply (Permutation_in _ (Permutation_sym P)) in I. apply in_app_or in I. apply AsmFloat2.add_nan. destruct I as [I|I]; [left; rewrite (IHa I)|right; rewrite (IHb I)]; reflexivity.
Qed.
Lemma softmax_nan_rest g d c (v : val d) vs es s i : Exp g B754_nan = B754_nan -> let l := v :: vs in nth_error l i = Some (B754_nan : val d) -> (d = F32 -> whole (width c) (length l) <= i)%nat ->
  exps g d c (map (fun w => fadd w (fneg (ArithModel.max_loop flt v vs))) l) es -> sum_of (floats d) s es ->
  map (fun e => fmul e (fdiv fone s)) es = repeat (B754_nan : val d) (length l).
Proof.
  intros X l N W. generalize (ArithModel.max_loop flt v vs). intros mx. clearbody l. intros (L & H) S. rewrite map_length in *. destruct (nth_error es i) as [e|] eqn:E; [|apply nth_error_None in E; assert (i < length l)%nat by (apply nth_error_Some; congruence); lia].
  assert (Y : e = B754_nan). { apply (exp_nan_rest g d c i (length l) (fadd B754_nan (fneg mx)) e X); auto. apply H; [|exact E]. rewrite nth_error_map, N. reflexivity. }
  rewrite Y in E. apply nth_error_In in E. pose proof (sum_nan d s es S E) as Z. rewrite Z, <- L. clear. induction es as [|e es IH]; cbn [map length repeat]; [reflexivity|]. rewrite IH. f_equal. destruct d, e; reflexivity.
Qed.
