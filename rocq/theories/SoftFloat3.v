(** * Sigmoid in floating point *)
From Coq Require Import ZArith Bool Lia List Arith Reals Lra Psatz.
From Flocq Require Import Core BinarySingleNaN Relative.
From Verif Require Import AsmModel AsmCode AsmCalls AsmSpec FloatModel FloatSpec FloatProofs NumModel NumSpec NumLemmas NumProofs NumProofs2 AsmFloatSpec AsmFloat AsmWords AsmWordsSpec AsmExp AsmExp2 AsmExp4 AsmLog5 AsmLog6 SoftModel SoftSpec SoftProofs SoftFloat SoftFloat2.
Import ListNotations.
Local Open Scope list_scope.
Local Open Scope R_scope.

Definition top (d : dtype) : R := match d with F32 => 88.376 | F64 => 709 end.
Definition big (d : dtype) : nat := match d with F32 => 126 | F64 => 1021 end.
Lemma exp_mid g d c i n (t e : val d) : go_math g -> SoftProofs.exp_value g d c i n t e -> finite t -> real t <= top d -> finite e /\ 0 <= real e /\ Rabs (real e - exp (real t)) <= rho d * exp (real t) + tau0 d.
Proof.
  intros G. unfold SoftProofs.exp_value, rho, tau0, top. destruct d.
  - intros (w & <- & ->) F L. destruct (i <? whole (width c) n)%nat.
    + destruct (exp_near_low c w F L) as (A & B). split; [exact A|]. split; [|exact B]. rewrite exp_lane. apply (exp_clamped w).
    + destruct (scalar_exp_near g w G F L) as (A & B & _). split; [exact A|]. split; [|exact B]. revert A. unfold scalar. rewrite decode_encode. apply nonneg_finite. apply conv_nonneg. apply (exp_nonneg g G). apply conv_number. now apply finite_number.
  - intros -> F L. assert (A : finite (Exp g t)) by (apply (exp_finite g G); auto; lra). split; [exact A|]. split; [now apply (exp_positive g G)|]. pose proof (NumSpec.exp_value g G t F A) as E. unfold Rdiv in E. lra.
Qed.
Lemma exp_high k r : INR k * 0.6932 <= r -> 2 ^ k <= exp r.
Proof.
  intros H. rewrite <- (Ropp_involutive r), exp_Ropp. rewrite <- (Rinv_inv (2 ^ k)). apply Rinv_le_contravar; [apply exp_pos|]. apply exp_low. lra.
Qed.
Lemma conv_big (v : val F64) k : finite v -> (k <= 126)%nat -> 2 ^ k <= real v -> conv F64 F32 v = NumSpec.infinity \/ (finite (conv F64 F32 v) /\ 2 ^ k <= real (conv F64 F32 v)).
Proof.
  intros F Hk V. assert (P : 0 < 2 ^ k) by (apply pow_lt; lra). unfold real in *. destruct v as [s|s| |s m e Hb]; try discriminate; [cbn [B2R] in V; lra|].
  pose proof (conv_finite F64 F32 s m e Hb) as C. cbv zeta in C. set (r := B2R (B754_finite s m e Hb : val F64)) in *.
  assert (N : 2 ^ k <= nearest F32 r). { rewrite pow2 in V |- *. rewrite <- (proj1 (rep_pow F32 (Z.of_nat k) ltac:(cbn; lia) ltac:(cbn; lia))) || idtac. unfold nearest. assert (P24 : Prec_gt_0 24) by reflexivity. apply round_ge_generic; [apply (FLT_exp_valid (-149) 24)|auto with typeclass_instances|apply generic_format_bpow; unfold FLT_exp; lia|exact V]. }
  destruct (Rlt_bool _ _); [right; destruct C as (A & B & _); split; [exact A|rewrite B; exact N]|left]. destruct s; [|exact C].
  exfalso. change r with (IZR (Z.neg m) * bpow radix2 e) in V. pose proof (bpow_gt_0 radix2 e). assert (IZR (Z.neg m) < 0) by (apply IZR_lt; lia). nra.
Qed.
Lemma exp64_big g (t : val F64) k : go_math g -> finite t -> (1 <= k)%nat -> INR (S k) * 0.6932 <= real t -> Exp g t = NumSpec.infinity \/ (finite (Exp g t) /\ 2 ^ k <= real (Exp g t)).
Proof.
  intros G F Hk H. destruct (exp_either g G t F) as [A|A]; [right|now left]. split; [exact A|]. pose proof (NumSpec.exp_value g G t F A) as E. apply Rabs_le_inv in E.
  apply exp_high in H. cbn [pow] in H. pose proof (inv_small 1074 ltac:(lia)) as T. pose proof (inv_small 50 ltac:(lia)) as T'. pose proof (inv_pos 50) as T''.
  assert (P : 1 <= 2 ^ k) by (apply pow_R1_Rle; lra). unfold Rdiv in E. set (z := / 2 ^ 1074) in *. set (z' := / 2 ^ 50) in *. clearbody z z'. set (q := 2 ^ k) in *. clearbody q. nra.
Qed.
Lemma exp_big g d c i n (t e : val d) : go_math g -> SoftProofs.exp_value g d c i n t e -> finite t -> top d < real t -> e = NumSpec.infinity \/ (finite e /\ 2 ^ big d <= real e).
Proof.
  intros G. unfold SoftProofs.exp_value, top, big. destruct d.
  - intros (w & <- & ->) F L. destruct (i <? whole (width c) n)%nat.
    + right. destruct (flt (decode w) (decode hi_w)) eqn:H.
      * rewrite exp_lane. destruct (exp_clamped w) as (Y1 & _ & Y2 & _). destruct (clamp_ok w) as (_ & _ & C). destruct (exponent_ok w) as (_ & HE & _). destruct hi_real as (Fh & Eh). apply lt_eq in H; auto. rewrite Eh in H.
        rewrite C in * by (auto; lra). split; [exact Y1|]. assert (X : (-126 <= exponent w)%Z). { apply Rabs_le_inv in HE. assert (-127 < exponent w)%Z; [|lia]. apply lt_IZR. lra. }
        specialize (Y2 X). assert (B : 2 ^ 127 <= exp (real (decode w))) by (apply exp_high; rewrite INR_IZR_INZ; cbn [Z.of_nat Pos.of_succ_nat Pos.succ]; lra). cbn [pow] in B. change (2 * (2 * 2 ^ 125) <= exp (real (decode w))) in B. change (2 * 2 ^ 125 <= real (decode (exp_avx_w w))). set (q := 2 ^ 125) in *. clearbody q. apply Rabs_le_inv in Y2. unfold eps in Y2. lra.
      * rewrite (exp_saturates c w H). destruct (lit_eq F32 11863204 104 (11863204 * bpow radix2 104) eq_refl) as (A & B); [cbn; lia..|]. split; [exact A|]. rewrite B, pow2. change (Z.of_nat 126) with (22 + 104)%Z. rewrite bpow_plus. apply Rmult_le_compat_r; [apply bpow_ge_0|]. change (bpow radix2 22) with 4194304. lra.
    + unfold scalar. rewrite decode_encode. destruct (conv_up F32 (decode w) F) as (F1 & V1). destruct (exp64_big g (conv F32 F64 (decode w)) 126 G F1 ltac:(lia)) as [X|(X & Y)].
      * rewrite V1, INR_IZR_INZ. cbn [Z.of_nat Pos.of_succ_nat Pos.succ]. lra.
      * rewrite X. left. reflexivity.
      * apply conv_big; auto.
  - intros -> F L. apply exp64_big; auto; [lia|]. rewrite INR_IZR_INZ. cbn [Z.of_nat Pos.of_succ_nat Pos.succ]. lra.
Qed.

(** the real part: q is 1 + e rounded and p its inverse, rounded *)
Lemma sigm_real E e q p r t0 uu ht h : 0 < E -> 0 <= e -> Rabs (e - E) <= r * E + t0 -> Rabs (q - (1 + e)) <= uu * (1 + e) -> Rabs (p - / q) <= uu * / q + ht ->
  0 <= r <= / 10000 -> 0 <= t0 <= uu -> 0 <= uu <= / 10000 -> 1.01 * r + 4 * uu <= h -> Rabs (p - / (1 + E)) <= h * / (1 + E) + ht.
Proof.
  intros HE He HeE Hq Hp Hr Ht Hu Hh.
  assert (D : Rabs (q - (1 + E)) <= (1.001 * r + 2.01 * uu) * (1 + E)).
  { assert (X : Rabs (e - E) <= (r + uu) * (1 + E)) by nra. replace (q - (1 + E)) with ((q - (1 + e)) + (e - E)) by ring. eapply Rle_trans; [apply Rabs_triang|].
    assert (Y : 1 + e <= (1 + (r + uu)) * (1 + E)) by (apply Rabs_le_inv in X; lra). assert (uu * (1 + e) <= uu * ((1 + (r + uu)) * (1 + E))) by (apply Rmult_le_compat_l; lra). assert (uu * (r + uu) <= 0.001 * (r + uu)) by (apply Rmult_le_compat_r; lra). nra. }
  set (k := 1.001 * r + 2.01 * uu) in *. assert (K : 0 <= k <= 0.001) by (unfold k; lra).
  assert (Q : 0.999 * (1 + E) <= q). { apply Rabs_le_inv in D. nra. }
  assert (Pq : 0 < q) by lra. assert (Iq : 0 < / q) by (now apply Rinv_0_lt_compat). set (s := / (1 + E)). assert (S : 0 < s) by (apply Rinv_0_lt_compat; lra).
  assert (Is : / q <= 1.002 * s). { unfold s. replace 1.002 with (/ (/ 1.002)) by lra. rewrite <- Rinv_mult. apply Rinv_le_contravar; lra. }
  assert (X : Rabs (/ q - s) <= 1.002 * k * s).
  { replace (/ q - s) with (- (q - (1 + E)) * s * / q) by (unfold s; field; lra). rewrite !Rabs_mult, Rabs_Ropp, (Rabs_right s), (Rabs_right (/ q)) by lra.
    apply Rle_trans with (k * (1 + E) * s * (1.002 * s)); [apply Rmult_le_compat; [apply Rmult_le_pos; [apply Rabs_pos|lra]|lra|apply Rmult_le_compat_r; lra|exact Is]|]. right. unfold s. field. lra. }
  replace (p - s) with ((p - / q) + (/ q - s)) by ring. eapply Rle_trans; [apply Rabs_triang|]. assert (uu * / q <= uu * (1.002 * s)) by (apply Rmult_le_compat_l; lra).
  assert (uu * 1.002 + 1.002 * k <= h) by (unfold k; lra). nra.
Qed.
Lemma inverse_near d (q : val d) : finite q -> 1 <= real q -> finite (fdiv fone q) /\ 0 <= real (fdiv fone q) <= 1 /\ Rabs (real (fdiv fone q) - / real q) <= u d * / real q + half_tiny d.
Proof.
  intros F P. destruct (one_eq d) as (Fo & Vo). assert (I : 0 < / real q <= 1). { split; [apply Rinv_0_lt_compat; lra|]. rewrite <- Rinv_1. apply Rinv_le_contravar; lra. }
  destruct (div_in d fone q 0 1 Fo ltac:(lra) (rep_0 d) (rep_1 d)) as (A & B & V); [unfold Rdiv; rewrite Vo, Rmult_1_l; lra|]. split; [exact A|]. split; [exact B|].
  unfold Rdiv in V. rewrite Vo, Rmult_1_l in V. pose proof (round_error d (/ real q)) as E. rewrite <- V, (Rabs_right (/ real q)) in E by lra. exact E.
Qed.
Lemma sigm_consts d : 0 <= rho d <= / 10000 /\ 0 <= tau0 d <= u d /\ 0 <= u d <= / 10000 /\ 1.01 * rho d + 4 * u d <= sigm_rel d /\ half_tiny d <= sigm_abs d /\ / 2 ^ big d <= sigm_abs d.
Proof.
  assert (Q : / 2 ^ 14 <= / 10000) by (cbn; lra).
  unfold rho, tau0, u, sigm_rel, half_tiny, sigm_abs, big. destruct d.
  - split; [split; [left; apply inv_pos|eapply Rle_trans; [|exact Q]; apply inv_le; lia]|]. split; [split; [left; apply inv_pos|apply inv_le; lia]|]. split; [split; [left; apply inv_pos|eapply Rle_trans; [|exact Q]; apply inv_le; lia]|].
    split; [|split; apply inv_le; lia]. cbn. lra.
  - split; [split; [left; apply inv_pos|eapply Rle_trans; [|exact Q]; apply inv_le; lia]|]. split; [split; [left; apply inv_pos|apply inv_le; lia]|]. split; [split; [left; apply inv_pos|eapply Rle_trans; [|exact Q]; apply inv_le; lia]|].
    split; [|split; apply inv_le; lia]. assert (Z1 : / 2 ^ 50 = / 2 ^ 48 * / 2 ^ 2) by (rewrite <- inv_split; reflexivity). assert (Z2 : / 2 ^ 53 = / 2 ^ 48 * / 2 ^ 5) by (rewrite <- inv_split; reflexivity). rewrite Z1, Z2. clear Z1 Z2. pose proof (inv_pos 48). set (z := / 2 ^ 48) in *. clearbody z. replace (/ 2 ^ 2) with (/ 4) by (cbn; lra). replace (/ 2 ^ 5) with (/ 32) by (cbn; lra). lra.
Qed.
Lemma minus_one d : finite (conv F64 d (lit (-1) 0)) /\ real (conv F64 d (lit (-1) 0)) = -1.
Proof.
  destruct (lit_eq F64 (-1) 0 (-1)) as (A & B); [cbn; lra|cbn; lia..|].
  destruct (conv_in F64 d (lit (-1) 0) (-1) (-1) A (rep_int d (-1) eq_refl) (rep_int d (-1) eq_refl)) as (C & D & _); [lra|]. split; [exact C|lra].
Qed.
Lemma sigm_elem g d c i n (x e : val d) : go_math g -> finite x -> SoftProofs.exp_value g d c i n (fmul x (conv F64 d (lit (-1) 0))) e ->
  let p := fdiv fone (fadd fone e) in finite p /\ 0 <= real p <= 1 /\ Rabs (real p - sigmoid_of x) <= sigm_rel d * sigmoid_of x + sigm_abs d.
Proof.
  intros G Fx E p. destruct (minus_one d) as (Fk & Vk). pose proof (rep_opp d _ (rep_real d x Fx)) as R.
  destruct (mul_in d x (conv F64 d (lit (-1) 0)) (- real x) (- real x) Fx Fk R R) as (Ft & Vt & _); [rewrite Vk; lra|].
  set (t := fmul x (conv F64 d (lit (-1) 0))) in *. assert (Vt' : real t = - real x) by lra. unfold sigmoid_of. rewrite <- Vt'. clearbody t. clear Vt Vt' R Fk Vk Fx x.
  pose proof (exp_pos (real t)) as EP. destruct (sigm_consts d) as (C1 & C2 & C3 & C4 & C5 & C6). pose proof (half_tiny_pos d) as HT. destruct (one_eq d) as (Fo & Vo).
  assert (S0 : 0 < / (1 + exp (real t))) by (apply Rinv_0_lt_compat; lra).
  destruct (Rle_or_lt (real t) (top d)) as [L|L].
  - destruct (exp_mid g d c i n t e G E Ft L) as (Fe & Pe & Be). destruct (one_plus d e Fe Pe) as (Fq & Lq & _). destruct (inverse_near d _ Fq Lq) as (Fp & Bp & Ep). fold p in Fp, Bp, Ep.
    split; [exact Fp|]. split; [exact Bp|]. destruct (add_back d fone e Fq) as (_ & _ & V). pose proof (plus_error_rel d fone e) as Eq. rewrite <- V, Vo, (Rabs_right (1 + real e)) in Eq by lra.
    eapply Rle_trans; [apply (sigm_real (exp (real t)) (real e) (real (fadd fone e)) (real p) (rho d) (tau0 d) (u d) (half_tiny d) (sigm_rel d)); auto|]. lra.
  - assert (B2 : 0 < / 2 ^ big d) by apply inv_pos.
    assert (Sg : / (1 + exp (real t)) <= / 2 ^ big d).
    { apply Rinv_le_contravar; [apply pow_lt; lra|]. apply Rle_trans with (exp (real t)); [|lra]. apply exp_high. unfold big, top in *. destruct d; rewrite INR_IZR_INZ; cbn [Z.of_nat Pos.of_succ_nat Pos.succ]; lra. }
    assert (Rl : 0 <= sigm_rel d) by (destruct C1, C3; lra).
    assert (K : finite p /\ 0 <= real p <= / 2 ^ big d).
    { destruct (exp_big g d c i n t e G E Ft L) as [->|(Fe & Be)].
      - unfold p. replace (fadd fone (NumSpec.infinity : val d)) with (NumSpec.infinity : val d) by (destruct d; reflexivity). replace (fdiv fone (NumSpec.infinity : val d)) with (B754_zero false : val d) by (destruct d; reflexivity). split; [reflexivity|]. unfold real. cbn [B2R]. lra.
      - assert (Pe : 0 <= real e) by (pose proof (pow_lt 2 (big d) ltac:(lra)); lra). destruct (one_plus d e Fe Pe) as (Fq & Lq & Lq').
        assert (R : rep d (/ 2 ^ big d)) by (rewrite pow2, <- bpow_opp; apply rep_pow; destruct d; cbn; lia).
        assert (Pq : 0 < / real (fadd fone e)) by (apply Rinv_0_lt_compat; lra).
        destruct (div_in d fone (fadd fone e) 0 (/ 2 ^ big d) Fo ltac:(lra) (rep_0 d) R) as (A & B & _); [|split; [exact A|exact B]]. unfold Rdiv. rewrite Vo, Rmult_1_l. split; [lra|]. apply Rinv_le_contravar; [apply pow_lt; lra|lra]. }
    destruct K as (Fp & Bp). split; [exact Fp|]. assert (/ 2 ^ big d <= 1). { rewrite <- Rinv_1. apply Rinv_le_contravar; [lra|]. apply pow_R1_Rle. lra. } split; [lra|].
    assert (0 <= sigm_rel d * / (1 + exp (real t))) by (apply Rmult_le_pos; lra). apply Rabs_le. lra.
Qed.
Theorem sigmoid_values g d c (l es : list (val d)) : go_math g -> Forall finite l -> exps g d c (map (fun w => fmul w (conv F64 d (lit (-1) 0))) l) es ->
  let out := map (fun e => fdiv fone (fadd fone e)) es in length out = length l /\
  Forall2 (fun x p => finite p /\ 0 <= real p <= 1 /\ Rabs (real p - sigmoid_of x) <= sigm_rel d * sigmoid_of x + sigm_abs d) l out.
Proof.
  intros G Fl (L & H) out. rewrite map_length in *. unfold out. split; [rewrite map_length; exact L|]. clear out. revert H. generalize (length l) at 1. intros n.
  assert (K : forall k l es, length es = length l -> Forall finite l -> (forall i t e, nth_error (map (fun w => fmul w (conv F64 d (lit (-1) 0))) l) i = Some t -> nth_error es i = Some e -> SoftProofs.exp_value g d c (k + i) n t e) ->
    Forall2 (fun x p => finite p /\ 0 <= real p <= 1 /\ Rabs (real p - sigmoid_of x) <= sigm_rel d * sigmoid_of x + sigm_abs d) l (map (fun e => fdiv fone (fadd fone e)) es)).
  { clear l es Fl L. intros k l. revert k. induction l as [|x l IH]; intros k [|e es] L Fl H; cbn [length] in L; try discriminate; [constructor|]. inversion Fl; subst. cbn [map]. constructor.
    - apply (sigm_elem g d c (k + 0) n x e G); [assumption|]. now apply H.
    - apply (IH (S k)); auto. intros i t e' Ht He. replace (S k + i)%nat with (k + S i)%nat by lia. now apply H. }
  intros H. apply (K 0%nat); auto.
Qed.
