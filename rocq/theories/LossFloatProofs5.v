(** * Cross entropy in floating point: accuracy of the gradient *)
From Coq Require Import ZArith Bool Lia List Arith Reals Lra Psatz Permutation.
From Flocq Require Import Core BinarySingleNaN Relative.
From Verif Require Import DenseModel ArithModel AsmModel AsmCode AsmCalls AsmSpec FloatModel FloatSpec FloatProofs NumModel NumSpec NumLemmas NumProofs NumProofs2 NumProofs4 AsmFloatSpec AsmFloat AsmFloat2 SoftModel SoftSpec SoftProofs SoftFloat SoftFloat2 OptFloatNum NormFloatModel NormFloatNum NormFloatBack NormFloatBack5 LossFloatModel LossFloatSpec LossFloatProofs LossFloatProofs2 LossFloatProofs3 LossFloatProofs4.
Import ListNotations.
Local Open Scope list_scope.
Local Open Scope R_scope.

Lemma Forall2_map_r {A B} (P : A -> B -> Prop) (f : A -> B) l : (forall a, In a l -> P a (f a)) -> Forall2 P l (map f l).
Proof. induction l as [|a l IH]; intros H; constructor; [apply H; now left|apply IH; intros; apply H; now right]. Qed.
Lemma Forall2_nth {A B} (P : A -> B -> Prop) l l' i a b : Forall2 P l l' -> (i < length l)%nat -> P (nth i l a) (nth i l' b).
Proof. intros H. revert i. induction H; intros i Hi; cbn in Hi; [lia|]. destruct i; [assumption|]. apply IHForall2. lia. Qed.

(** the final estimate, in the reals: q near g * p, the gradient r through the maximum near 0 *)
Lemma grad_real U h n t ht gm g E S0 e s q r a v dl : 0 < U <= h / 128 -> 0 <= h <= / 1000 -> 0 <= n * U <= / 8 -> 0 <= gm <= 8 / 7 * (n * U) -> 0 <= t <= h -> 0 <= ht -> 
  1 <= S0 -> 1 <= s -> 0 <= E <= S0 -> 0 <= e <= s -> Rabs (e - E) <= h * E + t -> Rabs (s - S0) <= (9 / 7 * h + 8 / 7 * (n * U)) * S0 -> 9 / 7 * h + 8 / 7 * (n * U) <= 0.15 ->
  Rabs (q - e * (g / s)) <= 8 * U * (e * Rabs (g / s)) + 4 * ht -> Rabs r <= 1.001 * (Rabs g * (2.37 * gm + 9.4 * U) + 5 * (n * ht)) -> 1 <= n ->
  a = - g * dl -> dl = 0 \/ dl = 1 -> Rabs (v - (a + q + r)) <= U * (2.5 * (Rabs a + Rabs q + Rabs r)) ->
  Rabs (v - g * (E / S0 - dl)) <= 3 * (4 * h + 2 * (n * U)) * Rabs g + 10 * (n * ht).
Proof.
  intros HU Hh Hn Hg Ht Hht HS Hs HE He H1 H2 H3 Hq Hr Hn1 Ha Hd Hv. pose proof (Rabs_pos g) as Pg. assert (I : 0 < / s) by (apply Rinv_0_lt_compat; lra).
  pose proof (prob_real h t (9 / 7 * h + 8 / 7 * (n * U)) E S0 e s Hh ltac:(lra) ltac:(lra) HS Hs HE H1 H2) as P.
  assert (A : e * Rabs (g / s) = e / s * Rabs g) by (unfold Rdiv; rewrite Rabs_mult, (Rabs_right (/ s)) by lra; ring). rewrite A in Hq. assert (p1 : 0 <= e / s <= 1).
  { unfold Rdiv. split; [apply Rmult_le_pos; lra|]. apply Rmult_le_reg_r with s; [lra|]. rewrite Rmult_assoc, Rinv_l by lra. lra. }
  assert (Bq : e / s * Rabs g <= Rabs g) by (rewrite <- (Rmult_1_l (Rabs g)) at 2; apply Rmult_le_compat_r; lra). assert (Bq0 : 0 <= e / s * Rabs g) by (apply Rmult_le_pos; lra).
  assert (Hq' : Rabs (q - g * (e / s)) <= 8 * (U * Rabs g) + 4 * ht). { replace (g * (e / s)) with (e * (g / s)) by (unfold Rdiv; ring). eapply Rle_trans; [exact Hq|]. assert (U * (e / s * Rabs g) <= U * Rabs g) by (apply Rmult_le_compat_l; lra). lra. }
  assert (UG : 0 <= U * Rabs g) by (apply Rmult_le_pos; lra). assert (hg : 0 <= h * Rabs g) by (apply Rmult_le_pos; lra). assert (UG' : U * Rabs g <= / 128 * (h * Rabs g)) by (replace (/ 128 * (h * Rabs g)) with (h / 128 * Rabs g) by field; apply Rmult_le_compat_r; lra). assert (UGs : U * Rabs g <= / 128000 * Rabs g) by (apply Rmult_le_compat_r; lra).
  assert (NG : 0 <= n * U * Rabs g) by (apply Rmult_le_pos; lra). assert (GG : gm * Rabs g <= 8 / 7 * (n * U * Rabs g)) by (replace (8 / 7 * (n * U * Rabs g)) with (8 / 7 * (n * U) * Rabs g) by ring; apply Rmult_le_compat_r; lra).
  assert (NGs : n * U * Rabs g <= / 8 * Rabs g) by (apply Rmult_le_compat_r; lra). assert (nh : ht <= n * ht) by (rewrite <- (Rmult_1_l ht) at 1; apply Rmult_le_compat_r; lra).
  assert (R' : Rabs r <= 2.72 * (n * U * Rabs g) + 9.5 * (U * Rabs g) + 5.005 * (n * ht)) by (replace (Rabs g * (2.37 * gm + 9.4 * U)) with (2.37 * (gm * Rabs g) + 9.4 * (U * Rabs g)) in Hr by ring; lra).
  assert (Aa : Rabs a <= Rabs g). { rewrite Ha, Rabs_mult, Rabs_Ropp. destruct Hd as [-> | ->]; [rewrite Rabs_R0|rewrite Rabs_R1]; lra. }
  assert (Q' : Rabs q <= 1.001 * Rabs g + 4 * ht). { pose proof (Rabs_triang (q - g * (e / s)) (g * (e / s))) as T. replace (q - g * (e / s) + g * (e / s)) with q in T by ring. rewrite (Rabs_mult g), (Rabs_right (e / s)) in T by lra. rewrite (Rmult_comm (Rabs g)) in T. lra. }
  assert (Z : Rabs a + Rabs q + Rabs r <= 2.35 * Rabs g + 9.005 * (n * ht)) by lra.
  assert (UZ : U * (2.5 * (Rabs a + Rabs q + Rabs r)) <= U * (2.5 * (2.35 * Rabs g + 9.005 * (n * ht)))) by (apply Rmult_le_compat_l; lra).
  assert (Unh : U * (n * ht) <= / 128000 * (n * ht)) by (apply Rmult_le_compat_r; lra).
  assert (Pg' : Rabs (g * (e / s) - g * (E / S0)) <= Rabs g * (1.18 * (h + (9 / 7 * h + 8 / 7 * (n * U))) + t)) by (replace (g * (e / s) - g * (E / S0)) with (g * (e / s - E / S0)) by ring; rewrite Rabs_mult; apply Rmult_le_compat_l; lra).
  assert (tg : Rabs g * t <= h * Rabs g) by (rewrite Rmult_comm; apply Rmult_le_compat_r; lra).
  replace (Rabs g * (1.18 * (h + (9 / 7 * h + 8 / 7 * (n * U))) + t)) with (1.18 * (16 / 7) * (h * Rabs g) + 1.18 * 8 / 7 * (n * U * Rabs g) + Rabs g * t) in Pg' by field.
  replace (v - g * (E / S0 - dl)) with ((v - (a + q + r)) + (q - g * (e / s)) + (g * (e / s) - g * (E / S0)) + r) by (rewrite Ha; ring).
  eapply Rle_trans; [apply Rabs_triang|]. eapply Rle_trans; [apply Rplus_le_compat_r, Rabs_triang|]. eapply Rle_trans; [apply Rplus_le_compat_r, Rplus_le_compat_r, Rabs_triang|].
  replace (3 * (4 * h + 2 * (n * U)) * Rabs g) with (12 * (h * Rabs g) + 6 * (n * U * Rabs g)) by ring. lra.
Qed.

Section Loss.
Variable g : libm.
Hypothesis G : go_math g.
Variable d : dtype.
Variable c : cpu.
Variable sum : nat -> list (val d) -> val d.
Variable vexp : list (val d) -> list (val d).
Hypothesis Hsum : forall k l, sum_of (floats d) (sum k l) l.
Hypothesis Hexp : forall l, exps g d c l (vexp l).
Variable x : list (val d).
Hypothesis F : Forall finite x.
Variable k : nat.
Hypothesis K : (k < length x)%nat.
Notation n := (INR (length x)).
Hypothesis Hn : n * u d <= / 8.
Notation mx := (top d x).
Notation es := (powers d vexp x).
Variable gy : val d.
Hypothesis Fg : finite gy.
Hypothesis Sg : Rabs (real gy) <= safe d.
Lemma back_value first : exists gx, cross_entropy_back d sum vexp first x k gy = Some gx /\ length gx = length x /\
  forall i, (i < length x)%nat -> finite (nth i gx fzero) /\ Rabs (real (nth i gx fzero) - real gy * cross_entropy_slope x k i) <= 3 * soft_rel d (length x) * Rabs (real gy) + soft_abs d.
Proof.
  pose proof (not_empty d x k K) as N. destruct (sums g G d c sum vexp Hsum Hexp x F N Hn 0) as (Fs & Bs & Es). fold (partition d sum vexp x) in Fs, Bs, Es. set (s := partition d sum vexp x) in *.
  destruct (inverse_rel d s Fs Bs) as (r0 & Er & Fr & Br & Rr). unfold cross_entropy_back. fold s. rewrite Er. clear Er. set (r := conv F64 d r0) in *.
  destruct (safe_ok d (safe d) ltac:(lra)) as (R4 & C1 & _). pose proof (u_small d) as (U1 & U2). assert (Us : / 2 ^ 24 <= / 1000) by (apply inv_small; lia). pose proof (tiny_small d) as (H1 & H2). assert (Hs : / 2 ^ 150 <= / 1000) by (apply inv_small; lia).
  assert (PS : 20 <= safe d) by lra. pose proof (Rabs_pos (real gy)) as Pg.
  assert (M1 : Rabs (real r * real gy) <= safe d) by (rewrite Rabs_mult; rewrite <- (Rmult_1_l (safe d)); apply Rmult_le_compat; lra).
  assert (M1' : Rabs (real r * real gy) <= 4 * safe d) by (eapply Rle_trans; [exact M1|]; lra). destruct (@mul_op d r gy (4 * safe d) Fr Fg R4 M1') as (Ft & _ & Et). unfold near_to in Et. assert (Egs : reduce_sum_back d (fmul r gy) = fmul r gy) by (unfold reduce_sum_back; apply FloatProofs.conv_back; destruct d; exact I). rewrite Egs. set (t := fmul r gy) in *.
  assert (Bt : Rabs (real t) <= 1.01 * safe d). { pose proof (Rabs_triang (real t - real r * real gy) (real r * real gy)) as T. replace (real t - real r * real gy + real r * real gy) with (real t) in T by ring. assert (u d * Rabs (real r * real gy) <= / 1000 * safe d) by (apply Rmult_le_compat; lra || apply Rabs_pos). lra. }
  set (w := real gy / real s). set (qs := map (fun e => fmul e t) es).
  destruct (powers_near g G d c vexp Hexp x F N) as (Le & Ne). pose proof (powers_range g G d c vexp Hexp x F N) as B2. pose proof (powers_nonneg g G d c vexp Hexp x F N) as Pe. rewrite Forall_forall in B2.
  assert (Q : forall e, In e es -> finite (fmul e t) /\ Rabs (real (fmul e t) - real e * w) <= 8 * u d * (real e * Rabs w) + 4 * half_tiny d).
  { intros e Ie. destruct (B2 e Ie) as (Fe & Be). assert (M2 : Rabs (real e * real t) <= 4 * safe d) by (rewrite Rabs_mult, (Rabs_right (real e)) by lra; apply Rle_trans with (2 * (1.01 * safe d)); [apply Rmult_le_compat; try lra; apply Rabs_pos|lra]).
    destruct (@mul_op d e t (4 * safe d) Fe Ft R4 M2) as (Fq & _ & Eq). split; [exact Fq|]. unfold near_to in Eq. apply (q_real (u d) (half_tiny d) (real r) (real t) (real (fmul e t)) (real s) (real gy) (real e)); auto; lra. }
  assert (Q2 : Forall2 (fun e q => 0 <= real e /\ Rabs (real q - real e * w) <= 8 * u d * (real e * Rabs w) + 4 * half_tiny d) es qs) by (apply Forall2_map_r; intros e Ie; split; [apply (B2 e Ie)|apply (Q e Ie)]).
  destruct (products d w (8 * u d) (4 * half_tiny d) es qs Q2) as (P1 & P2). rewrite Le in P1, P2.
  assert (Fq : Forall finite qs) by (unfold qs; apply Forall_forall; intros v Iv; apply in_map_iff in Iv; destruct Iv as (e & <- & Ie); apply (Q e Ie)).
  destruct (minus_total d qs Fq) as (Fm & T1 & T2). unfold sub_scalar_back2. fold qs. change (map (fun g0 : val d => fmul g0 (conv F64 d (lit (-1) 0))) qs) with (map (minus d) qs). set (ms := map (minus d) qs) in *.
  assert (Lm : length ms = length x) by (unfold ms, qs; rewrite !map_length; exact Le). destruct (gamma_ok d x Hn) as ((G0 & G1) & G2). pose proof (gamma_small d (length x) Hn) as Gs. pose proof (gamma_pos d (length x)) as Gp.
  pose proof (total_abs_pos d ms) as Tp. pose proof (count_tiny d (length x) Hn) as Ct. destruct (eta_tau d) as (Eh & Eta & Eta'). pose proof (pos_INR (length x)) as Pn. assert (N1 : 1 <= n) by (apply (le_INR 1); lia).
  assert (T0 : 0 < total es). { pose proof (total_abs_pos d es) as X. rewrite total_abs_nonneg in X by exact Pe. destruct X as [X|X]; [exact X|]. exfalso. rewrite <- X in Es. rewrite Rmult_0_r, Rminus_0_r in Es. rewrite Rabs_right in Es by lra. lra. }
  assert (TS : total es / real s <= 7 / 6).
  { unfold Rdiv. apply Rmult_le_reg_r with (real s); [lra|]. rewrite Rmult_assoc, Rinv_l by lra. apply Rabs_le_inv in Es. assert (gamma d (length x - 1) * total es <= / 7 * total es) by (apply Rmult_le_compat_r; lra). lra. }
  assert (V : total es * Rabs w = total es / real s * Rabs (real gy)) by (unfold w, Rdiv; rewrite Rabs_mult, (Rabs_right (/ real s)) by (left; apply Rinv_0_lt_compat; lra); ring).
  assert (V1 : total es * Rabs w <= 7 / 6 * Rabs (real gy)) by (rewrite V; apply Rmult_le_compat_r; lra). assert (V0 : 0 <= total es * Rabs w) by (apply Rmult_le_pos; [lra|apply Rabs_pos]).
  assert (Sz : total_abs ms <= 2 * safe d). { rewrite T2. eapply Rle_trans; [exact P2|]. assert (u d * (total es * Rabs w) <= / 1000 * (total es * Rabs w)) by (apply Rmult_le_compat_r; lra). replace (n * (4 * half_tiny d)) with (4 * (n * half_tiny d)) by ring. lra. }
  assert (Sz2 : (1 + gamma d (length ms)) * total_abs ms <= largest d) by (eapply Rle_trans; [|apply safe_largest]; rewrite Lm; apply Rle_trans with ((1 + / 7) * (2 * safe d)); [apply Rmult_le_compat; lra|lra]).
  assert (Fsum : finite (sum 1%nat ms)) by (apply (sum_finite d (sum 1%nat ms) ms (Hsum 1%nat ms) Fm); exact Sz2).
  assert (Er : Rabs (real (sum 1%nat ms) - total ms) <= gamma d (length ms - 1) * total_abs ms) by (destruct (sum_error d (sum 1%nat ms) ms (Hsum 1%nat ms) Fsum) as (_ & Er); exact Er).
  rewrite Lm, T1, T2 in Er. replace (real (sum 1%nat ms) - - total qs) with (real (sum 1%nat ms) + total qs) in Er by ring.
  pose proof (rest_real (u d) n (gamma d (length x - 1)) (half_tiny d) (total es) (real s) (real gy) (real (sum 1%nat ms)) (total qs) (total_abs qs) w ltac:(lra) ltac:(lra) Pn ltac:(lra) ltac:(lra) T0 Es eq_refl P1 P2 Er) as Re.
  assert (Gg : Rabs (real gy) * (2.37 * gamma d (length x - 1) + 9.4 * u d) <= Rabs (real gy) * 0.35) by (apply Rmult_le_compat_l; lra).
  destruct (@add_op d gy (sum 1%nat ms) (4 * safe d) Fg Fsum R4 ltac:(lra)) as (Fr2 & _ & E2). set (gm := fadd gy (sum 1%nat ms)) in *.
  assert (Bgm : Rabs (real gm) <= 1.001 * (Rabs (real gy) * (2.37 * gamma d (length x - 1) + 9.4 * u d) + 5 * (n * half_tiny d))).
  { pose proof (Rabs_triang (real gm - (real gy + real (sum 1%nat ms))) (real gy + real (sum 1%nat ms))) as T. replace (real gm - (real gy + real (sum 1%nat ms)) + (real gy + real (sum 1%nat ms))) with (real gm) in T by ring. assert (u d * Rabs (real gy + real (sum 1%nat ms)) <= / 1000 * Rabs (real gy + real (sum 1%nat ms))) by (apply Rmult_le_compat_r; [apply Rabs_pos|lra]). lra. }
  destruct (neg_back_eq d gy Fg) as (Fnb & Vnb). eexists. split; [reflexivity|]. assert (Lq : length qs = length x) by (unfold qs; rewrite map_length; exact Le).
  assert (L1 : length (zip fadd (spot d (length x) k (neg_back d gy)) qs) = length x) by (rewrite zip_length; rewrite spot_length; auto).
  assert (L2 : length (zip fadd qs (spot d (length x) (arg d x) gm)) = length x) by (rewrite zip_length; [exact Lq|rewrite spot_length; exact Lq]).
  split; [destruct first; (rewrite zip_length; [assumption|rewrite spot_length; assumption])|]. intros i Hi. set (a := if (i =? k)%nat then neg_back d gy else fzero). set (b := if (i =? arg d x)%nat then gm else fzero). set (q := nth i qs fzero).
  assert (Ev : exists v, v = nth i (if first then zip fadd (zip fadd (spot d (length x) k (neg_back d gy)) qs) (spot d (length x) (arg d x) gm) else zip fadd (zip fadd qs (spot d (length x) (arg d x) gm)) (spot d (length x) k (neg_back d gy))) fzero /\ (v = fadd (fadd a q) b \/ v = fadd (fadd q b) a)).
  { eexists. split; [reflexivity|]. destruct first; [left|right]; rewrite !nth_zip, !nth_spot by (rewrite ?L1, ?L2, ?spot_length, ?Lq; exact Hi); reflexivity. }
  destruct Ev as (v & Ev & Cv). rewrite <- Ev. clear Ev.
  assert (Ie : In (nth i es fzero) es) by (apply nth_In; rewrite Le; exact Hi). assert (Eq : q = fmul (nth i es fzero) t) by (unfold q, qs; rewrite (nth_indep _ fzero (fmul fzero t)) by (rewrite map_length, Le; exact Hi); apply (map_nth (fun e => fmul e t))).
  destruct (Q _ Ie) as (Fqi & Eqi). rewrite <- Eq in Fqi, Eqi. set (e := nth i es fzero) in *. destruct (B2 e Ie) as (Fe & Be).
  assert (es_le : real e <= real s). { destruct (sum_above d s es (Hsum 0%nat es) Fs Pe) as (_ & As). rewrite Forall_forall in As. exact (As e Ie). }
  assert (Z0 : finite (fzero : val d) /\ real (fzero : val d) = 0) by (split; reflexivity). destruct Z0 as (Fz & Vz).
  assert (Fa : finite a /\ real a = - real gy * (if (i =? k)%nat then 1 else 0)) by (unfold a; destruct (i =? k)%nat; split; try assumption; lra). destruct Fa as (Fa & Va).
  assert (Fb : finite b /\ Rabs (real b) <= 1.001 * (Rabs (real gy) * (2.37 * gamma d (length x - 1) + 9.4 * u d) + 5 * (n * half_tiny d))).
  { unfold b. destruct (i =? arg d x)%nat; split; try assumption. rewrite Vz, Rabs_R0. eapply Rle_trans; [apply Rabs_pos|exact Bgm]. }
  destruct Fb as (Fb & Bb).
  assert (Ba : Rabs (real a) <= safe d) by (rewrite Va, Rabs_mult, Rabs_Ropp; destruct (i =? k)%nat; [rewrite Rabs_R1|rewrite Rabs_R0]; lra).
  assert (Bq : Rabs (real q) <= 1.5 * safe d).
  { pose proof (Rabs_triang (real q - real e * w) (real e * w)) as T. replace (real q - real e * w + real e * w) with (real q) in T by ring. rewrite (Rabs_mult (real e)), (Rabs_right (real e)) in T by lra.
    assert (We : real e * Rabs w <= Rabs (real gy)). { unfold w, Rdiv. rewrite Rabs_mult, (Rabs_right (/ real s)) by (left; apply Rinv_0_lt_compat; lra). replace (real e * (Rabs (real gy) * / real s)) with (real e * / real s * Rabs (real gy)) by ring. rewrite <- (Rmult_1_l (Rabs (real gy))) at 2. apply Rmult_le_compat_r; [lra|]. apply Rmult_le_reg_r with (real s); [lra|]. rewrite Rmult_assoc, Rinv_l by lra. lra. }
    assert (Wp : 0 <= real e * Rabs w) by (apply Rmult_le_pos; [lra|apply Rabs_pos]). assert (u d * (real e * Rabs w) <= / 1000 * (real e * Rabs w)) by (apply Rmult_le_compat_r; lra). lra. }
  destruct (three d a b q (safe d) Fa Fb Fqi R4 Ba ltac:(lra) Bq ltac:(lra) v Cv) as (Fv & Ev). split; [exact Fv|].
  assert (Ix : In (nth i x fzero) x) by (now apply nth_In). unfold cross_entropy_slope. rewrite (softmax_pos d x F k K _ Ix). rewrite soft_rel_eq, soft_abs_eq.
  destruct (sum_near_exact g G d c sum vexp Hsum Hexp x F N Hn 0) as (En & Esr). change (sum 0%nat es) with s in En. unfold sum_rel in En, Esr.
  pose proof (Forall2_nth _ x es i fzero fzero Ne Hi) as (_ & _ & Ei). fold e in Ei. set (E := exp (real (nth i x fzero) - real mx)) in *.
  assert (HE : 0 <= E <= exact mx x) by (split; [left; apply exp_pos|apply (exact_in d mx (nth i x fzero) x Ix)]). pose proof (u_eta d) as Ue. pose proof (exact_ge d x F N) as Xg.
  assert (NU : 0 <= n * u d) by (apply Rmult_le_pos; lra). assert (TE : tau d <= eta d) by (pose proof (count_tau d (length x) Hn) as X; assert (1 * tau d <= n * tau d) by (apply Rmult_le_compat_r; lra); lra).
  eapply Rle_trans; [apply (grad_real (u d) (eta d) n (tau d) (half_tiny d) (gamma d (length x - 1)) (real gy) E (exact mx x) (real e) (real s) (real q) (real b) (real a) (real v)); auto; try lra|].
  - destruct (i =? k)%nat; auto.
  - lra.
Qed.
End Loss.
