(** * Properties C69 and C70: normally distributed numbers *)
From Coquelicot Require Import Coquelicot.
From Coq Require Import List ZArith Reals Lia Lra Bool.
From Flocq Require Import Core BinarySingleNaN.
From Verif Require Import RandModel RandSpec RandPeriod FloatModel FloatSpec NumModel NumSpec NumLemmas AsmFloatSpec AsmFloat OptFloatNum.
From Verif Require Import GaussTables GaussModel GaussSpec GaussTab GaussReal GaussProofs GaussFloat GaussAttempt GaussTail GaussRange GaussWeight GaussCount.
Import ListNotations.
Open Scope R_scope.

(** ** C69: a call ends without a panic and returns a number within 14.25, unless the source delivers two words in a row
    whose lower 53 bits are zero *)
Theorem C69_no_panic : forall m ws, go_math m -> Forall is_word ws -> norm_float64 m ws <> Panics.
Proof. intros m ws M A. unfold norm_float64. destruct (norm_invariant m M ws [] Start A I) as [->|(v & rest & -> & _)]; discriminate. Qed.
Print Assumptions C69_no_panic.

Theorem C69_range_partial : forall m ws v rest, go_math m -> Forall is_word ws -> norm_float64 m ws = Got v rest ->
  (finite v /\ Rabs (real v) <= 14.25) \/
  ((v = infinity \/ v = minus_infinity) /\ exists pre a b, ws = pre ++ a :: b :: rest /\ zero_word a /\ zero_word b).
Proof. intros m ws v rest M A E. destruct (norm_invariant m M ws [] Start A I) as [X|(v' & rest' & X & O)]; unfold norm_float64 in E; rewrite E in X; [discriminate|]. injection X as <- <-. exact O. Qed.
Print Assumptions C69_range_partial.

(** The call uses up a non-empty part of the source, and what comes after it has no influence. *)
Theorem C69_consumes : forall m ws v rest, norm_float64 m ws = Got v rest ->
  exists used, ws = used ++ rest /\ used <> [] /\ forall more, norm_float64 m (used ++ more) = Got v more.
Proof. intros m ws v rest. apply norm_consumes. Qed.
Print Assumptions C69_consumes.

(** With the generator of the package it ends, from every state. *)
Theorem C69_ends : forall m s, go_math m -> valid_state s ->
  exists n v rest, (Z.of_nat n <= 2 ^ 128 + 2)%Z /\ norm_float64 m (words n s) = Got v rest.
Proof. intros m s M V. destruct (always_ends m M s V) as (n & v & rest & Hn & E). exists (n + 3)%nat, v, rest. split; [lia|exact E]. Qed.
Print Assumptions C69_ends.
(** It ends at the latest with three words in a row that are accepted at once and lie in the second quarter as a fraction. *)
Theorem C69_ends_soon : forall m ws a b c rest, go_math m -> Forall is_word (ws ++ [a; b; c]) ->
  Forall (fun w => fast w /\ / 4 <= unit w <= / 2) [a; b; c] -> exists v rest', norm_float64 m (ws ++ [a; b; c]) = Got v rest' /\ norm_float64 m (ws ++ [a; b; c] ++ rest) = Got v (rest' ++ rest).
Proof.
  intros m ws a b c rest M A G. apply Forall_app in A as (A & A').
  assert (Q : Forall good [a; b; c]).
  { rewrite Forall_forall in *. intros w Hw. split; [now apply A'|]. destruct (G w Hw) as (F & L & U). split; [exact F|]. unfold unit in L, U.
    pose proof (pow2_pos 53) as P. split; apply le_IZR.
    - rewrite (powZ 51 51 eq_refl). apply (Rmult_le_reg_r (/ 2 ^ 53)); [now apply Rinv_0_lt_compat|]. eapply Rle_trans; [|exact L]. right. cbn [pow]. field.
    - rewrite (powZ 52 52 eq_refl). apply (Rmult_le_reg_r (/ 2 ^ 53)); [now apply Rinv_0_lt_compat|]. eapply Rle_trans; [exact U|]. right. cbn [pow]. field. }
  inversion Q as [|? ? G1 Q']; subst. inversion Q' as [|? ? G2 Q'']; subst. inversion Q'' as [|? ? G3 _]; subst.
  pose proof (good_ends m M ws [] Start a b c [] A I G1 G2 G3) as NE.
  destruct (norm_invariant m M (ws ++ [a; b; c]) [] Start) as [X|(v & rest' & X & _)]; [now apply Forall_app|exact I|contradiction|].
  exists v, rest'. split; [exact X|]. destruct (norm_consumes _ _ _ _ _ X) as (used & E & _ & U). rewrite app_assoc, E, <- app_assoc. apply U.
Qed.
Print Assumptions C69_ends_soon.

(** The result need not be finite: whatever the seed, after some number of draws the next call returns -infinity. *)
Theorem C69_finite_refuted : forall m seed, go_math m -> is_word seed ->
  exists n, (Z.of_nat n < 2 ^ 128)%Z /\ norm_float64 m (words 3 (draws n (pcg_seed seed))) = Got minus_infinity [].
Proof.
  intros m seed M H. assert (V : valid_state (pcg_seed seed)) by (split; exact H). destruct (pcg_reaches _ _ V bad_valid) as (n & Hn & D). exists n. split; [exact Hn|].
  rewrite D. rewrite <- (app_nil_r (words 3 bad_state)). now apply bad_norm.
Qed.
Print Assumptions C69_finite_refuted.

(** ** Normal.Next *)
Lemma error_64 x : Rabs (nearest F64 x - x) <= / 2 ^ 53 * Rabs x + / 2 ^ 1075.
Proof. exact (round_error F64 x). Qed.
Theorem C69_next : forall m std mean ws v rest, finite std -> finite mean -> Rabs (real std) <= 2 ^ 960 -> Rabs (real mean) <= 2 ^ 960 ->
  norm_float64 m ws = Got v rest -> finite v -> Rabs (real v) <= 14.25 ->
  exists y, normal_next m std mean ws = Got y rest /\ finite y /\
    Rabs (real y - (real v * real std + real mean)) <= (Rabs (real v * real std) + Rabs (real mean)) / 2 ^ 51 + / 2 ^ 1073.
Proof.
  intros m std mean ws v rest Fs Fm Bs Bm E Fv Bv. unfold normal_next. rewrite E. cbn [map_draw]. exists (fadd (fmul v std) mean). split; [reflexivity|].
  assert (R4 : rep F64 (2 ^ 964)) by (apply rep_pow2; cbn; lia). assert (R5 : rep F64 (2 ^ 965)) by (apply rep_pow2; cbn; lia).
  pose proof (pow2_pos 960) as P. assert (E4 : 2 ^ 964 = 16 * 2 ^ 960) by (replace 964%nat with (4 + 960)%nat by reflexivity; rewrite pow_add; generalize (2 ^ 960); intros; cbn [pow]; ring).
  assert (E5 : 2 ^ 965 = 32 * 2 ^ 960) by (replace 965%nat with (5 + 960)%nat by reflexivity; rewrite pow_add; generalize (2 ^ 960); intros; cbn [pow]; ring).
  rewrite E4 in R4. rewrite E5 in R5. clear E4 E5. set (big := 2 ^ 960) in *. clearbody big.
  assert (B1 : Rabs (real v * real std) <= 16 * big). { rewrite Rabs_mult. apply Rle_trans with (14.25 * big); [|lra]. apply Rmult_le_compat; try apply Rabs_pos; assumption. }
  destruct (mul_in F64 v std (- (16 * big)) (16 * big) Fv Fs (rep_opp _ _ R4) R4) as (Fp & Bp & Ep); [apply rabs_le in B1; lra|].
  destruct (add_in F64 (fmul v std) mean (- (32 * big)) (32 * big) Fp Fm (rep_opp _ _ R5) R5) as (Fy & _ & Ey); [apply rabs_le in Bm; lra|].
  split; [exact Fy|]. pose proof (error_64 (real v * real std)) as R1. rewrite <- Ep in R1. pose proof (error_64 (real (fmul v std) + real mean)) as R2. rewrite <- Ey in R2.
  set (p := real (fmul v std)) in *. set (y := real (fadd (fmul v std) mean)) in *. set (q := real v * real std) in *. set (mu := real mean) in *. clearbody p y q mu. clear - R1 R2.
  replace (/ 2 ^ 1073) with (4 * / 2 ^ 1075). 2:{ replace 1075%nat with (2 + 1073)%nat by reflexivity. rewrite pow_add. pose proof (pow2_pos 1073). field. }
  assert (T : 0 < / 2 ^ 1075) by apply Rinv_0_lt_compat, pow2_pos. set (t := / 2 ^ 1075) in *. clearbody t.
  assert (Pp : Rabs p <= 2 * Rabs q + t). { replace p with (q + (p - q)) by ring. eapply Rle_trans; [apply Rabs_triang|]. pose proof (Rabs_pos q). cbn [pow] in R1. lra. }
  assert (Ps : Rabs (p + mu) <= 2 * Rabs q + t + Rabs mu) by (eapply Rle_trans; [apply Rabs_triang|]; lra).
  replace (y - (q + mu)) with ((y - (p + mu)) + (p - q)) by ring. eapply Rle_trans; [apply Rabs_triang|]. pose proof (Rabs_pos q). pose proof (Rabs_pos mu).
  set (aq := Rabs q) in *. set (am := Rabs mu) in *. set (e1 := Rabs (p - q)) in *. set (e2 := Rabs (y - (p + mu))) in *. set (ap := Rabs (p + mu)) in *. clearbody aq am e1 e2 ap. cbn [pow] in *. lra.
Qed.
Print Assumptions C69_next.
(** A standard deviation of 0 is no protection: the infinite number makes it NaN. *)
Theorem C69_next_refuted : forall m mean seed, go_math m -> finite mean -> is_word seed ->
  exists n, (Z.of_nat n < 2 ^ 128)%Z /\ normal_next m fzero mean (words 3 (draws n (pcg_seed seed))) = Got B754_nan [].
Proof.
  intros m mean seed M F H. destruct (C69_finite_refuted m seed M H) as (n & Hn & E). exists n. split; [exact Hn|]. unfold normal_next. rewrite E. cbn [map_draw]. f_equal. 
Qed.
Print Assumptions C69_next_refuted.

(** ** C70: the distribution *)
(** By the tables and in exact arithmetic, one attempt returns a number with a density proportional to the bell curve, up
    to the beginning of the tail. *)
Theorem C70_density_partial : forall x, Rabs x <= 3.4426 ->
  Rabs (attempt_density x - bell x / 0.0099125630) <= bell x / 0.0099125630 / 2 ^ 12.
Proof.
  intros x H. pose proof (attempt_density_bell x H) as A. replace area with 0.0099125630 in A; [exact A|]. unfold area. change (IZR area_num) with 99125630. change (IZR area_den) with 10000000000. lra.
Qed.
Print Assumptions C70_density_partial.
(** The tail is entered as often as its weight under the same curve demands. *)
Theorem C70_tail_weight : forall b, 10 <= b -> Rabs (RInt bell tail_start b - 0.0099125630 * tail_share) <= 0.0099125630 * tail_share / 2 ^ 12.
Proof.
  intros b H. pose proof (tail_weight b H) as A. replace area with 0.0099125630 in A; [exact A|]. unfold area. change (IZR area_num) with 99125630. change (IZR area_den) with 10000000000. lra.
Qed.
Print Assumptions C70_tail_weight.
(** Within the tail: for uniform fractions u and u', the distance -ln u / tail_start exceeds a with probability
    exp (-tail_start a), the test at the distance a holds with probability exp (-a^2 / 2), and the product of the density of
    the former with the latter is the bell curve up to a constant. *)
Theorem C70_tail_shape : forall w w' a, is_word w -> ~ zero_word w -> is_word w' -> ~ zero_word w' ->
  (a < beyond_start w <-> unit w < exp (- (tail_start * a))) /\
  (a * a <= 2 * neg_ln w' <-> unit w' <= exp (- (a * a / 2))) /\
  tail_start * exp (- (tail_start * a)) * exp (- (a * a / 2)) * bell tail_start = tail_start * bell (tail_start + a).
Proof.
  intros w w' a H Z H' Z'. pose proof (unit_pos w H Z) as (U & _). pose proof (unit_pos w' H' Z') as (U' & _). pose proof (Rinv_0_lt_compat _ (pow2_pos 53)) as P. split; [|split].
  - unfold beyond_start, neg_ln. assert (T : 0 < tail_start) by (unfold tail_start; lra). split; intros K.
    + rewrite <- (exp_ln (unit w)) by lra. apply exp_increasing. apply (Rmult_lt_compat_r tail_start) in K; [|exact T]. unfold Rdiv in K. rewrite Rmult_assoc, Rinv_l in K by lra. lra.
    + apply (Rmult_lt_reg_r tail_start); [exact T|]. unfold Rdiv. rewrite Rmult_assoc, Rinv_l by lra. apply ln_increasing in K; [|lra]. rewrite ln_exp in K. lra.
  - unfold neg_ln. split; intros K.
    + rewrite <- (exp_ln (unit w')) by lra. destruct (Req_dec (ln (unit w')) (- (a * a / 2))) as [->|N]; [lra|]. left. apply exp_increasing. lra.
    + apply Rcomplements.ln_le in K; [|lra]. rewrite ln_exp in K. lra.
  - unfold bell. rewrite !Rmult_assoc, <- !exp_plus. do 2 f_equal. field.
Qed.
Print Assumptions C70_tail_shape.

(** What the program computes: a word that is accepted at once yields its place times the width of the strip, correctly rounded. *)
Theorem C70_quick : forall m w ws, is_word w -> fast w ->
  exists x, norm_float64 m (w :: ws) = Got x ws /\ finite x /\ real x = nearest F64 (IZR (place_of w) * real (nth (strip_of w) wn fzero)) /\
    Rabs (real x) <= edge (strip_of w).
Proof.
  intros m w ws H F. exists (value w). split; [|now apply value_facts]. unfold norm_float64. rewrite start_step by assumption. unfold fast in F. apply Z.ltb_lt in F. now rewrite F.
Qed.
Print Assumptions C70_quick.
(** In a strip above the lowest, the second word is a uniform height in the strip, and the attempt succeeds below the curve
    and fails above it; within 2^-21 of the curve it may do either. *)
Theorem C70_strip : forall m w w' ws, go_math m -> is_word w -> is_word w' -> ~ fast w -> (1 <= strip_of w)%nat ->
  exists x, finite x /\ real x = nearest F64 (IZR (place_of w) * real (nth (strip_of w) wn fzero)) /\
  (norm_float64 m (w :: w' :: ws) = Got x ws \/ norm_float64 m (w :: w' :: ws) = norm_float64 m ws) /\
  let i := strip_of w in let h := level i + unit w' * (level (i - 1) - level i) in
  (h + / 2 ^ 21 <= bell (real x) -> norm_float64 m (w :: w' :: ws) = Got x ws) /\
  (bell (real x) + / 2 ^ 21 <= h -> norm_float64 m (w :: w' :: ws) = norm_float64 m ws).
Proof.
  intros m w w' ws M H H' NF Hi. destruct (value_facts w H) as (F & E & B). exists (value w). split; [exact F|]. split; [exact E|].
  pose proof (strip_lt w) as Hl. pose proof (edge_le_0 _ Hl) as Be.
  assert (S1 : norm_float64 m (w :: w' :: ws) = norm_from m (Strip (Z.of_nat (strip_of w)) (value w)) (w' :: ws)).
  { unfold norm_float64. rewrite start_step by assumption. unfold fast in NF. destruct (Z.ltb_spec (Z.abs (place_of w)) (nth (strip_of w) kn 0%Z)); [contradiction|].
    destruct (Nat.eqb_spec (strip_of w) 0); [lia|reflexivity]. }
  rewrite S1. split.
  - rewrite strip_step by (assumption || lia). destruct (flt _ _); [left|right]; reflexivity.
  - apply (strip_decides m M); [exact H'|lia|exact F|lra].
Qed.
Print Assumptions C70_strip.
(** In the tail, the attempt of two further words succeeds and fails by the rule of C70_tail_shape, up to 2^-40, and what
    it returns is tail_start plus the distance, with the sign of the place, up to 2^-40. *)
Theorem C70_tail : forall m w a b ws, go_math m -> is_word w -> is_word a -> is_word b -> ~ fast w -> strip_of w = 0%nat -> ~ zero_word a -> ~ zero_word b ->
  exists x, finite x /\
  Rabs (real x - (if (0 <? place_of w)%Z then tail_start + beyond_start a else - (tail_start + beyond_start a))) <= / 2 ^ 40 /\
  (norm_float64 m (w :: a :: b :: ws) = Got x ws \/ norm_float64 m (w :: a :: b :: ws) = norm_float64 m (w :: ws)) /\
  (beyond_start a * beyond_start a * (1 + / 2 ^ 40) <= 2 * neg_ln b -> norm_float64 m (w :: a :: b :: ws) = Got x ws) /\
  (2 * neg_ln b * (1 + / 2 ^ 40) <= beyond_start a * beyond_start a -> norm_float64 m (w :: a :: b :: ws) = norm_float64 m (w :: ws)).
Proof.
  intros m w a b ws M H Ha Hb NF Hi Za Zb. exists (tail_value (place_of w) (fbeyond m a)).
  destruct (fbeyond_close m M a Ha Za) as (Fx & _ & Vx). destruct (tail_value_eq (place_of w) _ Fx (fbeyond_small m M a Ha Za)) as (Fv & _ & Vv). split; [exact Fv|]. split.
  { pose proof (beyond_range a Ha Za) as (_ & C). set (r := real (tail_value _ _)) in *. set (x := real (fbeyond m a)) in *. set (d := beyond_start a) in *. clearbody r x d.
    assert (d / 2 ^ 47 <= 10.8 * / 2 ^ 47) by (apply Rmult_le_compat_r; [left; apply Rinv_0_lt_compat, pow2_pos|exact C]).
    assert (K : / 2 ^ 45 + 10.8 * / 2 ^ 47 <= / 2 ^ 40) by (cbn [pow]; lra). apply rabs_le in Vx, Vv. apply Rabs_le. destruct (0 <? place_of w)%Z; lra. }
  assert (S1 : forall l, norm_float64 m (w :: l) = norm_from m (Tail (place_of w)) l).
  { intros l. unfold norm_float64. rewrite start_step by assumption. unfold fast in NF. destruct (Z.ltb_spec (Z.abs (place_of w)) (nth (strip_of w) kn 0%Z)); [contradiction|].
    destruct (Nat.eqb_spec (strip_of w) 0); [reflexivity|lia]. }
  rewrite !S1. split; [|split].
  - rewrite tail_pass by assumption. destruct (fle _ _); [left|right]; reflexivity.
  - intros K. now apply (tail_accepts m M).
  - intros K. now apply (tail_rejects m M).
Qed.
Print Assumptions C70_tail.

(** The comment at normal.go:43 says that an attempt is accepted at once "better than 99% of the time": it is 97.24 %. *)
Theorem C70_quick_count : exists l, NoDup l /\ (forall h, In h l <-> (0 <= h < 2 ^ 32)%Z /\ fast (h * 2 ^ 32)) /\ Z.of_nat (length l) = 4176599702%Z.
Proof. exact fast_count. Qed.
Print Assumptions C70_quick_count.
Theorem C70_quick_refuted : forall l, NoDup l -> (forall h, In h l <-> (0 <= h < 2 ^ 32)%Z /\ fast (h * 2 ^ 32)) -> (Z.of_nat (length l) * 100 < 98 * 2 ^ 32)%Z.
Proof.
  intros l N H. destruct fast_count as (k & Nk & Hk & Lk). assert (E : length l = length k).
  { apply Nat.le_antisymm; apply NoDup_incl_length; try assumption; intros h Hh; [apply Hk, H|apply H, Hk]; exact Hh. }
  rewrite E, Lk. reflexivity.
Qed.
Print Assumptions C70_quick_refuted.

(** ** Cases *)
Example C69_case : Forall is_word (words 3 (mkPcg 9 9)) /\ Forall (fun w => fast w /\ / 4 <= unit w <= / 2) (words 3 (mkPcg 9 9)).
Proof.
  split; [apply words_word; vm_compute; repeat split; discriminate|]. pose proof three_good as G. rewrite Forall_forall in *. intros w Hw. destruct (G w Hw) as (_ & F & A & B). split; [exact F|].
  unfold unit. pose proof (pow2_pos 53) as P. apply IZR_le in A, B. rewrite (powZ 51 51 eq_refl) in A. rewrite (powZ 52 52 eq_refl) in B.
  split; (apply (Rmult_le_reg_r (2 ^ 53)); [exact P|]); unfold Rdiv; rewrite (Rmult_assoc _ (/ 2 ^ 53)), Rinv_l, Rmult_1_r by lra; [eapply Rle_trans; [|exact A]|eapply Rle_trans; [exact B|]]; cbn [pow]; lra.
Qed.
(** strip 5 at a place beyond what is accepted at once; the tail of strip 0; words that are not zero *)
Example C70_case : let w := (2147483525 * 2 ^ 32)%Z in let v := (2147483520 * 2 ^ 32)%Z in
  (is_word w /\ strip_of w = 5%nat /\ ~ fast w) /\ (is_word v /\ strip_of v = 0%nat /\ ~ fast v /\ (0 < place_of v)%Z) /\ is_word 7 /\ ~ zero_word 7.
Proof. vm_compute. repeat split; congruence. Qed.
(** at height 0 of that strip the attempt succeeds *)
Example C70_quick_case : fast (5 * 2 ^ 32) /\ place_of (5 * 2 ^ 32) = 5%Z /\ strip_of (5 * 2 ^ 32) = 5%nat.
Proof. vm_compute. repeat split. Qed.
