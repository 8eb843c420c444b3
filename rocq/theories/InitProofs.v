(** * Proofs about initializers and random masks *)
From Coq Require Import List ZArith Reals Bool Lia Lra Arith.
From Flocq Require Import Core Relative.
From Verif Require Import DenseModel DenseSpec DenseLemmas DenseProofs RandModel RandSpec RandPeriod RandProofs RandFloatModel RandFloatProofs FloatModel InitModel InitSpec.
Import ListNotations.
Open Scope R_scope.

(** ** The loops *)
Lemma nth_skipn_add {A} n : forall (l : list A) k x, nth k (skipn n l) x = nth (n + k) l x.
Proof. induction n as [|n IH]; intros l k x; [reflexivity|]. destruct l as [|a l]; [cbn; now destruct k|]. cbn. apply IH. Qed.
Lemma fill_cols_spec next i fuel : forall j m ws vs rest, wf m -> (i < rows m)%nat -> (j + fuel = cols m)%nat ->
  length vs = fuel -> successive next ws vs rest ->
  exists m', fill_cols next m i j fuel ws = Got m' rest /\
    is_matrix m' (rows m) (cols m) (fun a b => if (a =? i)%nat && (j <=? b)%nat then Some (nth (b - j) vs 0) else elem m a b).
Proof.
  induction fuel as [|fuel IH]; intros j m ws vs rest Hw Hi Hj Hl Hs.
  - destruct vs; [|discriminate]. inversion Hs; subst. exists m. split; [reflexivity|]. repeat split; try assumption.
    intros a b Ha Hb. destruct (Nat.leb_spec j b); [lia|]. now rewrite andb_false_r.
  - destruct vs as [|v vs]; [discriminate|]. inversion Hs as [|? ? ws' ? ? E Hs']; subst. cbn [fill_cols bind_draw]. rewrite E.
    cbn [bind_draw].
    destruct (set_two m v (Z.of_nat i) (Z.of_nat j) Hw ltac:(lia) ltac:(lia)) as (m1 & E1 & Hr & Hc & Hw1 & He). rewrite E1.
    destruct (IH (S j) m1 ws' vs rest Hw1 ltac:(lia) ltac:(lia) ltac:(now injection Hl) Hs') as (m2 & E2 & Hr2 & Hc2 & Hw2 & He2).
    exists m2. split; [assumption|]. repeat split; try congruence.
    intros a b Ha Hb. rewrite He2 by congruence. rewrite !Nat2Z.id in He.
    destruct (Nat.eqb_spec a i) as [->|Ne]; cbn [andb].
    + destruct (Nat.leb_spec (S j) b) as [L|L].
      * destruct (Nat.leb_spec j b); [|lia]. replace (b - j)%nat with (S (b - S j)) by lia. reflexivity.
      * rewrite He by assumption. rewrite Nat.eqb_refl. cbn [andb].
        destruct (Nat.eqb_spec b j) as [->|Nb].
        -- rewrite Nat.leb_refl, Nat.sub_diag. reflexivity.
        -- destruct (Nat.leb_spec j b); [lia|reflexivity].
    + rewrite He by assumption. destruct (Nat.eqb_spec a i); [lia|reflexivity].
Qed.

Lemma successive_split next n : forall ws vs rest, successive next ws vs rest -> (n <= length vs)%nat ->
  exists mid, successive next ws (firstn n vs) mid /\ successive next mid (skipn n vs) rest.
Proof.
  induction n as [|n IH]; intros ws vs rest H L; [exists ws; split; [constructor|exact H]|].
  destruct vs as [|v vs]; [cbn in L; lia|]. inversion H as [|? ? ws' ? ? E Hs]; subst.
  destruct (IH ws' vs rest Hs ltac:(cbn in L; lia)) as (mid & A & B). exists mid. split; [econstructor; eassumption|exact B].
Qed.

Lemma fill_rows_spec next fuel : forall i m ws vs rest, wf m -> (i + fuel = rows m)%nat ->
  length vs = (fuel * cols m)%nat -> successive next ws vs rest ->
  exists m', fill_rows next m i fuel ws = Got m' rest /\
    is_matrix m' (rows m) (cols m) (fun a b => if (i <=? a)%nat then Some (nth ((a - i) * cols m + b) vs 0) else elem m a b).
Proof.
  induction fuel as [|fuel IH]; intros i m ws vs rest Hw Hi Hl Hs.
  - destruct vs; [|discriminate]. inversion Hs; subst. exists m. split; [reflexivity|]. repeat split; try assumption.
    intros a b Ha Hb. destruct (Nat.leb_spec i a); [lia|reflexivity].
  - destruct (successive_split next (cols m) ws vs rest Hs ltac:(nia)) as (mid & A & B).
    destruct (fill_cols_spec next i (cols m) 0 m ws (firstn (cols m) vs) mid Hw ltac:(lia) eq_refl ltac:(rewrite firstn_length; nia) A)
      as (m1 & E1 & Hr & Hc & Hw1 & He).
    cbn [fill_rows]. rewrite E1. cbn [bind_draw].
    destruct (IH (S i) m1 mid (skipn (cols m) vs) rest Hw1 ltac:(lia) ltac:(rewrite skipn_length; nia) B) as (m2 & E2 & Hr2 & Hc2 & Hw2 & He2).
    exists m2. split; [assumption|]. repeat split; try congruence.
    intros a b Ha Hb. rewrite He2 by congruence. rewrite Hc.
    destruct (Nat.leb_spec (S i) a) as [L|L].
    + destruct (Nat.leb_spec i a); [|lia]. f_equal. rewrite nth_skipn_add. f_equal. replace (a - i)%nat with (S (a - S i)) by lia. cbn. lia.
    + rewrite He by assumption. cbn [Nat.leb]. rewrite andb_true_r, Nat.sub_0_r.
      destruct (Nat.eqb_spec a i) as [->|Ne].
      * rewrite Nat.leb_refl, Nat.sub_diag. cbn [Nat.mul Nat.add]. f_equal.
        rewrite <- (firstn_skipn (cols m) vs) at 2. rewrite app_nth1; [reflexivity|]. rewrite firstn_length. nia.
      * destruct (Nat.leb_spec i a); [lia|reflexivity].
Qed.

Lemma fill_spec next m ws vs rest : wf m -> length vs = (rows m * cols m)%nat -> successive next ws vs rest ->
  exists m', fill next m ws = Got m' rest /\ is_matrix m' (rows m) (cols m) (fun i j => Some (nth (i * cols m + j) vs 0)).
Proof.
  intros Hw Hl Hs. destruct (fill_rows_spec next (rows m) 0 m ws vs rest Hw eq_refl Hl Hs) as (m' & E & Hr & Hc & Hw' & He).
  exists m'. split; [exact E|]. repeat split; try assumption. intros i j Hi Hj. rewrite He by assumption. cbn [Nat.leb]. now rewrite Nat.sub_0_r.
Qed.

Lemma idx_flat (m : dense R) i j : (i < rows m)%nat -> (j < cols m)%nat -> (i * cols m + j < rows m * cols m)%nat.
Proof. intros. nia. Qed.

Lemma successive_map next f ws vs rest : successive next ws vs rest -> successive (fun ws => map_draw f (next ws)) ws (map f vs) rest.
Proof. induction 1 as [|ws v ws' vs rest E H IH]; [constructor|]. econstructor; [cbv beta; rewrite E; reflexivity|exact IH]. Qed.

Lemma fill_map next f m ws vs rest : wf m -> length vs = (rows m * cols m)%nat -> successive next ws vs rest ->
  filled_from f m vs rest (fill (fun ws => map_draw f (next ws)) m ws).
Proof.
  intros Hw Hl Hs. destruct (fill_spec _ m ws (map f vs) rest Hw ltac:(now rewrite map_length) (successive_map next f ws vs rest Hs)) as (m' & E & Hr & Hc & Hw' & He).
  exists m'. split; [exact E|]. repeat split; try assumption. intros i j Hi Hj. rewrite He by assumption. f_equal.
  rewrite (nth_indep _ 0 (f 0)) by (rewrite map_length, Hl; now apply idx_flat). apply map_nth.
Qed.

Lemma float64_head w ws : is_word w -> Forall is_word ws -> float64 (w :: ws) = Got (fraction w) ws.
Proof.
  intros Hw Hws. destruct (float64_always (w :: ws) (Forall_cons _ Hw Hws) ltac:(discriminate)) as (x & rest & E & Hr).
  cbn [hd] in Hr. injection Hr as <-. rewrite E. f_equal.
  unfold float64 in E. assert (R1 : (0 < 2 ^ 53 < W)%Z) by (split; reflexivity). cbn [length float64_loop] in E.
  rewrite uint64n_is_spec in E by (try assumption; now constructor). cbn [uint64n_spec] in E.
  change (accepted_below (2 ^ 53)) with W in E.
  destruct (Z.ltb_spec w W) as [_|H]; [|destruct Hw; unfold W in *; lia].
  assert (Hk : (0 <= w mod 2 ^ 53 < 2 ^ 53)%Z) by (apply Z.mod_pos_bound; lia).
  pose proof (float64_value_range _ Hk).
  destruct (Req_EM_T (float64_value (w mod 2 ^ 53)) 1) as [E1|E1]; [lra|].
  injection E as <-. now apply float64_value_exact.
Qed.

Lemma float64_successive n : forall ws, Forall is_word ws -> (n <= length ws)%nat ->
  successive float64 ws (map fraction (firstn n ws)) (skipn n ws).
Proof.
  induction n as [|n IH]; intros ws Hws L; [constructor|]. destruct ws as [|w ws]; [cbn in L; lia|].
  inversion Hws; subst. cbn [firstn map skipn]. econstructor; [now apply float64_head|]. apply IH; [assumption|cbn in L; lia].
Qed.

Lemma nth_firstn_lt {A} n (l : list A) k x : (k < n)%nat -> nth k (firstn n l) x = nth k l x.
Proof.
  revert l k. induction n as [|n IH]; intros l k H; [lia|]. destruct l as [|a l]; [reflexivity|]. destruct k as [|k]; [reflexivity|].
  cbn. apply IH. lia.
Qed.

Lemma fill_words f m ws : wf m -> Forall is_word ws -> (rows m * cols m <= length ws)%nat ->
  one_word_each f m ws (fill (fun ws => map_draw f (float64 ws)) m ws).
Proof.
  intros Hw Hws L.
  destruct (fill_map float64 f m ws (map fraction (firstn (rows m * cols m) ws)) _ Hw
              ltac:(rewrite map_length, firstn_length; lia) (float64_successive _ ws Hws L)) as (m' & E & Hr & Hc & Hw' & He).
  exists m'. split; [exact E|]. repeat split; try assumption. intros i j Hi Hj. rewrite He by assumption.
  pose proof (idx_flat m i j Hi Hj). f_equal. f_equal.
  rewrite (nth_indep _ 0 (fraction 0)) by (rewrite map_length, firstn_length; lia).
  rewrite map_nth. f_equal. now apply nth_firstn_lt.
Qed.

Lemma map_draw_map {A B C} (f : A -> B) (g : B -> C) d : map_draw g (map_draw f d) = map_draw (fun x => g (f x)) d.
Proof. now destruct d. Qed.

Lemma fill_ext n1 n2 m ws : (forall ws, n1 ws = n2 ws) -> fill n1 m ws = fill n2 m ws.
Proof.
  intros H. unfold fill.
  assert (C : forall fuel m i j ws, fill_cols n1 m i j fuel ws = fill_cols n2 m i j fuel ws).
  { induction fuel as [|fuel IH]; intros; cbn [fill_cols]; [reflexivity|]. rewrite H. destruct (n2 ws0); cbn [bind_draw]; try reflexivity.
    destruct (set_ m0 v _); [apply IH|reflexivity]. }
  generalize 0%nat. generalize (rows m). intros fuel. revert m ws.
  induction fuel as [|fuel IH]; intros m ws i; cbn [fill_rows]; [reflexivity|]. rewrite C.
  destruct (fill_cols n2 m i 0 (cols m) ws); cbn [bind_draw]; [apply IH|reflexivity|reflexivity].
Qed.

Lemma fill_words2 (g : R -> R) f m ws : wf m -> Forall is_word ws -> (rows m * cols m <= length ws)%nat ->
  one_word_each (fun u => g (f u)) m ws (fill (fun ws => map_draw g (map_draw f (float64 ws))) m ws).
Proof.
  intros Hw Hws L. rewrite (fill_ext _ (fun ws => map_draw (fun u => g (f u)) (float64 ws))) by (intros; apply map_draw_map).
  now apply fill_words.
Qed.

(** ** Rounding *)
#[local] Instance valid64 : Valid_exp (FLT_exp (-1074) 53). Proof. apply FLT_exp_valid. reflexivity. Qed.
#[local] Instance valid32 : Valid_exp (FLT_exp (-149) 24). Proof. apply FLT_exp_valid. reflexivity. Qed.

Definition is64 (x : R) : Prop := generic_format radix2 (FLT_exp (-1074) 53) x.
Lemma round64_is64 x : is64 (round64 x). Proof. apply generic_format_round; [apply valid64|apply valid_rnd_N]. Qed.
Lemma round64_id x : is64 x -> round64 x = x. Proof. apply round_generic. apply valid_rnd_N. Qed.
Lemma round64_le x y : x <= y -> round64 x <= round64 y. Proof. apply round_le; [apply valid64|apply valid_rnd_N]. Qed.
Lemma round32_le x y : x <= y -> round32 x <= round32 y. Proof. apply round_le; [apply valid32|apply valid_rnd_N]. Qed.
Lemma round64_opp x : round64 (- x) = - round64 x. Proof. apply round_NE_opp. Qed.
Lemma round32_opp x : round32 (- x) = - round32 x. Proof. apply round_NE_opp. Qed.
Lemma round64_0 : round64 0 = 0. Proof. apply round_0. apply valid_rnd_N. Qed.
Lemma round32_0 : round32 0 = 0. Proof. apply round_0. apply valid_rnd_N. Qed.
Lemma is64_int k : (Z.abs k < 2 ^ 53)%Z -> is64 (IZR k).
Proof.
  intros H. apply generic_format_FLT. exists (Float radix2 k 0); [unfold F2R; cbn; lra|exact H|cbn; lia].
Qed.
Lemma round64_int k : (Z.abs k < 2 ^ 53)%Z -> round64 (IZR k) = IZR k.
Proof. intros. now apply round64_id, is64_int. Qed.
Lemma round32_int k : (Z.abs k < 2 ^ 24)%Z -> round32 (IZR k) = IZR k.
Proof.
  intros H. apply round_generic; [apply valid_rnd_N|]. apply generic_format_FLT. exists (Float radix2 k 0); [unfold F2R; cbn; lra|exact H|cbn; lia].
Qed.
Lemma is64_opp x : is64 x -> is64 (- x). Proof. apply generic_format_opp. Qed.
Lemma is64_double x : is64 x -> is64 (2 * x).
Proof.
  intros H. apply FLT_format_generic in H; [|reflexivity]. destruct H as [f E A B]. apply generic_format_FLT.
  exists (Float radix2 (Fnum f) (Fexp f + 1)); [|exact A|cbn; lia].
  rewrite E. unfold F2R. cbn [Fnum Fexp]. rewrite bpow_plus. change (bpow radix2 1) with 2. ring.
Qed.

Lemma to_elem_le d x y : x <= y -> to_elem d x <= to_elem d y.
Proof. destruct d; [apply round32_le|apply round64_le]. Qed.
Lemma to_elem_opp d x : to_elem d (- x) = - to_elem d x.
Proof. destruct d; [apply round32_opp|apply round64_opp]. Qed.
Lemma to_elem_int d k : (Z.abs k < 2 ^ 24)%Z -> to_elem d (IZR k) = IZR k.
Proof. intros H. destruct d; [now apply round32_int|apply round64_int; lia]. Qed.

Lemma fraction_range w : 0 <= fraction w < 1.
Proof.
  assert (Hk : (0 <= w mod 2 ^ 53 < 2 ^ 53)%Z) by (apply Z.mod_pos_bound; lia). unfold fraction.
  rewrite <- float64_value_exact by assumption. now apply float64_value_range.
Qed.
Lemma fraction_is64 w : is64 (fraction w).
Proof.
  assert (Hk : (0 <= w mod 2 ^ 53 < 2 ^ 53)%Z) by (apply Z.mod_pos_bound; lia). unfold fraction.
  rewrite <- float64_value_exact by assumption. apply round64_is64.
Qed.

Lemma uniform_ge lo hi u : is64 lo -> lo <= hi -> 0 <= u -> lo <= uniform_value lo hi u.
Proof.
  intros Hl H Hu. unfold uniform_value. rewrite <- (round64_id lo Hl) at 1. apply round64_le.
  assert (0 <= round64 (hi - lo)) by (rewrite <- round64_0; apply round64_le; lra).
  assert (0 <= round64 (u * round64 (hi - lo))) by (rewrite <- round64_0; apply round64_le; nra). lra.
Qed.
Lemma uniform_le lo hi u : lo <= hi -> 0 <= u < 1 -> uniform_value lo hi u <= round64 (round64 (hi - lo) + lo).
Proof.
  intros H Hu. unfold uniform_value. apply round64_le.
  assert (0 <= round64 (hi - lo)) by (rewrite <- round64_0; apply round64_le; lra).
  assert (round64 (u * round64 (hi - lo)) <= round64 (hi - lo)); [|lra].
  rewrite <- (round64_id (round64 (hi - lo)) (round64_is64 _)) at 2. apply round64_le. nra.
Qed.
Lemma uniform_symmetric a u : is64 a -> 0 <= a -> 0 <= u < 1 -> - a <= uniform_value (- a) a u <= a.
Proof.
  intros Ha H0 Hu. split; [apply uniform_ge; [now apply is64_opp|lra|lra]|].
  refine (Rle_trans _ _ _ (uniform_le (- a) a u ltac:(lra) Hu) _).
  replace (a - - a) with (2 * a) by ring. rewrite (round64_id (2 * a)) by now apply is64_double.
  replace (2 * a + - a) with a by ring. rewrite round64_id by assumption. lra.
Qed.
Lemma uniform_unit u : is64 u -> uniform_value 0 1 u = u.
Proof.
  intros H. unfold uniform_value. rewrite Rminus_0_r, (round64_int 1) by reflexivity. rewrite Rmult_1_r, Rplus_0_r, !round64_id; auto.
  now rewrite (round64_id u H).
Qed.

(** ** The thresholds *)
Lemma round_near prec emin x m e : (0 < prec)%Z -> (emin <= e)%Z -> bpow radix2 (e + prec - 1) <= x < bpow radix2 (e + prec) ->
  Rabs (x * bpow radix2 (- e) - IZR m) < / 2 -> round radix2 (FLT_exp emin prec) ZnearestE x = IZR m * bpow radix2 e.
Proof.
  intros Hp He Hx Hm. assert (Hx0 : 0 < x) by (pose proof (bpow_gt_0 radix2 (e + prec - 1)); lra).
  assert (Hmag : mag radix2 x = (e + prec)%Z :> Z) by (apply mag_unique; rewrite Rabs_pos_eq by lra; exact Hx).
  assert (Hc : cexp radix2 (FLT_exp emin prec) x = e) by (unfold cexp; rewrite Hmag; unfold FLT_exp; lia).
  unfold round, scaled_mantissa, F2R. rewrite Hc. cbn [Fnum Fexp]. f_equal. f_equal. now apply Znearest_imp.
Qed.

Lemma lower_value : round64 (1 / 6) = IZR 6004799503160661 / IZR 36028797018963968.
Proof.
  unfold round64. rewrite (round_near 53 (-1074) (1 / 6) 6004799503160661 (-55)); [reflexivity|lia|lia| |].
  - change (-55 + 53 - 1)%Z with (-3)%Z. change (-55 + 53)%Z with (-2)%Z. change (bpow radix2 (-3)) with (/ 8). change (bpow radix2 (-2)) with (/ 4). lra.
  - change (bpow radix2 (- -55)) with (IZR 36028797018963968). rewrite Rabs_pos_eq; lra.
Qed.
Lemma upper_value : round64 (1 - round64 (1 / 6)) = IZR 7505999378950827 / IZR 9007199254740992.
Proof.
  rewrite lower_value. unfold round64. rewrite (round_near 53 (-1074) _ 7505999378950827 (-53)); [reflexivity|lia|lia| |].
  - change (-53 + 53 - 1)%Z with (-1)%Z. change (-53 + 53)%Z with 0%Z. change (bpow radix2 (-1)) with (/ 2). change (bpow radix2 0) with 1. lra.
  - change (bpow radix2 (- -53)) with (IZR 9007199254740992). rewrite Rabs_left; lra.
Qed.

Lemma fraction_lt w a b : (0 < b)%Z -> (fraction w < IZR a / IZR b <-> (w mod 2 ^ 53 * b < a * 2 ^ 53)%Z).
Proof.
  intros Hb. unfold fraction. set (k := (w mod 2 ^ 53)%Z). change (2 ^ 53)%Z with 9007199254740992%Z.
  assert (0 < IZR b) by (now apply IZR_lt). assert (0 < IZR 9007199254740992) by (apply IZR_lt; lia).
  split; intros H1.
  - apply lt_IZR. rewrite !mult_IZR. apply (Rmult_lt_compat_r (IZR b * IZR 9007199254740992)) in H1; [|now apply Rmult_lt_0_compat].
    replace (IZR k / IZR 9007199254740992 * (IZR b * IZR 9007199254740992)) with (IZR k * IZR b) in H1 by (field; lra).
    replace (IZR a / IZR b * (IZR b * IZR 9007199254740992)) with (IZR a * IZR 9007199254740992) in H1 by (field; lra). exact H1.
  - apply IZR_lt in H1. rewrite !mult_IZR in H1. apply (Rmult_lt_reg_r (IZR b * IZR 9007199254740992)); [now apply Rmult_lt_0_compat|].
    replace (IZR k / IZR 9007199254740992 * (IZR b * IZR 9007199254740992)) with (IZR k * IZR b) by (field; lra).
    replace (IZR a / IZR b * (IZR b * IZR 9007199254740992)) with (IZR a * IZR 9007199254740992) by (field; lra). exact H1.
Qed.
Lemma fraction_gt w a b : (0 < b)%Z -> (IZR a / IZR b < fraction w <-> (a * 2 ^ 53 < w mod 2 ^ 53 * b)%Z).
Proof.
  intros Hb. unfold fraction. set (k := (w mod 2 ^ 53)%Z). change (2 ^ 53)%Z with 9007199254740992%Z.
  assert (0 < IZR b) by (now apply IZR_lt). assert (0 < IZR 9007199254740992) by (apply IZR_lt; lia).
  split; intros H1.
  - apply lt_IZR. rewrite !mult_IZR. apply (Rmult_lt_compat_r (IZR b * IZR 9007199254740992)) in H1; [|now apply Rmult_lt_0_compat].
    replace (IZR k / IZR 9007199254740992 * (IZR b * IZR 9007199254740992)) with (IZR k * IZR b) in H1 by (field; lra).
    replace (IZR a / IZR b * (IZR b * IZR 9007199254740992)) with (IZR a * IZR 9007199254740992) in H1 by (field; lra). exact H1.
  - apply IZR_lt in H1. rewrite !mult_IZR in H1. apply (Rmult_lt_reg_r (IZR b * IZR 9007199254740992)); [now apply Rmult_lt_0_compat|].
    replace (IZR k / IZR 9007199254740992 * (IZR b * IZR 9007199254740992)) with (IZR k * IZR b) by (field; lra).
    replace (IZR a / IZR b * (IZR b * IZR 9007199254740992)) with (IZR a * IZR 9007199254740992) by (field; lra). exact H1.
Qed.

Lemma coin_value d w : coin d (fraction w) =
  if (w mod 2 ^ 53 <=? 1501199875790165)%Z then - to_elem d (round64 (sqrt 3))
  else if (7505999378950828 <=? w mod 2 ^ 53)%Z then to_elem d (round64 (sqrt 3)) else 0.
Proof.
  unfold coin. cbv zeta. rewrite upper_value, lower_value.
  destruct (Rlt_dec (fraction w) (IZR 6004799503160661 / IZR 36028797018963968)) as [L|L]; rewrite fraction_lt in L by lia.
  - destruct (Z.leb_spec (w mod 2 ^ 53) 1501199875790165); [apply to_elem_opp|lia].
  - destruct (Z.leb_spec (w mod 2 ^ 53) 1501199875790165); [lia|].
    destruct (Rlt_dec (IZR 7505999378950827 / IZR 9007199254740992) (fraction w)) as [G|G]; rewrite fraction_gt in G by lia;
      (destruct (Z.leb_spec 7505999378950828 (w mod 2 ^ 53)); [|]); try reflexivity; try lia. apply (to_elem_int d 0). reflexivity.
Qed.

Lemma Int_part_is z r : IZR z <= r < IZR z + 1 -> Int_part r = z.
Proof.
  intros H. destruct (base_Int_part r) as [A B]. apply Z.le_antisymm; apply Zlt_succ_le; apply lt_IZR; rewrite succ_IZR; lra.
Qed.
Lemma Int_part_unit v : 0 <= v < 1 -> Int_part v = 0%Z.
Proof. intros H. apply Int_part_is. simpl. lra. Qed.
Lemma mask64 prob u : is64 u -> 0 <= u < 1 -> mask_value F64 prob u = if Rlt_dec u prob then 0 else 1.
Proof.
  intros Hu H. unfold mask_value. cbn [to_elem]. rewrite (round64_id u Hu), (Int_part_unit u H).
  destruct (Rlt_dec u prob); [apply round64_0|]. replace (0 + 1) with (IZR 1) by lra. now apply round64_int.
Qed.

Lemma round32_one x : 1 - / 33554432 <= x <= 1 -> round32 x = 1.
Proof.
  intros [H1 H2]. apply Rle_antisym.
  - rewrite <- (round32_int 1) by reflexivity. now apply round32_le.
  - assert (E : round32 (1 - / 33554432) = 1).
    { unfold round32, round, scaled_mantissa, F2R.
      assert (Hm : mag radix2 (1 - / 33554432) = 0%Z :> Z).
      { apply mag_unique. rewrite Rabs_pos_eq by lra. change (bpow radix2 (0 - 1)) with (/ 2). change (bpow radix2 0) with 1. lra. }
      assert (Hc : cexp radix2 (FLT_exp (-149) 24) (1 - / 33554432) = (-24)%Z) by (unfold cexp; rewrite Hm; reflexivity).
      rewrite Hc. cbn [Fnum Fexp]. change (bpow radix2 (- -24)) with (IZR 16777216). change (bpow radix2 (-24)) with (/ IZR 16777216).
      replace ((1 - / 33554432) * 16777216) with (IZR 16777215 + / 2) by lra.
      assert (F : Zfloor (IZR 16777215 + / 2) = 16777215%Z) by (apply Zfloor_imp; simpl; lra).
      unfold ZnearestE, Znearest. rewrite F. rewrite Rcompare_Eq by lra. cbn [Z.even negb].
      rewrite (Zceil_imp 16777216) by (simpl; lra). lra. }
    rewrite <- E. now apply round32_le.
Qed.
Lemma round32_below x : 0 <= x <= 1 - / 33554432 - / 9007199254740992 -> 0 <= round32 x < 1.
Proof.
  intros [H0 H1]. split; [rewrite <- round32_0; now apply round32_le|].
  refine (Rle_lt_trans _ _ _ (round32_le _ _ H1) _). unfold round32.
  rewrite (round_near 24 (-149) _ 16777215 (-24)); [|lia|lia| |].
  - change (bpow radix2 (-24)) with (/ IZR 16777216). lra.
  - change (-24 + 24 - 1)%Z with (-1)%Z. change (-24 + 24)%Z with 0%Z. change (bpow radix2 (-1)) with (/ 2). change (bpow radix2 0) with 1. lra.
  - change (bpow radix2 (- -24)) with (IZR 16777216). rewrite Rabs_pos_eq; lra.
Qed.
Lemma fraction_of w k : (w mod 2 ^ 53)%Z = k -> fraction w = IZR k / 9007199254740992.
Proof. intros H. unfold fraction. now rewrite H. Qed.
Lemma mask32 prob w : prob <= 1 -> mask_value F32 prob (fraction w) =
  if (2 ^ 53 - 2 ^ 28 <=? w mod 2 ^ 53)%Z then 2 else if Rlt_dec (round32 (fraction w)) prob then 0 else 1.
Proof.
  intros Hp. pose proof (fraction_range w) as Hr. unfold mask_value. cbn [to_elem].
  assert (E : fraction w = IZR (w mod 2 ^ 53) / 9007199254740992) by now apply fraction_of.
  assert (Hk : (0 <= w mod 2 ^ 53 < 2 ^ 53)%Z) by (apply Z.mod_pos_bound; lia).
  destruct (Z.leb_spec (2 ^ 53 - 2 ^ 28) (w mod 2 ^ 53)) as [L|L].
  - assert (L' : IZR 9007198986305536 <= IZR (w mod 2 ^ 53)) by (apply IZR_le; exact L).
    rewrite round32_one by lra. destruct (Rlt_dec 1 prob) as [X|_]; [lra|].
    rewrite (Int_part_is 1) by (simpl; lra). replace (1 + 1) with (IZR 2) by lra. now apply round32_int.
  - assert (L' : IZR (w mod 2 ^ 53) <= IZR 9007198986305535) by (apply IZR_le; lia).
    assert (B : 0 <= round32 (fraction w) < 1) by (apply round32_below; lra).
    rewrite (Int_part_unit _ B). destruct (Rlt_dec _ prob); [apply round32_0|]. replace (0 + 1) with (IZR 1) by lra. now apply round32_int.
Qed.

(** ** The scale of Xavier initialization *)
Lemma rel64 x : bpow radix2 (-1022) <= x -> exists e, Rabs e <= / 9007199254740992 /\ round64 x = x * (1 + e).
Proof.
  intros H. destruct (relative_error_N_FLT_ex radix2 (-1074) 53 ltac:(lia) (fun n => negb (Z.even n)) x) as (e & A & B).
  - rewrite Rabs_pos_eq; [exact H|]. pose proof (bpow_gt_0 radix2 (-1022)). lra.
  - exists e. split; [|exact B]. change (bpow radix2 (- (53) + 1)) with (/ 4503599627370496) in A. lra.
Qed.

Lemma sqrt_near e : Rabs e <= / 9007199254740992 -> Rabs (sqrt (1 + e) - 1) <= / 9007199254740992.
Proof.
  intros H. apply Rabs_le_inv in H.
  assert (E : sqrt (1 + e) * sqrt (1 + e) = 1 + e) by (apply sqrt_sqrt; lra). pose proof (sqrt_pos (1 + e)) as P.
  apply Rabs_le. split.
  - destruct (Rle_lt_dec (- / 9007199254740992) (sqrt (1 + e) - 1)) as [|L]; [assumption|]. exfalso.
    assert (sqrt (1 + e) < 1 - / 9007199254740992) by lra.
    assert (sqrt (1 + e) * sqrt (1 + e) <= (1 - / 9007199254740992) * sqrt (1 + e)) by (apply Rmult_le_compat_r; lra).
    assert ((1 - / 9007199254740992) * sqrt (1 + e) < 1 - / 9007199254740992); [|lra].
    rewrite <- (Rmult_1_r (1 - / 9007199254740992)) at 2. apply Rmult_lt_compat_l; lra.
  - destruct (Rle_lt_dec (sqrt (1 + e) - 1) (/ 9007199254740992)) as [|L]; [assumption|]. exfalso.
    assert (1 + / 9007199254740992 < sqrt (1 + e)) by lra.
    assert (1 * sqrt (1 + e) <= sqrt (1 + e) * sqrt (1 + e)) by (apply Rmult_le_compat_r; lra). lra.
Qed.

Lemma product_near a b c : Rabs a <= / 9007199254740992 -> Rabs b <= / 9007199254740992 -> Rabs c <= / 9007199254740992 ->
  Rabs ((1 + a) * (1 + b) * (1 + c) - 1) <= / 2251799813685248.
Proof.
  intros Ha Hb Hc. apply Rabs_le_inv in Ha, Hb, Hc. set (u := / 9007199254740992) in *.
  assert (Hu : 0 < u < / 1000) by (unfold u; lra). replace (/ 2251799813685248) with (4 * u) by (unfold u; lra).
  assert (P : (1 - u) * (1 - u) <= (1 + a) * (1 + b) <= (1 + u) * (1 + u)) by (split; apply Rmult_le_compat; lra).
  assert (Q : (1 - u) * (1 - u) * (1 - u) <= (1 + a) * (1 + b) * (1 + c) <= (1 + u) * (1 + u) * (1 + u)).
  { split; apply Rmult_le_compat; try lra; try nra. }
  apply Rabs_le. nra.
Qed.

Lemma scale_near k gain n : 1 <= k <= 6 -> (1 <= n < 2 ^ 53)%Z -> bpow radix2 (-900) <= gain ->
  let a := round64 (gain * round64 (sqrt (round64 (k / round64 (IZR n))))) in
  0 <= a /\ Rabs (a - gain * sqrt (k / IZR n)) <= gain * sqrt (k / IZR n) / 2251799813685248.
Proof.
  intros Hk Hn Hg. cbv zeta. rewrite (round64_int n) by lia.
  assert (N1 : 1 <= IZR n) by (apply IZR_le; lia). assert (N2 : IZR n <= 9007199254740992) by (apply IZR_le; lia).
  assert (Hq : / 9007199254740992 <= k / IZR n).
  { apply Rle_trans with (1 / IZR n); [|unfold Rdiv; apply Rmult_le_compat_r; [left; apply Rinv_0_lt_compat; lra|lra]].
    unfold Rdiv. rewrite Rmult_1_l. apply Rinv_le_contravar; lra. }
  assert (B53 : bpow radix2 (-53) = / 9007199254740992) by reflexivity.
  assert (T1 : bpow radix2 (-1022) <= bpow radix2 (-53)) by (apply bpow_le; lia).
  destruct (rel64 (k / IZR n) ltac:(lra)) as (e1 & H1 & E1). rewrite E1.
  assert (H1' := Rabs_le_inv _ _ H1).
  rewrite sqrt_mult by lra.
  set (s := sqrt (k / IZR n)). set (t := sqrt (1 + e1)). pose proof (sqrt_near e1 H1) as Ht. fold t in Ht. assert (Ht' := Rabs_le_inv _ _ Ht).
  assert (Hs : bpow radix2 (-27) <= s).
  { unfold s. rewrite <- (sqrt_Rsqr (bpow radix2 (-27))) by apply bpow_ge_0. apply sqrt_le_1; [apply Rle_0_sqr|lra|].
    unfold Rsqr. rewrite <- bpow_plus. change (-27 + -27)%Z with (-54)%Z.
    assert (bpow radix2 (-54) <= bpow radix2 (-53)) by (apply bpow_le; lia). lra. }
  assert (B27 : bpow radix2 (-27) = / 134217728) by reflexivity.
  assert (T2 : bpow radix2 (-1022) <= bpow radix2 (-28)) by (apply bpow_le; lia).
  assert (B28 : bpow radix2 (-28) = / 268435456) by reflexivity.
  assert (Hst : bpow radix2 (-28) <= s * t).
  { rewrite B28. apply Rle_trans with (/ 134217728 * / 2); [lra|]. apply Rmult_le_compat; lra. }
  destruct (rel64 (s * t) ltac:(lra)) as (e2 & H2 & E2). rewrite E2. assert (H2' := Rabs_le_inv _ _ H2).
  assert (G0 : 0 < gain) by (pose proof (bpow_gt_0 radix2 (-900)); lra).
  assert (Hgs : bpow radix2 (-1022) <= gain * (s * t * (1 + e2))).
  { apply Rle_trans with (bpow radix2 (-900) * bpow radix2 (-29)); [rewrite <- bpow_plus; apply bpow_le; lia|].
    apply Rmult_le_compat; [apply bpow_ge_0|apply bpow_ge_0|exact Hg|].
    change (bpow radix2 (-29)) with (/ 536870912). apply Rle_trans with (/ 268435456 * / 2); [lra|]. apply Rmult_le_compat; lra. }
  destruct (rel64 _ Hgs) as (e3 & H3 & E3). rewrite E3. assert (H3' := Rabs_le_inv _ _ H3).
  assert (P := product_near (t - 1) e2 e3 Ht H2 H3). replace (1 + (t - 1)) with t in P by ring. assert (P' := Rabs_le_inv _ _ P).
  assert (S0 : 0 < s) by lra. pose proof (Rmult_lt_0_compat _ _ G0 S0) as GS.
  replace (gain * (s * t * (1 + e2)) * (1 + e3)) with (gain * s * (t * (1 + e2) * (1 + e3))) by ring. split.
  - apply Rmult_le_pos; lra.
  - replace (gain * s * (t * (1 + e2) * (1 + e3)) - gain * s) with (gain * s * (t * (1 + e2) * (1 + e3) - 1)) by ring.
    rewrite Rabs_mult, (Rabs_pos_eq (gain * s)) by lra. unfold Rdiv. apply Rmult_le_compat_l; lra.
Qed.
