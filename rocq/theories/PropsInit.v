(** * C56, C57: initializers and Bernoulli masks *)
From Coq Require Import List ZArith Reals Bool Lia Lra.
From Flocq Require Import Core.
From Verif Require Import DenseModel DenseSpec RandModel RandSpec RandFloatModel FloatModel ActModel InitModel InitSpec InitProofs.
Import ListNotations.
Open Scope R_scope.

(** Uniform(m, lo, hi) keeps the shape, draws one word per entry, row after row, and stores u * (hi - lo) + lo rounded
    operation by operation, u = (word mod 2^53) / 2^53. *)
Theorem C56_uniform : forall d m lo hi ws, wf m -> Forall is_word ws -> (rows m * cols m <= length ws)%nat ->
  one_word_each (fun u => to_elem d (round64 (round64 (u * round64 (hi - lo)) + lo))) m ws (init_uniform d m lo hi ws).
Proof. intros d m lo hi ws Hw Hws L. exact (fill_words2 (to_elem d) (uniform_value lo hi) m ws Hw Hws L). Qed.
Print Assumptions C56_uniform.

(** No entry is below lo, whatever is rounded; none is above the float64 sum lo + (hi - lo). *)
Theorem C56_uniform_bounds : forall d m lo hi ws m' rest, wf m -> Forall is_word ws -> (rows m * cols m <= length ws)%nat ->
  round64 lo = lo -> lo <= hi -> init_uniform d m lo hi ws = Got m' rest ->
  forall i j x, elem m' i j = Some x -> to_elem d lo <= x <= to_elem d (round64 (round64 (hi - lo) + lo)).
Proof.
  intros d m lo hi ws m' rest Hw Hws L Hlo Hle E i j x Hx.
  destruct (C56_uniform d m lo hi ws Hw Hws L) as (m1 & E1 & Hr & Hc & Hw1 & He). rewrite E1 in E. injection E as -> _.
  assert (B : (i < rows m /\ j < cols m)%nat).
  { unfold elem in Hx. rewrite Hr, Hc in Hx. destruct (Nat.ltb_spec i (rows m)), (Nat.ltb_spec j (cols m)); try discriminate; auto. }
  rewrite He in Hx by apply B. injection Hx as <-.
  set (u := fraction _). pose proof (fraction_range (nth (i * cols m + j) ws 0%Z)) as Hu. fold u in Hu.
  split; apply to_elem_le.
  - apply (uniform_ge lo hi u); [rewrite <- Hlo; apply round64_is64|assumption|lra].
  - now apply (uniform_le lo hi u).
Qed.
Print Assumptions C56_uniform_bounds.

(** XavierUniform: the entries lie in [-a, a] in the element type, and a is gain * sqrt(6 / (rows + cols)) up to a
    relative error of 2^-51. *)
Theorem C56_xavier_uniform : forall d m gain ws, wf m -> Forall is_word ws -> (rows m * cols m <= length ws)%nat ->
  (1 <= Z.of_nat (rows m + cols m) < 2 ^ 53)%Z -> bpow radix2 (-900) <= gain ->
  exists a,
    Rabs (a - gain * sqrt (6 / IZR (Z.of_nat (rows m + cols m)))) <= gain * sqrt (6 / IZR (Z.of_nat (rows m + cols m))) / IZR (2 ^ 51) /\
    one_word_each (fun u => to_elem d (round64 (round64 (u * (2 * a)) - a))) m ws (xavier_uniform d m gain ws) /\
    forall m' rest i j x, xavier_uniform d m gain ws = Got m' rest -> elem m' i j = Some x -> Rabs x <= to_elem d a.
Proof.
  intros d m gain ws Hw Hws L Hn Hg. exists (xavier_bound gain (rows m) (cols m)).
  destruct (scale_near 6 gain _ ltac:(lra) Hn Hg) as (A0 & A1). fold (xavier_bound gain (rows m) (cols m)) in A0, A1.
  set (a := xavier_bound gain (rows m) (cols m)) in *.
  assert (Ha : is64 a) by apply round64_is64.
  assert (U : one_word_each (fun u => to_elem d (round64 (round64 (u * (2 * a)) - a))) m ws (xavier_uniform d m gain ws)).
  { unfold xavier_uniform. fold a. destruct (C56_uniform d m (- a) a ws Hw Hws L) as (m' & E & Hr & Hc & Hw' & He).
    exists m'. split; [exact E|]. repeat split; try assumption. intros i j Hi Hj. rewrite He by assumption.
    replace (a - - a) with (2 * a) by ring. rewrite (round64_id (2 * a)) by now apply is64_double. reflexivity. }
  split; [exact A1|]. split; [exact U|].
  intros m' rest i j x E Hx. destruct U as (m1 & E1 & Hr & Hc & Hw1 & He). rewrite E1 in E. injection E as -> _.
  assert (B : (i < rows m /\ j < cols m)%nat).
  { unfold elem in Hx. rewrite Hr, Hc in Hx. destruct (Nat.ltb_spec i (rows m)), (Nat.ltb_spec j (cols m)); try discriminate; auto. }
  rewrite He in Hx by apply B. injection Hx as <-.
  pose proof (uniform_symmetric a (fraction (nth (i * cols m + j) ws 0%Z)) Ha A0 (fraction_range _)) as (S1 & S2).
  unfold uniform_value in S1, S2. replace (a - - a) with (2 * a) in S1, S2 by ring. rewrite (round64_id (2 * a)) in S1, S2 by now apply is64_double.
  apply Rabs_le. rewrite <- to_elem_opp. split; apply to_elem_le; assumption.
Qed.
Print Assumptions C56_xavier_uniform.

(** Normal and XavierNormal: the entries are the successive outputs n of NormFloat64, row after row, as n * std + mean
    rounded; for XavierNormal the mean is 0 and std is gain * sqrt(2 / (rows + cols)) up to 2^-51. *)
Theorem C56_normal : forall d norm m mean std ws vs rest, wf m -> successive norm ws vs rest -> length vs = (rows m * cols m)%nat ->
  filled_from (fun n => to_elem d (round64 (round64 (n * std) + mean))) m vs rest (init_normal d norm m mean std ws).
Proof. intros d norm m mean std ws vs rest Hw Hs Hl. exact (fill_map norm (fun n => to_elem d (normal_value std mean n)) m ws vs rest Hw Hl Hs). Qed.
Print Assumptions C56_normal.

Theorem C56_xavier_normal : forall d norm m gain ws vs rest, wf m -> successive norm ws vs rest -> length vs = (rows m * cols m)%nat ->
  (1 <= Z.of_nat (rows m + cols m) < 2 ^ 53)%Z -> bpow radix2 (-900) <= gain ->
  exists std,
    Rabs (std - gain * sqrt (2 / IZR (Z.of_nat (rows m + cols m)))) <= gain * sqrt (2 / IZR (Z.of_nat (rows m + cols m))) / IZR (2 ^ 51) /\
    filled_from (fun n => to_elem d (round64 (n * std))) m vs rest (xavier_normal d norm m gain ws).
Proof.
  intros d norm m gain ws vs rest Hw Hs Hl Hn Hg. exists (xavier_std gain (rows m) (cols m)).
  destruct (scale_near 2 gain _ ltac:(lra) Hn Hg) as (A0 & A1). split; [exact A1|].
  destruct (C56_normal d norm m 0 (xavier_std gain (rows m) (cols m)) ws vs rest Hw Hs Hl) as (m' & E & Hr & Hc & Hw' & He).
  exists m'. split; [exact E|]. repeat split; try assumption. intros i j Hi Hj. rewrite He by assumption.
  rewrite Rplus_0_r, (round64_id _ (round64_is64 _)). reflexivity.
Qed.
Print Assumptions C56_xavier_normal.

(** Achlioptas: an entry is -sqrt 3, 0 or sqrt 3; of the 2^53 equally likely values of the word, the first
    1501199875790166 give -sqrt 3 and the last 1501199875790164 give sqrt 3 (2^53/6 is 1501199875790165.33...). *)
Theorem C56_achlioptas : forall d m ws, wf m -> Forall is_word ws -> (rows m * cols m <= length ws)%nat ->
  exists m', achlioptas d m ws = Got m' (skipn (rows m * cols m) ws) /\
    is_matrix m' (rows m) (cols m) (fun i j =>
      let k := (nth (i * cols m + j) ws 0%Z mod 2 ^ 53)%Z in let s := to_elem d (round64 (sqrt 3)) in
      Some (if (k <? 1501199875790166)%Z then - s else if (2 ^ 53 - 1501199875790164 <=? k)%Z then s else 0)).
Proof.
  intros d m ws Hw Hws L. destruct (fill_words2 (coin d) (uniform_value 0 1) m ws Hw Hws L) as (m' & E & Hr & Hc & Hw' & He).
  exists m'. split; [exact E|]. repeat split; try assumption. intros i j Hi Hj. rewrite He by assumption. cbv zeta. f_equal.
  rewrite uniform_unit by apply fraction_is64. rewrite coin_value.
  set (k := (nth (i * cols m + j) ws 0%Z mod 2 ^ 53)%Z).
  destruct (Z.leb_spec k 1501199875790165), (Z.ltb_spec k 1501199875790166); try lia; [reflexivity|].
  change (2 ^ 53 - 1501199875790164)%Z with 7505999378950828%Z. reflexivity.
Qed.
Print Assumptions C56_achlioptas.

(** Constant, Ones, Zeros *)
Theorem C56_constant : forall d m n, wf m ->
  (exists m', init_constant d m n = Got m' [] /\ is_matrix m' (rows m) (cols m) (fun _ _ => Some (to_elem d n))) /\
  (exists m', init_ones d m = Got m' [] /\ is_matrix m' (rows m) (cols m) (fun _ _ => Some 1)) /\
  is_matrix (init_zeros m) (rows m) (cols m) (fun _ _ => Some 0).
Proof.
  intros d m n Hw.
  assert (G : forall v, exists m', init_constant d m v = Got m' [] /\ is_matrix m' (rows m) (cols m) (fun _ _ => Some (to_elem d v))).
  { intros v. assert (Hs : forall k ws, successive (fun ws => Got (to_elem d v) ws) ws (repeat (to_elem d v) k) ws).
    { induction k as [|k IH]; intros ws; [constructor|]. cbn [repeat]. econstructor; [reflexivity|apply IH]. }
    destruct (fill_spec _ m [] _ [] Hw (repeat_length (to_elem d v) (rows m * cols m)) (Hs _ _)) as (m' & E & Hr & Hc & Hw' & He).
    exists m'. split; [exact E|]. repeat split; try assumption. intros i j Hi Hj. rewrite He by assumption. f_equal.
    rewrite (nth_indep _ 0 (to_elem d v)) by (rewrite repeat_length; now apply idx_flat). apply List.nth_repeat. }
  split; [apply G|]. split.
  - destruct (G 1) as (m' & E & Hr & Hc & Hw' & He). exists m'. split; [exact E|]. repeat split; try assumption.
    intros i j Hi Hj. rewrite He by assumption. f_equal. now apply (to_elem_int d 1).
  - assert (W : wf (init_zeros m)) by (unfold wf, init_zeros; cbn [data rows cols]; rewrite map_length; exact Hw).
    repeat split; [exact W|]. intros i j Hi Hj. unfold elem, init_zeros. cbn [data rows cols].
    destruct (Nat.ltb_spec i (rows m)), (Nat.ltb_spec j (cols m)); try lia. cbn [andb].
    rewrite nth_error_map. destruct (nth_error (data m) (i * cols m + j)) eqn:E; [reflexivity|].
    apply nth_error_None in E. rewrite Hw in E. pose proof (idx_flat m i j Hi Hj). lia.
Qed.
Print Assumptions C56_constant.

(** Gain is sqrt 2 for ReLU and 5/3 for Tanh up to rounding, 1 for every other activation; so every gain meets the
    hypothesis of the Xavier theorems. *)
Theorem C56_gain : Rabs (gain_of ReLU - sqrt 2) <= / IZR (2 ^ 51) /\ Rabs (gain_of Tanh - 5 / 3) <= / IZR (2 ^ 51) /\
  forall f, (f <> ReLU -> f <> Tanh -> gain_of f = 1) /\ bpow radix2 (-900) <= gain_of f.
Proof.
  assert (N : forall x, 1 <= x <= 2 -> Rabs (round64 x - x) <= / IZR (2 ^ 51)).
  { intros x Hx. destruct (rel64 x) as (e & He & ->).
    - apply Rle_trans with (bpow radix2 0); [apply bpow_le; lia|cbn [bpow]; lra].
    - replace (x * (1 + e) - x) with (x * e) by ring. rewrite Rabs_mult, (Rabs_pos_eq x) by lra.
      change (2 ^ 51)%Z with 2251799813685248%Z. pose proof (Rabs_pos e). nra. }
  assert (S1 : 1 <= sqrt 2 <= 2).
  { split; [rewrite <- sqrt_1; apply sqrt_le_1; lra|]. replace 2 with (sqrt (2 * 2)) at 2 by (apply sqrt_square; lra). apply sqrt_le_1; lra. }
  pose proof (N (sqrt 2) S1) as A. pose proof (N (5 / 3) ltac:(lra)) as B.
  split; [exact A|]. split; [exact B|]. intros f.
  assert (P : bpow radix2 (-900) <= / 2) by (change (/ 2) with (bpow radix2 (-1)); apply bpow_le; lia).
  assert (T51 : / IZR (2 ^ 51) <= / 2) by (apply Rinv_le_contravar; [lra|apply IZR_le; lia]).
  apply Rabs_le_inv in A, B. unfold gain_of.
  destruct (Z.eqb_spec f Sigmoid); [split; [reflexivity|lra]|].
  destruct (Z.eqb_spec f ReLU); [split; [congruence|lra]|].
  destruct (Z.eqb_spec f Tanh); [split; [congruence|lra]|]. split; [reflexivity|lra].
Qed.
Print Assumptions C56_gain.

(** the hypotheses hold for a 1x2 matrix and the two words 0 and 2^64 - 1 *)
Example C56_case : let m := mkDense 1 2 [5; 7] in let ws := [0; 2 ^ 64 - 1]%Z in
  wf m /\ Forall is_word ws /\ (rows m * cols m <= length ws)%nat /\ (1 <= Z.of_nat (rows m + cols m) < 2 ^ 53)%Z /\ bpow radix2 (-900) <= 1 /\
  exists m', achlioptas F64 m ws = Got m' [] /\ elem m' 0 0 = Some (- round64 (sqrt 3)) /\ elem m' 0 1 = Some (round64 (sqrt 3)).
Proof.
  cbv zeta. assert (W : Forall is_word [0; 2 ^ 64 - 1]%Z) by (repeat constructor; discriminate).
  split; [reflexivity|]. split; [exact W|]. split; [cbn; lia|]. split; [cbn; lia|]. split; [change 1 with (bpow radix2 0); apply bpow_le; lia|].
  destruct (C56_achlioptas F64 (mkDense 1 2 [5; 7]) [0; 2 ^ 64 - 1]%Z eq_refl W ltac:(cbn; lia)) as (m' & E & _ & _ & _ & He).
  exists m'. split; [exact E|]. rewrite !He by (cbn; lia). cbn [to_elem]. rewrite (round64_id _ (round64_is64 _)). split; reflexivity.
Qed.

(** ** C57 *)

(** bernulli.Distribution[float64] draws one word per entry and makes it 0 if the random number is below prob, 1 otherwise. *)
Theorem C57_float64 : forall r c prob ws, Forall is_word ws -> (r * c <= length ws)%nat ->
  exists m', distribution F64 r c prob ws = Got m' (skipn (r * c) ws) /\
    is_matrix m' r c (fun i j => Some (if Rlt_dec (fraction (nth (i * c + j) ws 0%Z)) prob then 0 else 1)).
Proof.
  intros r c prob ws Hws L.
  destruct (fill_words2 (mask_value F64 prob) (uniform_value 0 1) (mkDense r c (repeat 0 (r * c))) ws (repeat_length _ _) Hws L) as (m' & E & Hr & Hc & Hw' & He).
  cbn [rows cols] in *. exists m'. split; [exact E|]. repeat split; try assumption. intros i j Hi Hj. rewrite He by assumption. f_equal.
  rewrite uniform_unit by apply fraction_is64. apply mask64; [apply fraction_is64|apply fraction_range].
Qed.
Print Assumptions C57_float64.

(** bernulli.Distribution[float32]: the same with the random number rounded to float32, except that the numbers from
    1 - 2^-25 on round to 1 and give 2. *)
Theorem C57_float32_partial : forall r c prob ws, Forall is_word ws -> (r * c <= length ws)%nat -> prob <= 1 ->
  exists m', distribution F32 r c prob ws = Got m' (skipn (r * c) ws) /\
    is_matrix m' r c (fun i j => let w := nth (i * c + j) ws 0%Z in
      Some (if (2 ^ 53 - 2 ^ 28 <=? w mod 2 ^ 53)%Z then 2 else if Rlt_dec (round32 (fraction w)) prob then 0 else 1)).
Proof.
  intros r c prob ws Hws L Hp.
  destruct (fill_words2 (mask_value F32 prob) (uniform_value 0 1) (mkDense r c (repeat 0 (r * c))) ws (repeat_length _ _) Hws L) as (m' & E & Hr & Hc & Hw' & He).
  cbn [rows cols] in *. exists m'. split; [exact E|]. repeat split; try assumption. intros i j Hi Hj. rewrite He by assumption. cbv zeta. f_equal.
  rewrite uniform_unit by apply fraction_is64. now apply mask32.
Qed.
Print Assumptions C57_float32_partial.

(** so a float32 mask is not always made of zeros and ones, whatever the probability *)
Theorem C57_float32_refuted : forall prob, prob <= 1 -> exists ws m', Forall is_word ws /\
  distribution F32 1 1 prob ws = Got m' [] /\ elem m' 0 0 = Some 2.
Proof.
  intros prob Hp. exists [(2 ^ 53 - 1)%Z].
  assert (W : Forall is_word [(2 ^ 53 - 1)%Z]) by (repeat constructor; discriminate).
  destruct (C57_float32_partial 1 1 prob _ W ltac:(cbn; lia) Hp) as (m' & E & _ & _ & _ & He).
  exists m'. split; [exact W|]. split; [exact E|]. rewrite He by lia. reflexivity.
Qed.
Print Assumptions C57_float32_refuted.

Example C57_case : Forall is_word [(2 ^ 52)%Z; 5%Z] /\ exists m', distribution F64 1 2 (/ 4) [(2 ^ 52)%Z; 5%Z] = Got m' [] /\
  elem m' 0 0 = Some 1 /\ elem m' 0 1 = Some 0.
Proof.
  assert (W : Forall is_word [(2 ^ 52)%Z; 5%Z]) by (repeat constructor; discriminate). split; [exact W|].
  destruct (C57_float64 1 2 (/ 4) _ W ltac:(cbn; lia)) as (m' & E & _ & _ & _ & He). exists m'. split; [exact E|].
  rewrite !He by lia. cbn [Nat.mul Nat.add nth]. unfold fraction.
  change (2 ^ 52 mod 2 ^ 53)%Z with 4503599627370496%Z. change (5 mod 2 ^ 53)%Z with 5%Z. change (2 ^ 53)%Z with 9007199254740992%Z.
  split; (destruct (Rlt_dec _ _) as [H|H]; [|]); try reflexivity; exfalso; lra.
Qed.
