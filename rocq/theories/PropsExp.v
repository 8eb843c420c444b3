(** * C63: Exp32 and Log32 on amd64 *)
From Coq Require Import ZArith Bool Lia List Reals Lra.
From Flocq Require Import Core BinarySingleNaN.
From Verif Require Import FloatModel NumModel NumSpec AsmModel AsmCode AsmCalls AsmSpec AsmWords AsmWordsSpec AsmProofs7 AsmExp AsmExp4 AsmLog AsmLog5 AsmLog6 PropsAsm NumMath.
Import ListNotations.
Local Open Scope nat_scope.

(** Whatever the processor, Exp32 on slices of any length, at any addresses, also when y is x, returns; then y[i] is near e^x[i] for
    each i with x[i] <= 88.376, and no other cell has changed. *)
Theorem C63_exp : forall g c x y (l : list Z) (m : Z -> option Z), go_math g -> slice words 4 m x l ->
  (forall j, j < length l -> m (y + 4 * Z.of_nat j)%Z <> None) -> same_or_apart 4 x y (length l) ->
  (exists m', Exp32 (Exp g) c x y (length l) m m') /\ forall m', Exp32 (Exp g) c x y (length l) m m' ->
    (forall i a, nth_error l i = Some a -> exists b, m' (y + 4 * Z.of_nat i)%Z = Some b /\
       (finite (decode a) -> (real (decode a) <= 88.376)%R -> near_exp (decode a) (decode b))) /\
    (forall p, ~ within 4 y (length l) p -> m' p = m p).
Proof.
  intros g c x y l m G S C A. destruct (exp32_ok (Exp g) c x y l m S C A) as (E & H). split; [exact E|]. intros m' R. destruct (H m' R) as (V & O). split; [|exact O].
  intros i a Ea. eexists. split; [apply V; exact Ea|]. intros F B. destruct (i <? whole (width c) (length l)).
  - destruct (exp_near_low c a F B) as (F1 & E1). split; [exact F1|split; [exact E1|]]. intros L. apply (exp_near c a F). lra.
  - now apply scalar_exp_near.
Qed.
Print Assumptions C63_exp.
(** The same for Log32, when y is another slice: y[i] is near the logarithm of x[i] for each i where x[i] is a normal positive number. *)
Theorem C63_log : forall g c x y (l : list Z) (m : Z -> option Z), go_math g -> slice words 4 m x l -> Forall word l ->
  (forall j, j < length l -> m (y + 4 * Z.of_nat j)%Z <> None) -> apart_slices x y (length l) ->
  (exists m', Log32 (Log g) c x y (length l) m m') /\ forall m', Log32 (Log g) c x y (length l) m m' ->
    (forall i a, nth_error l i = Some a -> exists b, m' (y + 4 * Z.of_nat i)%Z = Some b /\
       (finite (decode a) -> (/ 2 ^ 126 <= real (decode a))%R -> near_log (decode a) (decode b))) /\
    (forall p, ~ within 4 y (length l) p -> m' p = m p).
Proof.
  intros g c x y l m G S W C A. destruct (log32_ok (Log g) c x y l m S C A) as (E & H). split; [exact E|]. intros m' R. destruct (H m' R) as (V & O). split; [|exact O].
  intros i a Ea. eexists. split; [apply V; exact Ea|]. intros F B. assert (Wa : word a) by (rewrite Forall_forall in W; apply W; eapply nth_error_In; exact Ea).
  destruct (i <? whole (width c) (length l)); [|now apply scalar_log_near].
  replace (eq_val (decode a) fzero) with false; [rewrite andb_false_r; now apply log_near|]. symmetry.
  assert (P : (0 < real (decode a))%R) by (assert (0 < / 2 ^ 126)%R by (apply Rinv_0_lt_compat, pow_lt; lra); lra).
  destruct (decode a) as [s|s| |s k e Hb]; try discriminate; [unfold real in P; cbn in P; lra|now destruct s].
Qed.
Print Assumptions C63_log.
(** Every processor computes the same function of an element in whole vectors; what depends on it is where the whole vectors end. *)
Theorem C63_same_on_every_cpu : forall c c' w, lane_function (ExpKernel32 c) w = lane_function (ExpKernel32 c') w /\ lane_function (LogKernel32 c) w = lane_function (LogKernel32 c') w.
Proof. intros c c' w. now rewrite !exp_lane, !log_lane. Qed.
Print Assumptions C63_same_on_every_cpu.
(** e^x is never negative, infinite or NaN in whole vectors *)
Theorem C63_exp_finite : forall g c x y (l : list Z) (m m' : Z -> option Z) i a, slice words 4 m x l ->
  (forall j, j < length l -> m (y + 4 * Z.of_nat j)%Z <> None) -> same_or_apart 4 x y (length l) -> Exp32 (Exp g) c x y (length l) m m' ->
  nth_error l i = Some a -> i < whole (width c) (length l) -> exists b, m' (y + 4 * Z.of_nat i)%Z = Some b /\ finite (decode b) /\ (0 <= real (decode b))%R.
Proof.
  intros g c x y l m m' i a S C A R Ea Hi. destruct (exp32_ok (Exp g) c x y l m S C A) as (_ & H). destruct (H m' R) as (V & _). rewrite (V i a Ea). destruct (Nat.ltb_spec i (whole (width c) (length l))); [|lia].
  eexists. split; [reflexivity|]. rewrite exp_lane. destruct (exp_clamped a) as (F & P & _). auto.
Qed.
Print Assumptions C63_exp_finite.

(** ** Where they fail *)
(** In whole vectors, e^NaN, e^Inf and e^x for each x from 88.37626 on are the number 11863204 * 2^104 (about 2.4e38). *)
Theorem C63_exp_saturates_refuted : forall g c x y (l : list Z) (m m' : Z -> option Z) i a, slice words 4 m x l ->
  (forall j, j < length l -> m (y + 4 * Z.of_nat j)%Z <> None) -> same_or_apart 4 x y (length l) -> Exp32 (Exp g) c x y (length l) m m' ->
  nth_error l i = Some a -> i < whole (width c) (length l) ->
  is_nan (decode a) = true \/ decode a = infinity \/ (finite (decode a) /\ (88.37626 <= real (decode a))%R) ->
  exists b, m' (y + 4 * Z.of_nat i)%Z = Some b /\ decode b = lit 11863204 104.
Proof.
  intros g c x y l m m' i a S C A R Ea Hi Ha. destruct (exp32_ok (Exp g) c x y l m S C A) as (_ & H). destruct (H m' R) as (V & _). rewrite (V i a Ea). destruct (Nat.ltb_spec i (whole (width c) (length l))); [|lia].
  eexists. split; [reflexivity|]. apply exp_saturates. destruct hi_real as (Fh & Eh). destruct Ha as [Ha|[Ha|(Fa & Ha)]].
  - destruct (decode a); try discriminate. rewrite hi_eq. vm_compute. reflexivity.
  - rewrite Ha, hi_eq. vm_compute. reflexivity.
  - destruct (flt (decode a) (decode hi_w)) eqn:E; [|reflexivity]. apply NumLemmas.lt_eq in E; [|exact Fa|exact Fh]. rewrite Eh in E. lra.
Qed.
Print Assumptions C63_exp_saturates_refuted.
(** So the result for an element depends on its position: of n + 1 equal elements from 89 on, where n is the length of a vector, the
    first gives 2.4e38 and the last +Inf. *)
Theorem C63_exp_position_refuted : forall g c x y (a : Z) (m m' : Z -> option Z), go_math g -> let l := repeat a (width c + 1) in slice words 4 m x l ->
  (forall j, j < length l -> m (y + 4 * Z.of_nat j)%Z <> None) -> same_or_apart 4 x y (length l) -> Exp32 (Exp g) c x y (length l) m m' ->
  finite (decode a) -> (89 <= real (decode a))%R ->
  exists b b', m' y = Some b /\ decode b = lit 11863204 104 /\ m' (y + 4 * Z.of_nat (width c))%Z = Some b' /\ decode b' = infinity.
Proof.
  intros g c x y a m m' G l S C A R Fa Ha. assert (L : length l = width c + 1) by apply repeat_length.
  assert (Wh : whole (width c) (length l) = width c) by (rewrite L; unfold whole, width; destruct (avx2 c); reflexivity).
  assert (N : forall i, i <= width c -> nth_error l i = Some a). { intros i Hi. unfold l. rewrite (nth_error_nth' _ a) by (rewrite repeat_length; lia). f_equal. apply nth_repeat. }
  assert (Wp : 0 < width c) by apply width_pos.
  destruct (C63_exp_saturates_refuted g c x y l m m' 0 a S C A R) as (b & Eb & Db); [apply N; lia|rewrite Wh; exact Wp|right; right; split; [exact Fa|lra]|].
  destruct (exp32_ok (Exp g) c x y l m S C A) as (_ & H). destruct (H m' R) as (V & _). specialize (V (width c) a (N _ (le_n _))).
  rewrite Wh, Nat.ltb_irrefl in V. exists b. eexists. rewrite Z.add_0_r in Eb. split; [exact Eb|]. split; [exact Db|]. split; [exact V|]. now apply scalar_exp_overflow.
Qed.
Print Assumptions C63_exp_position_refuted.
(** log 0 is -Inf at the end and, if the slice is longer than a vector, up to a vector before its end ... *)
Theorem C63_log_zero : forall g c x y (l : list Z) (m m' : Z -> option Z) i a, go_math g -> slice words 4 m x l ->
  (forall j, j < length l -> m (y + 4 * Z.of_nat j)%Z <> None) -> apart_slices x y (length l) -> Log32 (Log g) c x y (length l) m m' ->
  nth_error l i = Some a -> finite (decode a) -> real (decode a) = 0%R -> whole (width c) (length l) <= i \/ (width c < length l /\ i + width c <= length l) ->
  exists b, m' (y + 4 * Z.of_nat i)%Z = Some b /\ decode b = NumSpec.minus_infinity.
Proof.
  intros g c x y l m m' i a G S C A R Ea Fa Za Hi. destruct (log32_ok (Log g) c x y l m S C A) as (_ & H). destruct (H m' R) as (V & _). rewrite (V i a Ea).
  assert (Zb : eq_val (decode a) fzero = true). { unfold real in Za. destruct (decode a) as [s|s| |s k e Hb]; try discriminate; [now destruct s|]. exfalso. revert Za. cbn [B2R]. intros Za. apply eq_0_F2R in Za. destruct s; discriminate. }
  eexists. split; [reflexivity|]. destruct (Nat.ltb_spec i (whole (width c) (length l))); [|now apply scalar_log_zero].
  destruct Hi as [Hi|(H1 & H2)]; [lia|]. destruct (Nat.ltb_spec (width c) (length l)); [|lia]. destruct (Nat.leb_spec (i + width c) (length l)); [|lia]. rewrite Zb. cbn [andb]. apply decode_encode.
Qed.
Print Assumptions C63_log_zero.
(** ... but NaN in the last whole vector of any slice that is one vector long, or whose last vectors overlap that range *)
Theorem C63_log_zero_refuted : forall g c x y (l : list Z) (m m' : Z -> option Z) i a, slice words 4 m x l ->
  (forall j, j < length l -> m (y + 4 * Z.of_nat j)%Z <> None) -> apart_slices x y (length l) -> Log32 (Log g) c x y (length l) m m' ->
  nth_error l i = Some a -> finite (decode a) -> real (decode a) = 0%R -> i < whole (width c) (length l) -> length l = width c \/ length l < i + width c ->
  exists b, m' (y + 4 * Z.of_nat i)%Z = Some b /\ decode b = B754_nan.
Proof.
  intros g c x y l m m' i a S C A R Ea Fa Za Hi Hn. destruct (log32_ok (Log g) c x y l m S C A) as (_ & H). destruct (H m' R) as (V & _). rewrite (V i a Ea).
  eexists. split; [reflexivity|]. destruct (Nat.ltb_spec i (whole (width c) (length l))); [|lia].
  replace ((width c <? length l) && (i + width c <=? length l)) with false; [|destruct (Nat.ltb_spec (width c) (length l)), (Nat.leb_spec (i + width c) (length l)); try reflexivity; lia].
  cbn [andb]. apply log_not_positive. apply NumLemmas.le_eq; [exact Fa|reflexivity|]. change (real fzero) with 0%R. lra.
Qed.
Print Assumptions C63_log_zero_refuted.
(** In whole vectors the logarithm of NaN, and of each positive number below 2^-126, is the number -11447376 * 2^-17 (about -87.3),
    and that of +Inf is 11629080 * 2^-17 (about 88.7). *)
Theorem C63_log_special_refuted : forall g c x y (l : list Z) (m m' : Z -> option Z) i a, slice words 4 m x l -> word a ->
  (forall j, j < length l -> m (y + 4 * Z.of_nat j)%Z <> None) -> apart_slices x y (length l) -> Log32 (Log g) c x y (length l) m m' ->
  nth_error l i = Some a -> i < whole (width c) (length l) ->
  exists b, m' (y + 4 * Z.of_nat i)%Z = Some b /\
    (is_nan (decode a) = true \/ (finite (decode a) /\ (0 < real (decode a) <= / 2 ^ 126)%R) -> decode b = lit (-11447376) (-17)) /\
    (decode a = infinity -> decode b = lit 11629080 (-17)).
Proof.
  intros g c x y l m m' i a S Wa C A R Ea Hi. destruct (log32_ok (Log g) c x y l m S C A) as (_ & H). destruct (H m' R) as (V & _). rewrite (V i a Ea).
  eexists. split; [reflexivity|]. destruct (Nat.ltb_spec i (whole (width c) (length l))); [|lia].
  assert (N : is_nan (decode a) = true \/ (finite (decode a) /\ (0 < real (decode a))%R) \/ decode a = infinity -> eq_val (decode a) fzero = false).
  { intros [Q|[(Q & P)|Q]]; [now destruct (decode a)| |now rewrite Q]. destruct (decode a) as [s|s| |s k e Hb]; try discriminate; [unfold real in P; cbn in P; lra|now destruct s]. }
  split.
  - intros Q. rewrite N by tauto. rewrite andb_false_r. destruct Q as [Q|(Q & P)]; [now apply log_nan|now apply log_subnormal].
  - intros Q. rewrite N by tauto. rewrite andb_false_r. now apply log_infinite.
Qed.
Print Assumptions C63_log_special_refuted.

(** ** Concrete cases *)
(** nine elements at address 1000 and room for nine more at 2000, the whole of both slices given *)
Definition ex_words (l : list Z) : Z -> option Z := cells 4 1000 l (cells 4 2000 (repeat 0%Z (length l)) (fun _ => None)).
Lemma ex_slice (l : list Z) : length l <= 200 -> slice words 4 (ex_words l) 1000 l /\ (forall j, j < length l -> ex_words l (2000 + 4 * Z.of_nat j)%Z <> None) /\ apart_slices 1000 2000 (length l) /\ same_or_apart 4 1000 2000 (length l).
Proof.
  intros H. split; [apply (cells_slice words); lia|]. split; [|split; [intros i j Hi Hj; lia|intros i j Hi Hj; lia]].
  intros j Hj. unfold ex_words. assert (E : cells 4 1000 l (cells 4 2000 (repeat 0%Z (length l)) (fun _ => None)) (2000 + 4 * Z.of_nat j)%Z = Some 0%Z); [|rewrite E; discriminate].
  apply (cells_apart words 4 1000 l (cells 4 2000 (repeat 0%Z (length l)) (fun _ => None)) 2000 (repeat 0%Z (length l))); [lia|apply (cells_slice words); lia|right; cbn [lane words] in *; lia|].
  rewrite (nth_error_nth' _ 0%Z) by (rewrite repeat_length; lia). apply f_equal. apply nth_repeat.
Qed.
(** 1, -2.5, 0, 1/2, 3, 10, -20, 88, 7.25 *)
Definition ex_nine : list Z := [1065353216; 3223322624; 0; 1056964608; 1077936128; 1092616192; 3248488448; 1118830592; 1089994752]%Z.
Lemma ex_nine_ok : Forall (fun a => word a /\ finite (decode a) /\ (real (decode a) <= 88)%R) ex_nine.
Proof.
  assert (E : forallb (fun a => ((0 <=? a) && (a <? 2 ^ 32))%Z && (is_finite (decode a) && fle (decode a) (lit 88 0))) ex_nine = true) by (vm_compute; reflexivity).
  rewrite forallb_forall in E. apply Forall_forall. intros a Ha. specialize (E a Ha). apply andb_true_iff in E. destruct E as (W & E). apply andb_true_iff in W. destruct W as (W1 & W2). apply andb_true_iff in E. destruct E as (F & L).
  apply Z.leb_le in W1. apply Z.ltb_lt in W2. split; [split; assumption|]. split; [exact F|]. destruct (lit32 88 0 88) as (F8 & E8); [cbn; lra|reflexivity|lia|lia|]. apply NumLemmas.le_eq in L; [|exact F|exact F8]. lra.
Qed.
Example C63_exp_case : forall c, exists m', Exp32 (Exp NumMath.rounded) c 1000 2000 9 (ex_words ex_nine) m' /\
  forall i a, nth_error ex_nine i = Some a -> exists b, m' (2000 + 4 * Z.of_nat i)%Z = Some b /\ near_exp (decode a) (decode b).
Proof.
  intros c. destruct (ex_slice ex_nine ltac:(cbn; lia)) as (S & C & _ & A). destruct (C63_exp NumMath.rounded c 1000 2000 ex_nine _ NumMath.rounded_go_math S C A) as ((m' & R) & H). exists m'. split; [exact R|].
  intros i a Ea. destruct (proj1 (H m' R) i a Ea) as (b & Eb & Nb). exists b. split; [exact Eb|]. pose proof ex_nine_ok as K. rewrite Forall_forall in K. destruct (K a (nth_error_In _ _ Ea)) as (_ & F & B). apply Nb; [exact F|lra].
Qed.
(** 1, 2.5, 0, 1/2, 3, 10, 20, 88, 0 *)
Definition ex_log : list Z := [1065353216; 1075838976; 0; 1056964608; 1077936128; 1092616192; 1101004800; 1118830592; 0]%Z.
Example C63_log_case : forall c, exists m', Log32 (Log NumMath.rounded) c 1000 2000 9 (ex_words ex_log) m' /\
  (exists b, m' 2000%Z = Some b /\ real (decode b) = 0%R) /\ (exists b, m' 2032%Z = Some b /\ decode b = NumSpec.minus_infinity) /\
  (avx2 c = true -> exists b, m' 2008%Z = Some b /\ decode b = B754_nan).
Proof.
  intros c. destruct (ex_slice ex_log ltac:(cbn; lia)) as (S & C & A & _).
  assert (W : Forall word ex_log) by (unfold ex_log; repeat apply Forall_cons; try apply Forall_nil; (split; [discriminate|reflexivity])). assert (Z0 : decode 0 = fzero) by (apply B2SF_inj; vm_compute; reflexivity).
  assert (Zf : finite (decode 0) /\ real (decode 0) = 0%R) by (rewrite Z0; split; reflexivity).
  destruct (C63_log NumMath.rounded c 1000 2000 ex_log _ NumMath.rounded_go_math S W C A) as ((m' & R) & H). exists m'. split; [exact R|].
  assert (One : finite (decode 1065353216) /\ real (decode 1065353216) = 1%R) by exact one_real.
  split; [|split].
  - destruct (proj1 (H m' R) 0 1065353216%Z eq_refl) as (b & Eb & Nb). exists b. split; [exact Eb|]. destruct One as (F1 & E1). destruct (Nb F1) as (_ & N).
    { rewrite E1. rewrite pow_inv. change 1%R with (bpow radix2 0). apply bpow_le. lia. }
    rewrite E1, ln_1, Rabs_R0, Rminus_0_r, Rmult_0_r in N. pose proof (Rabs_pos (real (decode b))). destruct (Req_dec (real (decode b)) 0) as [Q|Q]; [exact Q|]. apply Rabs_pos_lt in Q. lra.
  - apply (C63_log_zero NumMath.rounded c 1000 2000 ex_log (ex_words ex_log) m' 8 0%Z NumMath.rounded_go_math S C A R eq_refl); [apply Zf|apply Zf|left; unfold whole, width; destruct (avx2 c); cbn; lia].
  - intros Ac. apply (C63_log_zero_refuted NumMath.rounded c 1000 2000 ex_log (ex_words ex_log) m' 2 0%Z S C A R eq_refl); [apply Zf|apply Zf|unfold whole, width; rewrite Ac; cbn; lia|right; unfold width; rewrite Ac; cbn; lia].
Qed.
(** 100 is such an element, in nine of them *)
Example C63_overflow_case : finite (decode 1120403456) /\ real (decode 1120403456) = 100%R /\ is_nan (decode 2143289344) = true /\ decode 2139095040 = infinity /\ word 2143289344.
Proof.
  assert (E : decode 1120403456 = lit 100 0) by (apply B2SF_inj; vm_compute; reflexivity). rewrite E. destruct (lit32 100 0 100) as (F & V); [cbn; lra|reflexivity|lia|lia|].
  split; [exact F|split; [exact V|]]. split; [vm_compute; reflexivity|]. split; [apply B2SF_inj; vm_compute; reflexivity|split; [discriminate|reflexivity]].
Qed.
