(** * Property C73: recurrent networks in floating point *)
From Coq Require Import List ZArith Reals Lia Lra Bool.
From Flocq Require Import Core BinarySingleNaN.
From Verif Require Import ArithModel FloatModel FloatSpec FloatProofs NumModel NumSpec NumLemmas NumProofs NumMath AsmFloatSpec AsmFloat AsmModel AsmWords AsmExp AsmCalls AsmSpec SoftSpec SoftFloat OptFloatNum NormFloatModel NormFloatBack5 LossFloatModel LossFloatSpec LossFloatProofs4 LossFloatProofs6 LossFloatProofs9.
From Verif Require Import RnnFloatModel RnnFloatSpec RnnFloatProofs RnnFloatProofs2 RnnFloatProofs3 RnnFloatProofs4.
Import ListNotations.
Open Scope R_scope.

(** In all theorems: k inputs and n outputs, at most 2^21 (2^50) each; sequences of whatever length of inputs of at most B; every
    product of a row and a vector in whatever order; a processor c with or without AVX2. *)
Definition not_many (d : dtype) (n : nat) : Prop := INR n * u d <= / 8.

(** ** SRN: all outputs, for ever, are finite and between -1 and 1, and each of them is the tanh of its net input, up to rounding *)
Theorem C73_srn : forall m d dot (g : gate d) k n B xs, go_math m -> dots_all dot -> not_many d k -> not_many d n -> 0 <= B -> good_gate k n B 1 g -> Forall (vector_in k B) xs ->
  length (srn_forward m d dot g xs) = length xs /\ Forall (vector_in n 1) (srn_forward m d dot g xs).
Proof. intros m d dot g k n B xs G D Nk Nn HB Q F. destruct (srn_ok m d dot G D k n B HB Nk Nn g xs Q F) as (L & A & _). split; assumption. Qed.
Print Assumptions C73_srn.
Theorem C73_srn_steps : forall m d dot (g : gate d) k n B xs, go_math m -> tanh_accurate m -> dots_all dot -> not_many d k -> not_many d n -> 0 <= B -> good_gate k n B 1 g -> Forall (vector_in k B) xs ->
  steps (srn_step k n g) None xs (srn_forward m d dot g xs).
Proof. intros m d dot g k n B xs G T D Nk Nn HB Q F. exact (proj2 (proj2 (srn_ok m d dot G D k n B HB Nk Nn g xs Q F)) T). Qed.
Print Assumptions C73_srn_steps.

(** ** GRU: all states are finite and between -1 and 1, and each follows from the one before as documented, up to rounding *)
Theorem C73_gru : forall m d c dot (g : gru d) k n B xs, go_math m -> dots_all dot -> not_many d k -> not_many d n -> 0 <= B ->
  good_gate k n B 1 (Res g) -> good_gate k n B 1 (Part g) -> good_gate k n B 1 (Cand g) -> Forall (vector_in k B) xs ->
  length (gru_forward m d dot (vector_exp m d c) g xs) = length xs /\ Forall (gru_in n) (gru_forward m d dot (vector_exp m d c) g xs).
Proof. intros m d c dot g k n B xs G D Nk Nn HB Q1 Q2 Q3 F. destruct (gru_ok m d c dot G D k n B HB Nk Nn g xs Q1 Q2 Q3 F) as (L & A & _). split; assumption. Qed.
Print Assumptions C73_gru.
Theorem C73_gru_steps : forall m d c dot (g : gru d) k n B xs, go_math m -> tanh_accurate m -> dots_all dot -> not_many d k -> not_many d n -> 0 <= B ->
  good_gate k n B 1 (Res g) -> good_gate k n B 1 (Part g) -> good_gate k n B 1 (Cand g) -> Forall (vector_in k B) xs ->
  steps (gru_step k n g) None xs (gru_forward m d dot (vector_exp m d c) g xs).
Proof. intros m d c dot g k n B xs G T D Nk Nn HB Q1 Q2 Q3 F. exact (proj2 (proj2 (gru_ok m d c dot G D k n B HB Nk Nn g xs Q1 Q2 Q3 F)) T). Qed.
Print Assumptions C73_gru_steps.

(** ** LSTM: all gates and outputs are finite and between -1 and 1, and no cell ever exceeds 2^24 (2^53) *)
Definition plain_scale d : scale d 1 (most d).
Proof. replace (most d) with (cap d); [apply scale_one|]. unfold cap, most. destruct d; cbn [prec]; rewrite <- (IZR_Zpower radix2) by lia; rewrite pow_IZR; reflexivity. Qed.
Definition refined_scale d j : (j <= 100)%nat -> scale d (2 ^ j) (2 * (2 ^ j * most d)).
Proof. intros H. replace (most d) with (cap d); [apply scale_refined, H|]. unfold cap, most. destruct d; cbn [prec]; rewrite <- (IZR_Zpower radix2) by lia; rewrite pow_IZR; reflexivity. Qed.
Definition good_lstm {d} (k n : nat) (B Y : R) (g : lstm d) : Prop := good_gate k n B Y (InG g) /\ good_gate k n B Y (OutG g) /\ good_gate k n B Y (ForG g) /\ good_gate k n B Y (CandG g).
Theorem C73_lstm : forall m d c dot (g : lstm d) k n B xs, go_math m -> dots_all dot -> not_many d k -> not_many d n -> 0 <= B -> Refined g = false -> good_lstm k n B 1 g -> Forall (vector_in k B) xs ->
  let ss := lstm_forward m d dot (vector_exp m d c) g xs in length ss = length xs /\ Forall (lstm_in n 1 (most d)) ss /\ (tanh_accurate m -> steps (lstm_step k n g) None xs ss).
Proof.
  intros m d c dot g k n B xs G D Nk Nn HB R (Q1 & Q2 & Q3 & Q4) F. apply (lstm_ok m d c dot G D k n B HB Nk Nn 1 (most d) (plain_scale d) g xs Q1 Q2 Q3 Q4); [|exact F]. rewrite R. discriminate.
Qed.
Print Assumptions C73_lstm.
(** With refined gates and inputs of at most 2^j, gates and outputs are at most 2^j, and cells at most 2^(j+25) (2^(j+54)). *)
Theorem C73_lstm_refined : forall m d c dot (g : lstm d) n j xs, go_math m -> dots_all dot -> not_many d n -> (j <= 100)%nat -> good_lstm n n (2 ^ j) (2 ^ j) g -> Forall (vector_in n (2 ^ j)) xs ->
  let ss := lstm_forward m d dot (vector_exp m d c) g xs in length ss = length xs /\ Forall (lstm_in n (2 ^ j) (2 * (2 ^ j * most d))) ss /\ (tanh_accurate m -> steps (lstm_step n n g) None xs ss).
Proof.
  intros m d c dot g n j xs G D Nn Hj (Q1 & Q2 & Q3 & Q4) F. apply (lstm_ok m d c dot G D n n (2 ^ j) ltac:(apply pow_le; lra) Nn Nn (2 ^ j) _ (refined_scale d j Hj) g xs Q1 Q2 Q3 Q4); [|exact F]. auto.
Qed.
Print Assumptions C73_lstm_refined.

(** ** NaN.  Whatever the parameters and inputs: a single NaN in the state makes every output of every later step NaN. *)
Theorem C73_nan_srn : forall m d dot k n (g : gate d) t y xs, dots_all dot -> Tanh m B754_nan = B754_nan -> (0 < n)%nat -> shaped k n g -> length y = n -> some_nan y ->
  Forall all_nan (run d (srn_next m d dot g) t (Some y) xs).
Proof. intros m d dot k n g t y xs D T P. exact (srn_nan m d dot D T k n P g t y xs). Qed.
Print Assumptions C73_nan_srn.
Theorem C73_nan_gru : forall m d dot vexp k n (g : gru d) t s xs, dots_all dot -> Tanh m B754_nan = B754_nan -> (forall l, length (vexp l) = length l) -> (0 < n)%nat ->
  shaped k n (Res g) -> shaped k n (Part g) -> shaped k n (Cand g) -> length (gY s) = n -> some_nan (gY s) ->
  Forall (fun s => all_nan (gC s) /\ all_nan (gY s)) (run d (gru_next m d dot vexp g) t (Some s) xs).
Proof. intros m d dot vexp k n g t s xs D T V P. exact (gru_nan m d dot vexp D T V k n P g t s xs). Qed.
Print Assumptions C73_nan_gru.
Theorem C73_nan_lstm : forall m d dot vexp k n (g : lstm d) t s xs, dots_all dot -> Tanh m B754_nan = B754_nan -> (forall l, length (vexp l) = length l) -> (0 < n)%nat ->
  (Refined g = true -> k = n) -> shaped k n (InG g) -> shaped k n (OutG g) -> shaped k n (ForG g) -> shaped k n (CandG g) -> length (lCell s) = n -> length (lY s) = n -> some_nan (lY s) -> Forall (fun x => length x = k) xs ->
  Forall (fun s => all_nan (lCand s) /\ all_nan (lCell s) /\ all_nan (lY s)) (run d (lstm_next m d dot vexp g) t (Some s) xs).
Proof. intros m d dot vexp k n g t s xs D T V P. exact (lstm_nan m d dot vexp D T V k n P g t s xs). Qed.
Print Assumptions C73_nan_lstm.

(** ** The hypotheses are met *)
Definition in_turn {d} (_ : list nat) (l : list (val d * val d)) : val d := match l with [] => fzero | p :: l' => fold_left (fun a q => fadd a (fmul (fst q) (snd q))) l' (fmul (fst p) (snd p)) end.
Example C73_dots d : dots_all (@in_turn d).
Proof.
  intros k l. destruct l as [|p l]; [exact (dot_zero (floats d))|]. unfold in_turn. destruct p as (a, b). cbn [fst snd].
  assert (H : forall l k v, dot_of (floats d) v k -> dot_of (floats d) (fold_left (fun a q => fadd a (fmul (fst q) (snd q))) l v) (k ++ l)).
  { clear. induction l as [|(a, b) l IH]; intros k v H; cbn [fold_left fst snd]; [now rewrite app_nil_r|]. replace (k ++ (a, b) :: l) with ((k ++ [(a, b)]) ++ l) by (now rewrite <- app_assoc). apply IH.
    apply (dot_add (floats d) v (bin (floats d) Mul a b) k [(a, b)]); [exact H|constructor|apply Permutation.Permutation_refl]. }
  exact (H l [(a, b)] _ (dot_one (floats d) a b)).
Qed.
Lemma exact_lit d k : (0 <= k < 2048)%Z -> finite (lit k 0 : val d) /\ real (lit k 0 : val d) = IZR k.
Proof. intros H. apply lit_eq; [cbn; lra|destruct d; cbn; lia..]. Qed.
Example C73_library : go_math rounded /\ tanh_accurate rounded /\ Tanh rounded B754_nan = B754_nan.
Proof.
  split; [exact rounded_go_math|]. split; [|reflexivity]. intros x F. rewrite tanh_def by exact F.
  destruct (of_real_in (tanh (real x)) (-1) 1) as (_ & _ & E); [apply rep_opp, rep_1|apply rep_1|apply Rabs_le_inv, tanh_unit|]. rewrite E. eapply Rle_trans; [apply round_error|].
  pose proof (tanh_unit (real x)) as H. pose proof (u_pos F64) as U. pose proof (tiny_u F64) as (T & _). assert (u F64 * Rabs (tanh (real x)) <= u F64 * 1) by (apply Rmult_le_compat_l; lra).
  assert (E50 : 8 * u F64 = / 2 ^ 50) by (unfold u; replace 8 with (2 ^ 3) by (cbn; lra); rewrite <- (Rinv_involutive (2 ^ 3)) by (apply pow_nonzero; lra); rewrite <- Rinv_mult_distr by (apply Rinv_neq_0_compat || idtac; apply pow_nonzero; lra); f_equal; lra). lra.
Qed.
Definition one_gate d : gate d := {| W := [[lit 3 0]]; WRec := [[lit 2 0]]; Bias := [lit 1 0] |}.
Lemma safe_big d : 2 ^ 20 <= safe d.
Proof. unfold safe. destruct d; apply Rle_pow; lra || lia. Qed.
Lemma few d n : (n <= 3)%nat -> not_many d n.
Proof. intros H. unfold not_many. pose proof (u_small d) as (U1 & U2). assert (/ 2 ^ 24 <= / 1000) by (apply Rle_trans with (/ 2 ^ 10); [apply Rinv_le_contravar; [apply pow_lt; lra|apply Rle_pow; [lra|lia]]|lra]). apply Rle_trans with (INR 3 * u d); [apply Rmult_le_compat_r; [lra|apply le_INR, H]|cbn [INR]; lra]. Qed.
Lemma single d a r b B Y : (0 <= a < 2048)%Z -> (0 <= r < 2048)%Z -> (0 <= b < 2048)%Z -> 0 <= B <= 4 -> 0 <= Y <= 4 -> good_gate 1 1 B Y {| W := [[lit a 0 : val d]]; WRec := [[lit r 0]]; Bias := [lit b 0] |}.
Proof.
  intros Ha Hr Hb HB HY. destruct (exact_lit d a Ha) as (Fa & Va), (exact_lit d r Hr) as (Fr & Vr), (exact_lit d b Hb) as (Fb & Vb).
  assert (I : forall z, (0 <= z < 2048)%Z -> 0 <= IZR z <= 2048) by (intros z Hz; split; apply IZR_le; lia).
  constructor; cbn [W WRec Bias length]; [repeat constructor; assumption..|]. intros [|i] Hi; [|lia]. cbn [nth]. unfold total_abs. cbn [fold_right]. rewrite Va, Vr, Vb. rewrite !Rabs_right by (apply Rle_ge, I; assumption).
  pose proof (I a Ha). pose proof (I r Hr). pose proof (I b Hb). assert (B * (IZR a + 0) <= 4 * 2048) by (apply Rmult_le_compat; lra). assert (Y * (IZR r + 0) <= 4 * 2048) by (apply Rmult_le_compat; lra). pose proof (safe_big d). lra.
Qed.
Example C73_gate d B Y : 0 <= B <= 4 -> 0 <= Y <= 4 -> good_gate 1 1 B Y (one_gate d).
Proof. intros HB HY. apply single; lia || assumption. Qed.
Definition inputs (d : dtype) (t : nat) : list (list (val d)) := repeat [lit 2 0] t.
Lemma inputs_in d t : Forall (vector_in 1 2) (inputs d t).
Proof. unfold inputs. apply Forall_forall. intros x Hx. apply repeat_spec in Hx. subst x. destruct (exact_lit d 2 ltac:(lia)) as (F & V). split; [reflexivity|]. constructor; [|constructor]. split; [exact F|]. rewrite V, Rabs_right; lra. Qed.
(** GRU and LSTM with three inputs, or with t *)
Example C73_gru_case d c t : let g := {| Res := one_gate d; Part := one_gate d; Cand := one_gate d |} in
  steps (gru_step 1 1 g) None (inputs d t) (gru_forward rounded d in_turn (vector_exp rounded d c) g (inputs d t)).
Proof. destruct C73_library as (G & T & _). apply C73_gru_steps with (B := 2); auto; try (apply few; lia); try (apply C73_gate; lra); [apply C73_dots|lra|apply inputs_in]. Qed.
Example C73_lstm_case d c t b : let g := {| InG := one_gate d; OutG := one_gate d; ForG := one_gate d; CandG := one_gate d; Refined := b |} in
  Forall (lstm_in 1 2 (4 * most d)) (lstm_forward rounded d in_turn (vector_exp rounded d c) g (inputs d t)).
Proof.
  destruct C73_library as (G & T & _). intros g.
  destruct (C73_lstm_refined rounded d c in_turn g 1 1 (inputs d t) G (C73_dots d)) as (_ & F & _); [apply few; lia|lia|split; [|split; [|split]]; apply C73_gate; cbn; lra|replace (2 ^ 1) with 2 by (cbn; lra); apply inputs_in|].
  replace (4 * most d) with (2 * (2 ^ 1 * most d)) by (cbn; ring). replace 2 with (2 ^ 1) at 1 by (cbn; lra). exact F.
Qed.
(** a NaN input is one way to get a NaN state *)
Example C73_nan_case d : let y := srn_next rounded d in_turn (one_gate d) 0 None [B754_nan] in length y = 1%nat /\ some_nan y /\ shaped 1 1 (one_gate d).
Proof. cbv zeta. split; [reflexivity|]. split; [left; destruct d; reflexivity|]. repeat constructor. Qed.

(** ** Findings *)
(** Without a bound on the parameters, finite ones and finite inputs can give NaN where the net input is 0. *)
Theorem C73_overflow_refuted : forall d, exists dot (g : gate d) x, dots_all dot /\ shaped 2 1 g /\ Forall (Forall finite) (W g) /\ Forall finite (Bias g) /\ Forall finite x /\ net_input g x None 0 = 0 /\
  srn_forward rounded d dot g [x] = [[B754_nan]].
Proof.
  intros d. set (b := lit 1 (emax d - 1) : val d). set (two := lit 2 0 : val d).
  assert (Fb : finite b) by (unfold b; destruct d; vm_compute; reflexivity). destruct (exact_lit d 2 ltac:(lia)) as (Ft & Vt). pose proof (neg_eq d b) as Vn. assert (Fn : finite (fneg b)) by (unfold b; destruct d; vm_compute; reflexivity).
  exists in_turn, {| W := [[b; fneg b]]; WRec := [[fzero]]; Bias := [fzero] |}, [two; two]. split; [apply C73_dots|]. split; [repeat constructor|]. split; [repeat constructor; assumption|]. split; [repeat constructor|]. split; [repeat constructor; assumption|].
  split; [unfold net_input, product; cbn [W Bias nth combine fold_right fst snd]; rewrite Vn; unfold real at 5; cbn [B2R fzero]; ring|].
  assert (E1 : fmul b two = NumSpec.infinity) by (apply B2SF_inj; unfold b, two; destruct d; vm_compute; reflexivity). assert (E2 : fmul (fneg b) two = NumSpec.minus_infinity) by (apply B2SF_inj; unfold b, two; destruct d; vm_compute; reflexivity).
  unfold srn_forward, run, srn_next, affine. cbn [W Bias mul_rows combine]. unfold in_turn. cbn [fold_left fst snd]. rewrite E1, E2. destruct d; reflexivity.
Qed.
Print Assumptions C73_overflow_refuted.
(** A cell at 2^24 (2^53) that should grow, with its gates open, does not. *)
Definition open_gate d : gate d := {| W := [[lit 0 0]]; WRec := [[lit 0 0]]; Bias := [lit 1000 0] |}.
Definition counter d : lstm d := {| InG := open_gate d; OutG := open_gate d; ForG := open_gate d; CandG := open_gate d; Refined := false |}.
Theorem C73_cell_stuck_refuted : forall m d c, go_math m -> tanh_accurate m -> exists dot (s : lstm_state d) x, dots_all dot /\ good_lstm 1 1 1 1 (counter d) /\ vector_in 1 1 x /\ lstm_in 1 1 (most d) s /\
  let s' := lstm_next m d dot (vector_exp m d c) (counter d) 0 (Some s) x in
  at_ (lFor s') 0 * at_ (lCell s) 0 + at_ (lIn s') 0 * at_ (lCand s') 0 >= at_ (lCell s) 0 + 0.9 /\ at_ (lCell s') 0 = at_ (lCell s) 0.
Proof.
  intros m d c G T. destruct (exact_lit d 0 ltac:(lia)) as (F0 & V0). destruct (exact_lit d 1000 ltac:(lia)) as (Fk & Vk). destruct (one_eq d) as (Fo & Vo).
  set (top := lit 1 (prec d) : val d). assert (Tp : finite top /\ real top = cap d) by (unfold top; apply lit_eq; [unfold cap; now rewrite Rmult_1_l|destruct d; cbn; lia..]). destruct Tp as (Fp & Vp).
  assert (Em : most d = cap d) by (unfold cap, most; destruct d; cbn [prec]; rewrite <- (IZR_Zpower radix2) by lia; rewrite pow_IZR; reflexivity).
  assert (C1 : 1 <= cap d) by (unfold cap; change 1 with (bpow radix2 0); apply bpow_le; destruct d; cbn; lia).
  set (s := {| lIn := [fone]; lOut := [fone]; lFor := [fone]; lCand := [fone]; lCell := [top]; lY := [fone] |} : lstm_state d).
  assert (V1 : vector_in 1 1 [fone : val d]) by (split; [reflexivity|]; constructor; [split; [exact Fo|rewrite Vo, Rabs_R1; lra]|constructor]).
  exists in_turn, s, [fzero]. split; [apply C73_dots|]. split; [split; [|split; [|split]]; apply single; lia || lra|]. split; [split; [reflexivity|]; constructor; [split; [reflexivity|unfold real; cbn [B2R fzero]; rewrite Rabs_R0; lra]|constructor]|].
  split. { split; [exact V1|]. split; [exact V1|]. split; [exact V1|]. split; [exact V1|]. split; [|exact V1]. split; [reflexivity|]. constructor; [|constructor]. split; [exact Fp|]. rewrite Vp, Em, Rabs_right; lra. }
  intros s'.
  assert (EA : forall j, affine d in_turn 0 j (open_gate d) [fzero] (Some [fone]) = [lit 1000 0]). { intros j. unfold affine. cbn [open_gate W WRec Bias mul_rows combine zip in_turn fst snd fold_left]. f_equal. apply B2SF_inj. destruct d; vm_compute; reflexivity. }
  assert (ES : sigmoid d (vector_exp m d c) [lit 1000 0] = [fone]).
  { unfold sigmoid. cbn [map]. set (v := fmul (lit 1000 0 : val d) (conv F64 d (lit (-1) 0))).
    assert (EV : vector_exp m d c [v] = [B754_zero false]).
    { assert (Z : forall t : val F64, finite t -> real t = -1000 -> Exp m t = B754_zero false) by (intros t Ft Et; apply (exp_underflow m G); [exact Ft|lra]).
      assert (Fv : finite v /\ real v = -1000). { unfold v. destruct (lit_eq F64 (-1) 0 (-1) ltac:(cbn; lra) ltac:(cbn; lia) ltac:(cbn; lia) ltac:(cbn; lia)) as (F1 & W1). destruct (minus_eq d _ Fk) as (A & B). unfold minus in A, B. rewrite Vk in B. split; [exact A|rewrite B; lra]. }
      destruct Fv as (Fv & Vv). destruct (conv_up d v Fv) as (Fu & Vu). rewrite Vv in Vu. specialize (Z _ Fu Vu). clearbody v. clear - Z. revert v Z. destruct d; intros v Z.
      - cbn [vector_exp vector_exp_from length]. assert (Wc : (0 <? 1 - 1 mod width c)%nat = false) by (unfold width; destruct (avx2 c); reflexivity). rewrite Wc. unfold AsmWords.scalar. rewrite !decode_encode, Z. reflexivity.
      - cbn [vector_exp map]. f_equal. rewrite <- Z. f_equal. symmetry. apply conv_same. }
    rewrite EV. cbn [map]. f_equal. apply B2SF_inj. destruct d; vm_compute; reflexivity. }
  set (t := conv F64 d (go_tanh m (conv d F64 (lit 1000 0))) : val d).
  assert (Et : finite t /\ 0.9 <= real t <= 1).
  { destruct (tanh_elem d m G (lit 1000 0) Fk) as (A & B & C). fold t in A, B, C. specialize (C T). rewrite Vk in C. split; [exact A|].
    assert (H : 0.99 <= tanh 1000). { unfold tanh, sinh, cosh. rewrite exp_Ropp. pose proof (exp_ineq1_le 1000) as E. set (a := exp 1000) in *. assert (I : 0 < / a <= 1) by (split; [apply Rinv_0_lt_compat; lra|rewrite <- Rinv_1; apply Rinv_le_contravar; lra]). unfold Rdiv. apply Rmult_le_reg_r with ((a + / a) * / 2); [lra|]. rewrite Rmult_assoc, Rinv_l by lra. lra. }
    destruct (small d) as (U & _). apply Rabs_le_inv in B. apply Rabs_le_inv in C. lra. }
  destruct Et as (Ft & Bt).
  assert (EI : lIn s' = [fone]) by (unfold s', lstm_next; cbn [lIn counter InG Refined s lY]; rewrite EA; exact ES). assert (EF : lFor s' = [fone]) by (unfold s', lstm_next; cbn [lFor counter ForG s lY]; rewrite EA; exact ES).
  assert (EC : lCand s' = [t]) by (unfold s', lstm_next; cbn [lCand counter CandG s lY]; rewrite EA; reflexivity).
  assert (EL : lCell s' = [fadd (fmul fone t) (fmul fone top)]). { change (lCell s') with (add d (prod d (lIn s') (lCand s')) (prod d (lFor s') (lCell s))). rewrite EI, EF, EC. reflexivity. }
  rewrite EI, EF, EC, EL. cbn [nth s lCell]. rewrite Vo, Vp. split; [lra|].
  assert (M1 : forall x : val d, finite x -> finite (fmul fone x) /\ real (fmul fone x) = real x). { intros x Fx. pose proof (rep_real d x Fx) as R. destruct (mul_in d fone x (real x) (real x) Fo Fx R R) as (A & B & _); [rewrite Vo; lra|]. split; [exact A|lra]. }
  destruct (M1 t Ft) as (Fa & Va), (M1 top Fp) as (Fb & Vb).
  destruct (scale_one d) as [_ RM R2 _ _ _]. destruct (add_in d (fmul fone t) (fmul fone top) (cap d) (2 * cap d) Fa Fb RM R2) as (_ & (B1 & _) & V); [rewrite Va, Vb, Vp; lra|]. apply Rle_antisym; [|exact B1]. rewrite V, Va, Vb, Vp. rewrite <- (cap_saturates d) at 2. apply nearest_le. lra.
Qed.
Print Assumptions C73_cell_stuck_refuted.
