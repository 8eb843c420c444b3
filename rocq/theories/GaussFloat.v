(** * NormFloat64 in floating point: words, places and one attempt *)
From Coq Require Import List ZArith Reals Lia Lra Bool.
From Flocq Require Import Core BinarySingleNaN.
From Verif Require Import RandModel RandSpec FloatModel FloatSpec NumModel NumSpec NumLemmas AsmFloatSpec AsmFloat OptFloatNum.
From Verif Require Import GaussTables GaussModel GaussSpec GaussTab GaussReal GaussProofs.
Import ListNotations.
Open Scope R_scope.

(** ** Words *)
Lemma place_range w : is_word w -> (- 2 ^ 31 <= place_of w < 2 ^ 31)%Z.
Proof.
  unfold is_word, place_of. intros H. assert (0 <= w / 2 ^ 32 < 2 ^ 32)%Z by (split; [apply Z.div_pos|apply Z.div_lt_upper_bound]; lia).
  destruct (Z.ltb_spec (w / 2 ^ 32) (2 ^ 31)); lia.
Qed.
Lemma place_eq w : is_word w -> to_signed 32 (uint32_of w) = place_of w.
Proof.
  unfold is_word, place_of, to_signed, uint32_of. intros H. rewrite Z.shiftr_div_pow2 by lia.
  assert (0 <= w / 2 ^ 32 < 2 ^ 32)%Z by (split; [apply Z.div_pos|apply Z.div_lt_upper_bound]; lia).
  rewrite Z.mod_mod by lia. rewrite (Z.mod_small (w / 2 ^ 32)) by lia. reflexivity.
Qed.
Lemma strip_eq w : Z.to_nat (Z.land (place_of w) 127) = strip_of w.
Proof. unfold strip_of. f_equal. change 127%Z with (Z.ones 7). now rewrite Z.land_ones by lia. Qed.
Lemma strip_lt w : (strip_of w < 128)%nat.
Proof. unfold strip_of. pose proof (Z.mod_pos_bound (place_of w) 128 ltac:(lia)). lia. Qed.
Lemma land_strip w : Z.land (place_of w) 127 = Z.of_nat (strip_of w).
Proof. rewrite <- strip_eq. rewrite Z2Nat.id; [reflexivity|]. apply Z.land_nonneg. right. lia. Qed.
Lemma abs_int32_eq j : (- 2 ^ 31 <= j < 2 ^ 31)%Z -> abs_int32 j = Z.abs j.
Proof.
  intros H. unfold abs_int32, to_signed. destruct (Z.ltb_spec j 0) as [N|N].
  - rewrite (Z.mod_small (- j)) by lia. change (32 - 1)%Z with 31%Z. destruct (Z.ltb_spec (- j) (2 ^ 31)).
    + rewrite Z.mod_small; lia.
    + replace j with (- 2 ^ 31)%Z by lia. reflexivity.
  - rewrite Z.mod_small; lia.
Qed.

Lemma unit_of_eq w : is_word w -> finite (unit_of w) /\ real (unit_of w) = unit w /\ 0 <= unit w <= 1 - / 2 ^ 53 /\ Beqb (unit_of w) fone = false.
Proof.
  unfold is_word. intros H. unfold unit_of, unit. change (2 ^ 53 - 1)%Z with (Z.ones 53). rewrite Z.land_ones by lia.
  pose proof (Z.mod_pos_bound w (2 ^ 53) ltac:(lia)) as Hk. set (k := (w mod 2 ^ 53)%Z) in *. clearbody k.
  destruct (lit_eq F64 k 0 (IZR k)) as (F1 & R1); [cbn; lra|cbn [prec]; lia|cbn; lia..|].
  destruct (lit_eq F64 1 53 (2 ^ 53)) as (F2 & R2); [rewrite Rmult_1_l; apply (pow2 53)|cbn; lia..|].
  assert (Q : rep F64 (IZR k / 2 ^ 53)).
  { apply (rep_dyadic F64 k (-53)); [|cbn [prec]; lia|cbn; lia..]. unfold Rdiv. f_equal. rewrite (pow2 53). now rewrite <- bpow_opp. }
  assert (B : 0 <= IZR k / 2 ^ 53 <= 1 - / 2 ^ 53).
  { assert (0 <= IZR k) by (apply IZR_le; lia). assert (IZR k <= 2 ^ 53 - 1) by (rewrite <- (powZ 53 53 eq_refl), <- minus_IZR; apply IZR_le; lia).
    split; [apply Rmult_le_pos; [assumption|left; apply Rinv_0_lt_compat, pow2_pos]|].
    apply (Rmult_le_reg_r (2 ^ 53)); [apply pow2_pos|]. replace (IZR k / 2 ^ 53 * 2 ^ 53) with (IZR k) by field. replace ((1 - / 2 ^ 53) * 2 ^ 53) with (2 ^ 53 - 1) by field. assumption. }
  destruct (div_in F64 (lit k 0) (lit 1 53) _ _ F1 ltac:(rewrite R2; pose proof (pow2_pos 53); lra) Q Q ltac:(rewrite R1, R2; lra)) as (F & (V1 & V2) & _).
  assert (V : real (fdiv (lit k 0) (lit 1 53) : val F64) = IZR k / 2 ^ 53) by lra.
  split; [exact F|]. split; [exact V|]. split; [exact B|].
  destruct (one_eq F64) as (F3 & R3). rewrite Beqb_correct by assumption. unfold real in *. rewrite V, R3.
  apply Req_bool_false. pose proof (Rinv_0_lt_compat _ (pow2_pos 53)). lra.
Qed.

(** ** The place of an attempt *)
Definition value (w : Z) : val F64 := fmul (lit (place_of w) 0) (conv F32 F64 (nth (strip_of w) wn fzero)).
Lemma edge_rep i : (i < 128)%nat -> 0 <= real (nth i wn fzero) -> rep F64 (edge i).
Proof.
  intros Hi P. destruct (w_real i Hi) as (F & E). destruct (conv_up F32 _ F) as (F' & E').
  destruct (lit_eq F64 1 31 (2 ^ 31)) as (F2 & R2); [rewrite Rmult_1_l; apply (pow2 31)|cbn; lia..|].
  unfold edge. rewrite E. apply (rep_dyadic F64 (nth i w60 0%Z) (-29)).
  - change (bpow radix2 (-29)) with (bpow radix2 (- Z.of_nat 29)). rewrite bpow_opp, <- pow2. field.
  - assert (A : forallb (fun z => (Z.abs z <? 2 ^ 53)%Z) w60 = true) by (vm_compute; reflexivity). rewrite forallb_forall in A.
    apply Z.ltb_lt, A, nth_In. exact Hi.
  - cbn; lia.
  - cbn; lia.
Qed.
Lemma wn_pos i : (i < 128)%nat -> 0 < real (nth i wn fzero).
Proof.
  intros Hi. assert (0 < edge i). { destruct i as [|i]; [apply base_facts|apply (strip_facts (S i)); lia]. }
  unfold edge in H. pose proof (pow2_pos 31). destruct (Rlt_dec 0 (real (nth i wn fzero))); [assumption|nra].
Qed.
Lemma edge_le i : (1 <= i < 128)%nat -> edge i <= 3.4427.
Proof.
  intros Hi. rewrite edge_eq by lia. assert (A : forallb (fun z => (z * 10000 <=? 34427 * 2 ^ 29)%Z) (skipn 1 w60) = true) by (vm_compute; reflexivity).
  rewrite forallb_forall in A. specialize (A (nth i w60 0%Z)). destruct i as [|i]; [lia|].
  assert (In (nth (S i) w60 0%Z) (skipn 1 w60)). { change (nth (S i) w60 0%Z) with (nth i (skipn 1 w60) 0%Z). apply nth_In. change (length (skipn 1 w60)) with 127%nat. lia. }
  specialize (A H). apply Z.leb_le, IZR_le in A. rewrite !mult_IZR, (powZ 29 29 eq_refl) in A.
  apply (Rmult_le_reg_r (2 ^ 29)); [apply pow2_pos|]. replace (IZR (nth (S i) w60 0%Z) / 2 ^ 29 * 2 ^ 29) with (IZR (nth (S i) w60 0%Z)) by field. lra.
Qed.
Lemma edge_le_0 i : (i < 128)%nat -> 0 < edge i <= 3.8.
Proof.
  intros Hi. destruct i as [|i]; [destruct base_facts as (_ & _ & _ & _ & H & _); lra|]. pose proof (edge_le (S i) ltac:(lia)). destruct (strip_facts (S i) ltac:(lia)). lra.
Qed.
Lemma value_facts w : is_word w -> finite (value w) /\ real (value w) = nearest F64 (IZR (place_of w) * real (nth (strip_of w) wn fzero)) /\
  Rabs (real (value w)) <= edge (strip_of w).
Proof.
  intros H. pose proof (place_range w H) as P. pose proof (strip_lt w) as Hi. set (i := strip_of w) in *.
  pose proof (wn_pos i Hi) as Wp. destruct (w_real i Hi) as (F & _). destruct (conv_up F32 _ F) as (F' & E').
  destruct (lit_eq F64 (place_of w) 0 (IZR (place_of w))) as (F2 & R2); [cbn; lra|cbn [prec]; lia|cbn; lia..|].
  pose proof (edge_rep i Hi ltac:(lra)) as Er.
  destruct (mul_in F64 (lit (place_of w) 0) (conv F32 F64 (nth i wn fzero)) (- edge i) (edge i) F2 F' (rep_opp _ _ Er) Er) as (Fv & B & V).
  - rewrite R2, E'. unfold edge. assert (- 2 ^ 31 <= IZR (place_of w) <= 2 ^ 31) as (A1 & A2).
    { rewrite <- (powZ 31 31 eq_refl), <- opp_IZR. split; apply IZR_le; lia. }
    split; [rewrite <- Ropp_mult_distr_l_reverse; apply Rmult_le_compat_r; lra|apply Rmult_le_compat_r; lra].
  - unfold value. fold i. split; [exact Fv|]. split; [rewrite V, R2, E'; reflexivity|]. now apply Rabs_le.
Qed.

Section Norm.
Variable m : libm.
Lemma nth_error_of {A} (l : list A) i a : (i < length l)%nat -> nth_error l i = Some (nth i l a).
Proof. intros. now apply nth_error_nth'. Qed.
Lemma start_step w ws : is_word w ->
  norm_from m Start (w :: ws) =
  if (Z.abs (place_of w) <? nth (strip_of w) kn 0)%Z then Got (value w) ws
  else if Nat.eqb (strip_of w) 0 then norm_from m (Tail (place_of w)) ws
  else norm_from m (Strip (Z.of_nat (strip_of w)) (value w)) ws.
Proof.
  intros H. cbn [norm_from]. rewrite place_eq, strip_eq, land_strip by assumption. pose proof (strip_lt w) as Hi. destruct lengths as (L1 & _ & L3).
  rewrite (nth_error_of wn _ fzero) by (rewrite L1; exact Hi). rewrite (nth_error_of kn _ 0%Z) by (rewrite L3; exact Hi).
  rewrite abs_int32_eq by now apply place_range. fold (value w).
  replace (Z.of_nat (strip_of w) =? 0)%Z with (Nat.eqb (strip_of w) 0); [reflexivity|].
  destruct (Nat.eqb_spec (strip_of w) 0), (Z.eqb_spec (Z.of_nat (strip_of w)) 0); auto; lia.
Qed.
Definition height_of (i : nat) (w : Z) : val F32 :=
  fadd (nth i fn fzero) (fmul (conv F64 F32 (unit_of w)) (fsub (nth (i - 1) fn fzero) (nth i fn fzero))).
Lemma strip_step i x w ws : is_word w -> (1 <= i < 128)%nat ->
  norm_from m (Strip (Z.of_nat i) x) (w :: ws) = if flt (height_of i w) (density m x) then Got x ws else norm_from m Start ws.
Proof.
  intros H Hi. cbn [norm_from]. destruct (unit_of_eq w H) as (_ & _ & _ & ->). unfold height.
  replace (Z.to_nat (Z.of_nat i - 1)) with (i - 1)%nat by lia. rewrite Nat2Z.id. destruct lengths as (_ & L2 & _).
  rewrite !(nth_error_of fn _ fzero) by (rewrite L2; lia). reflexivity.
Qed.
Lemma tail_step j w ws : is_word w -> norm_from m (Tail j) (w :: ws) = norm_from m (Tail2 j (fmul (fneg (Log m (unit_of w))) inv_rn)) ws.
Proof. intros H. cbn [norm_from]. now destruct (unit_of_eq w H) as (_ & _ & _ & ->). Qed.
Lemma tail2_step j x w ws : is_word w -> norm_from m (Tail2 j x) (w :: ws) =
  if fle (fmul x x) (fadd (fneg (Log m (unit_of w))) (fneg (Log m (unit_of w)))) then Got (if (0 <? j)%Z then fadd rn x else fsub (fneg rn) x) ws
  else norm_from m (Tail j) ws.
Proof. intros H. cbn [norm_from]. now destruct (unit_of_eq w H) as (_ & _ & _ & ->). Qed.
End Norm.
