(** * C66, C67: Softmax and Sigmoid on amd64 *)
From Coq Require Import ZArith Bool Lia List Arith Reals Lra.
From Flocq Require Import Core BinarySingleNaN.
From Verif Require Import FloatModel NumModel NumSpec NumLemmas AsmModel AsmCalls AsmSpec AsmFloatSpec AsmFloat AsmWords AsmWordsSpec AsmExp.
From Verif Require Import SoftModel SoftSpec SoftProofs SoftFloat SoftFloat2 SoftFloat3 SoftFloat4 SoftFloat5.
Import ListNotations.
Local Open Scope list_scope.
Local Open Scope R_scope.

(** Softmax of finite numbers, at most 2^30 of them for float32 and 2^59 for float64, on any processor: no panic, no access
    outside the two slices, nothing but the result is written, every output is a number from 0 to 1 and some output is above
    0; with at most 2^21 (2^50) elements every output has the error of SoftSpec.v. *)
Theorem C66_softmax : forall g d c x y l m, go_math g -> Forall finite l -> l <> [] -> INR (length l) * u d <= 64 ->
  held m x l -> room d m x y (length l) -> softmax g d c x y (length l) m (soft_post l m y).
Proof.
  intros g d c x y l m G F N H Hm R. destruct l as [|v vs]; [contradiction|]. apply softmax_run; auto. intros m' es s He Hs Hh O.
  destruct (softmax_values g G d c v vs es s F H He Hs) as (L & A & B & C). eexists. split; [exact L|]. split; [exact Hh|]. split; [exact O|]. split; [exact A|]. split; [exact B|exact C].
Qed.
Print Assumptions C66_softmax.
(** the outputs add up to 1, exactly as far as they are exact themselves *)
Theorem C66_softmax_total : forall g d c x y l m, go_math g -> Forall finite l -> l <> [] -> INR (length l) * u d <= / 8 ->
  held m x l -> room d m x y (length l) ->
  softmax g d c x y (length l) m (fun m' => exists out, length out = length l /\ held m' y out /\ Rabs (total out - 1) <= soft_rel d (length l) + INR (length l) * soft_abs d).
Proof.
  intros g d c x y l m G F N H Hm R. destruct l as [|v vs]; [contradiction|]. apply softmax_run; auto. intros m' es s He Hs Hh O.
  destruct (softmax_values g G d c v vs es s F ltac:(lra) He Hs) as (L & _ & _ & C). eexists. split; [exact L|]. split; [exact Hh|]. specialize (C H). apply sum_near in C.
  rewrite softmax_total, Rmult_1_r in C by exact N. exact C.
Qed.
Print Assumptions C66_softmax_total.
(** Larger inputs give larger outputs: if x' is below x by 2^-15 (2^-40) or more, and x is at most 70 below the largest
    element, then the output of x' is not above that of x. *)
Theorem C66_softmax_order : forall g d c x y l m, go_math g -> Forall finite l -> l <> [] -> INR (length l) * u d <= 64 ->
  held m x l -> room d m x y (length l) ->
  softmax g d c x y (length l) m (fun m' => exists out, length out = length l /\ held m' y out /\
    forall i j a b p q, nth_error l i = Some a -> nth_error l j = Some b -> nth_error out i = Some p -> nth_error out j = Some q ->
      (forall z, In z l -> real z <= real a + 70) -> real b <= real a - match d with F32 => / 2 ^ 15 | F64 => / 2 ^ 40 end -> real q <= real p).
Proof.
  intros g d c x y l m G F N H Hm R. destruct l as [|v vs]; [contradiction|]. apply softmax_run; auto. intros m' es s He Hs Hh O.
  eexists. split; [apply (softmax_values g G d c v vs es s F H He Hs)|]. split; [exact Hh|]. intros i j a b p q Hi Hj Hp Hq M Hb. eapply (softmax_order g G d c v vs es s F H He Hs i j a b); eauto.
  eapply Rle_trans; [exact Hb|]. apply Rplus_le_compat_l, Ropp_le_contravar. unfold eta. replace 4 with (2 ^ 2) by (cbn; lra). right. destruct d; [change 17%nat with (2 + 15)%nat|change 42%nat with (2 + 40)%nat]; rewrite inv_split, <- Rmult_assoc, Rinv_r, Rmult_1_l by (apply pow_nonzero; lra); reflexivity.
Qed.
Print Assumptions C66_softmax_order.
(** Sigmoid of finite numbers, in the same sense *)
Theorem C66_sigmoid : forall g d c x y l m, go_math g -> Forall finite l -> held m x l -> room d m x y (length l) -> sigmoid g d c x y (length l) m (sigm_post l m y).
Proof.
  intros g d c x y l m G F Hm R. apply sigmoid_run; auto. intros m' es He Hh O.
  destruct (sigmoid_values g d c l es G F He) as (L & A). eexists. split; [exact L|]. split; [exact Hh|]. split; [exact O|exact A].
Qed.
Print Assumptions C66_sigmoid.

(** ** C67: NaNs, for float32 *)
(** Outside the whole vectors of the kernel, that is for float64 anywhere and for float32 in the rest of the vector, a NaN
    stays one by Sigmoid and makes every output NaN by Softmax (math.Exp of NaN is NaN, by its documentation). *)
Theorem C67_sigmoid_partial : forall g d c x y l m i, Exp g B754_nan = B754_nan -> held m x l -> room d m x y (length l) ->
  nth_error l i = Some (B754_nan : val d) -> (d = F32 -> whole (width c) (length l) <= i)%nat ->
  sigmoid g d c x y (length l) m (fun m' => exists w, m' (y + esize_of d * Z.of_nat i)%Z = Some w /\ dec w = B754_nan).
Proof.
  intros g d c x y l m i E Hm R N W. apply sigmoid_run; auto. intros m' es He Hh O.
  apply (Hh i). apply (sigmoid_nan_rest g d c l es i E He N W).
Qed.
Print Assumptions C67_sigmoid_partial.
Theorem C67_softmax_partial : forall g d c x y l m i, Exp g B754_nan = B754_nan -> held m x l -> room d m x y (length l) ->
  nth_error l i = Some (B754_nan : val d) -> (d = F32 -> whole (width c) (length l) <= i)%nat ->
  softmax g d c x y (length l) m (fun m' => held m' y (repeat (B754_nan : val d) (length l))).
Proof.
  intros g d c x y l m i E Hm R N W. destruct l as [|v vs]; [destruct i; discriminate|]. apply softmax_run; auto. intros m' es s He Hs Hh O.
  exact (eq_ind _ (fun o => held m' y o) Hh _ (softmax_nan_rest g d c v vs es s i E N W He Hs)).
Qed.
Print Assumptions C67_softmax_partial.
(** A NaN in a part of the vector that the kernel handles becomes a number by Sigmoid: at most 2^-127. *)
Theorem C67_sigmoid_nan_refuted : forall g c x y l m i, held m x l -> room F32 m x y (length l) ->
  nth_error l i = Some (B754_nan : val F32) -> (i < whole (width c) (length l))%nat ->
  sigmoid g F32 c x y (length l) m (fun m' => exists w, m' (y + 4 * Z.of_nat i)%Z = Some w /\ finite (decode w) /\ 0 <= real (decode w) <= / 2 ^ 127).
Proof.
  intros g c x y l m i Hm R N W. apply sigmoid_run; auto. intros m' es He Hh O.
  destruct (sigmoid_nan g c l es i He N W) as (p & Hp & Fp & Bp). destruct (Hh i p Hp) as (w & Ew & Dw). exists w. split; [exact Ew|]. cbn [dec] in Dw. rewrite Dw. split; [exact Fp|exact Bp].
Qed.
Print Assumptions C67_sigmoid_nan_refuted.
(** A NaN that is not the first element takes the place of the largest one by Softmax: its output is at least 1/2, and every
    other output is at most 2^-126, whatever the other elements are. *)
Theorem C67_softmax_nan_refuted : forall g c x y l m i, go_math g -> held m x l -> room F32 m x y (length l) ->
  (forall j v, nth_error l j = Some v -> j <> S i -> finite v) -> nth_error l (S i) = Some (B754_nan : val F32) -> (S i < whole (width c) (length l))%nat -> INR (length l) * u F32 <= / 8 ->
  softmax g F32 c x y (length l) m (fun m' => exists out, length out = length l /\ held m' y out /\
    forall j p, nth_error out j = Some p -> finite p /\ (j = S i -> / 2 <= real p) /\ (j <> S i -> 0 <= real p <= / 2 ^ 126)).
Proof.
  intros g c x y l m i G Hm R F N W H. destruct l as [|v vs]; [discriminate|]. apply softmax_run; auto. intros m' es s He Hs Hh O.
  destruct (softmax_nan g c v vs es s i G F N W H He Hs) as (L & A). eexists. split; [exact L|]. split; [exact Hh|exact A].
Qed.
Print Assumptions C67_softmax_nan_refuted.
(** With a NaN first, every output is 0. *)
Theorem C67_softmax_nan_first_refuted : forall g c x y (vs : list (val F32)) m, let l : list (val F32) := B754_nan :: vs in held m x l -> room F32 m x y (length l) ->
  (2 <= length l)%nat -> whole (width c) (length l) = length l ->
  softmax g F32 c x y (length l) m (fun m' => held m' y (repeat (B754_zero false : val F32) (length l))).
Proof.
  intros g c x y vs m l Hm R L W. apply softmax_run; auto. intros m' es s He Hs Hh O. pose proof (softmax_nan_first g c vs es s L W He Hs) as E. exact (eq_ind _ (fun o => held m' y o) Hh _ E).
Qed.
Print Assumptions C67_softmax_nan_first_refuted.

(** ** Examples: vectors at address 0, and the result behind them *)
Definition memory_of {d} (l : list (val d)) : Z -> option (lane (lanes_at d)) :=
  fun p => if ((0 <=? p) && (p mod esize_of d =? 0))%Z then nth_error (map enc (l ++ repeat fzero (length l))) (Z.to_nat (p / esize_of d)) else None.
Lemma dec_enc {d} (v : val d) : dec (enc v) = v.
Proof. destruct d; cbn [dec enc]; [apply decode_encode|reflexivity]. Qed.
Lemma memory_at d (l : list (val d)) i : memory_of l (esize_of d * Z.of_nat i)%Z = nth_error (map enc (l ++ repeat fzero (length l))) i.
Proof.
  assert (E : (0 < esize_of d)%Z) by (destruct d; reflexivity). unfold memory_of. replace (0 <=? esize_of d * Z.of_nat i)%Z with true by (symmetry; apply Z.leb_le; nia).
  rewrite Z.mul_comm, Z.mod_mul, Z.div_mul, Nat2Z.id by lia. reflexivity.
Qed.
Lemma memory_ok d (l : list (val d)) : held (memory_of l) 0 l /\ room d (memory_of l) 0 (esize_of d * Z.of_nat (length l)) (length l).
Proof.
  assert (E : (0 < esize_of d)%Z) by (destruct d; reflexivity). split; [|split; [|split]].
  - intros i v H. exists (enc v). split; [|apply dec_enc]. rewrite Z.add_0_l. fold (esize_of d). rewrite memory_at, nth_error_map, nth_error_app1 by (apply nth_error_Some; congruence). rewrite H. reflexivity.
  - fold (esize_of d). rewrite Z.mul_comm. apply Z.mod_mul. lia.
  - intros j H. fold (esize_of d). replace (esize_of d * Z.of_nat (length l) + esize_of d * Z.of_nat j)%Z with (esize_of d * Z.of_nat (length l + j))%Z by lia. rewrite memory_at. apply nth_error_Some. rewrite map_length, app_length, repeat_length. lia.
  - intros i j Hi Hj. fold (esize_of d). nia.
Qed.
Definition logits (d : dtype) : list (val d) := map (fun k => lit k 0) [3; -1; 4; 1; -5; 9; 2; 6; 5]%Z.
Lemma logits_finite d : Forall finite (logits d).
Proof. unfold logits. repeat constructor; destruct d; vm_compute; reflexivity. Qed.
Lemma logits_few d : INR (length (logits d)) * u d <= / 8.
Proof.
  assert (U : u d <= / 1000) by (unfold u; destruct d; apply inv_small; lia). pose proof (u_pos d). unfold logits. rewrite map_length. change (length [3; -1; 4; 1; -5; 9; 2; 6; 5]%Z) with 9%nat. replace (INR 9) with 9 by (cbn; lra). lra.
Qed.
Example C66_case g d c : go_math g -> let l := logits d in let y := (esize_of d * 9)%Z in
  softmax g d c 0 y 9 (memory_of l) (soft_post l (memory_of l) y) /\ sigmoid g d c 0 y 9 (memory_of l) (sigm_post l (memory_of l) y).
Proof.
  intros G l y. destruct (memory_ok d l) as (A & B). pose proof (logits_few d) as F. split.
  - apply (C66_softmax g d c 0 y l); auto; [apply logits_finite|discriminate|fold l in F; lra].
  - apply (C66_sigmoid g d c 0 y l); auto. apply logits_finite.
Qed.
Print Assumptions C66_case.
(** eight elements, the second one NaN *)
Definition spoilt : list (val F32) := [lit 3 0; B754_nan; lit 4 0; lit 1 0; lit (-5) 0; lit 9 0; lit 2 0; lit 6 0].
Example C67_case_nan g c : go_math g -> 
  softmax g F32 c 0 32 8 (memory_of spoilt) (fun m' => exists out, length out = 8%nat /\ held m' 32 out /\
    forall j p, nth_error out j = Some p -> finite p /\ (j = 1%nat -> / 2 <= real p) /\ (j <> 1%nat -> 0 <= real p <= / 2 ^ 126)).
Proof.
  intros G. destruct (memory_ok F32 spoilt) as (A & B). apply (C67_softmax_nan_refuted g c 0 32 spoilt (memory_of spoilt) 0 G); auto.
  - intros j v H D. do 8 (destruct j as [|j]; [try lia; cbn in H; injection H as <-; vm_compute; reflexivity|]). destruct j; discriminate.
  - unfold width. destruct (avx2 c); cbn; lia.
  - rewrite u32. cbn. lra.
Qed.
Print Assumptions C67_case_nan.
(** eight elements, the first one NaN; and a NaN for Sigmoid *)
Definition spoilt_first : list (val F32) := [B754_nan; lit 3 0; lit 4 0; lit 1 0; lit (-5) 0; lit 9 0; lit 2 0; lit 6 0].
Example C67_case_nan_first g c : softmax g F32 c 0 32 8 (memory_of spoilt_first) (fun m' => held m' 32 (repeat (B754_zero false : val F32) 8)).
Proof.
  destruct (memory_ok F32 spoilt_first) as (A & B). apply (C67_softmax_nan_first_refuted g c 0 32 (tl spoilt_first) (memory_of spoilt_first)); auto; [cbn; lia|].
  unfold width. destruct (avx2 c); reflexivity.
Qed.
Example C67_case_sigmoid_nan g c : sigmoid g F32 c 0 32 8 (memory_of spoilt) (fun m' => exists w, m' 36%Z = Some w /\ finite (decode w) /\ 0 <= real (decode w) <= / 2 ^ 127).
Proof.
  destruct (memory_ok F32 spoilt) as (A & B). apply (C67_sigmoid_nan_refuted g c 0 32 spoilt (memory_of spoilt) 1); auto. unfold width. destruct (avx2 c); cbn; lia.
Qed.
Print Assumptions C67_case_sigmoid_nan.
Example C67_case_float64 g c : Exp g B754_nan = B754_nan ->
  softmax g F64 c 0 32 4 (memory_of [lit 3 0; B754_nan; lit 4 0; lit 1 0]) (fun m' => held m' 32 (repeat (B754_nan : val F64) 4)).
Proof.
  intros E. set (l := [lit 3 0; B754_nan; lit 4 0; lit 1 0] : list (val F64)). destruct (memory_ok F64 l) as (A & B).
  apply (C67_softmax_partial g F64 c 0 32 l (memory_of l) 1); auto. discriminate.
Qed.
