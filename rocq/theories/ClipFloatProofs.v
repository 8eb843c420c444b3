(** * Gradient clipping in floating point: values, infinities and NaN *)
From Coq Require Import ZArith Bool Lia List Arith Reals Lra Psatz.
From Flocq Require Import Core BinarySingleNaN.
From Verif Require Import FloatModel FloatSpec FloatProofs NumModel NumSpec NumLemmas AsmModel AsmSpec AsmCalls AsmFloatSpec AsmFloat AsmFloat2 NormFloatModel NormFloatSpec NormFloatEdge SoftFloat SoftFloat3 SoftFloat5 OptFloatNum
  ClipFloatModel ClipFloatSpec.
Import ListNotations.
Local Open Scope R_scope.

Section Values.
Variable d : dtype.
Implicit Types x : val d.
Lemma abs_elem_eq x : abs_elem d x = fabs x.
Proof.
  unfold abs_elem. assert (E : fabs (conv d F64 x) = conv d F64 (fabs x)); [|rewrite E; apply FloatProofs.conv_back; destruct d; exact I].
  destruct d; [|now rewrite !conv_same]. destruct x as [s|s| |s m e H]; try reflexivity.
  set (w := B754_finite s m e H : val F32). destruct (conv_wide F32 F64 w I eq_refl) as (F1 & V1 & S1). destruct (conv_wide F32 F64 (fabs w) I eq_refl) as (F2 & V2 & S2). apply B2R_Bsign_inj; [now apply abs_finite|exact F2| |].
  - change (real (fabs (conv F32 F64 w)) = real (conv F32 F64 (fabs w))). rewrite abs_eq. unfold real in *. rewrite V1, V2. symmetry. apply (abs_eq F32 w).
  - rewrite S2. unfold finite in F1. destruct (conv F32 F64 w); try reflexivity; discriminate.
Qed.
Lemma abs_elems (l : list (val d)) : map (abs_elem d) l = map fabs l.
Proof. apply map_ext. exact abs_elem_eq. Qed.

(** ** ValueClipper *)
Lemma value_clip_map v (gs : list (list (val d))) : flt v (fneg v) = false -> value_clip d v gs = Some (map (map (clip_elem d (conv F64 d (fneg v)) (conv F64 d v))) gs).
Proof. intros H. induction gs as [|g gs IH]; [reflexivity|]. cbn [value_clip map]. unfold clip_in_place. rewrite H, IH. reflexivity. Qed.
Lemma value_clip_panic v (g : list (val d)) gs : flt v (fneg v) = true -> value_clip d v (g :: gs) = None.
Proof. intros H. cbn [value_clip]. unfold clip_in_place. now rewrite H. Qed.
Lemma conv_opp (v : val F64) : conv F64 d (fneg v) = fneg (conv F64 d v).
Proof.
  destruct v as [s|s| |s m e H]; try reflexivity. pose proof (conv_finite F64 d s m e H) as C. pose proof (conv_finite F64 d (negb s) m e H) as C'. cbv zeta in C, C'.
  change (fneg (B754_finite s m e H : val F64)) with (B754_finite (negb s) m e H : val F64). set (w := B754_finite s m e H : val F64) in *. set (w' := B754_finite (negb s) m e H : val F64) in *.
  assert (V : B2R w' = - B2R w) by (change w' with (Bopp w); apply B2R_Bopp).
  assert (N : nearest d (B2R w') = - nearest d (B2R w)) by (rewrite V; unfold nearest; apply round_NE_opp).
  rewrite N, Rabs_Ropp in C'. destruct (Rlt_bool _ _).
  - destruct C as (F & VV & S), C' as (F' & V' & S'). apply B2R_Bsign_inj; [exact F'|now apply neg_finite|rewrite V'; unfold fneg; now rewrite B2R_Bopp, VV|]. rewrite S'. unfold fneg. destruct (conv F64 d w); cbn in S, F |- *; try discriminate; subst; reflexivity.
  - rewrite C, C'. reflexivity.
Qed.
Lemma lt_nan_l (x : val d) : flt B754_nan x = false. Proof. reflexivity. Qed.
Lemma lt_nan_r (x : val d) : flt x B754_nan = false. Proof. destruct x as [| | |[]]; reflexivity. Qed.
Lemma clip_nan lo hi : clip_elem d lo hi B754_nan = B754_nan.
Proof. unfold clip_elem. now rewrite lt_nan_l, lt_nan_r. Qed.
Lemma lt_infinity (x : val d) : finite x -> flt x infinity = true /\ flt infinity x = false /\ flt minus_infinity x = true /\ flt x minus_infinity = false.
Proof. intros F. destruct x as [s|s| |[] m e H]; try discriminate; repeat split; reflexivity. Qed.
(** a finite bound *)
Lemma clip_finite (t x : val d) : finite t -> 0 <= real t -> is_nan x = false -> let y := clip_elem d (fneg t) t x in
  finite y /\ Rabs (real y) <= real t /\ (finite x -> real y = Rmax (- real t) (Rmin (real t) (real x)) /\ (Rabs (real x) <= real t -> y = x)) /\
  (x = infinity -> y = t) /\ (x = minus_infinity -> y = fneg t).
Proof.
  intros Ft Pt N y. assert (Fn : finite (fneg t)) by now apply neg_finite. pose proof (neg_eq d t) as Vn. destruct (lt_infinity t Ft) as (I1 & I2 & _). destruct (lt_infinity (fneg t) Fn) as (J1 & J2 & J3 & _).
  destruct x as [s|s| |s m e H]; [|destruct s|discriminate|].
  2: { change (B754_infinity true) with (@minus_infinity d) in *. assert (E : y = fneg t) by (unfold y, clip_elem; now rewrite J3). rewrite E. split; [exact Fn|]. split; [rewrite Vn, Rabs_Ropp, Rabs_right by lra; lra|]. split; [discriminate|]. split; [discriminate|auto]. }
  2: { change (B754_infinity false) with (@infinity d) in *. assert (E : y = t) by (unfold y, clip_elem; now rewrite J2, I1). rewrite E. split; [exact Ft|]. split; [rewrite Rabs_right by lra; lra|]. split; [discriminate|]. split; [auto|discriminate]. }
  all: match goal with |- context [?a = infinity] => set (x := a) in * end; assert (Fx : finite x) by reflexivity; unfold y, clip_elem.
  all: destruct (flt x (fneg t)) eqn:E1; [apply lt_eq in E1; auto; rewrite Vn in E1|apply lt_false in E1; auto; rewrite Vn in E1; destruct (flt t x) eqn:E2; [apply lt_eq in E2; auto|apply lt_false in E2; auto]].
  all: (split; [assumption|]); (split; [rewrite ?Vn; apply Rabs_le; lra|]); (split; [|split; discriminate]); intros _; (split; [rewrite ?Vn; unfold Rmax, Rmin; repeat destruct (Rle_dec _ _); lra|]); intros A; apply Rabs_le_inv in A; try lra; reflexivity.
Qed.
(** a bound that exceeds the range of the type, or is not a number *)
Lemma clip_none x : clip_elem d (fneg infinity) infinity x = x /\ clip_elem d (fneg B754_nan) B754_nan x = x.
Proof. unfold clip_elem, fneg. cbn [Bopp negb infinity]. rewrite lt_nan_l, lt_nan_r. split; [|reflexivity]. destruct x as [|[]| |[]]; reflexivity. Qed.
End Values.

(** ** NormClipper: a norm that is infinite or not a number *)
Lemma small_finite : finite small /\ / 2 ^ 24 <= real small <= / 2 ^ 23.
Proof. destruct (lit_eq F64 7555786372591432 (-76) (7555786372591432 / 2 ^ 76)) as (F & V); [unfold Rdiv; f_equal; rewrite pow2, <- bpow_opp; reflexivity|cbn; lia..|]. unfold small. split; [exact F|]. rewrite V. cbn [pow]. lra. Qed.
Section Special.
Variable m : libm.
Hypothesis G : go_squares m.
Variable d : dtype.
Variable sum : nat -> list (val d) -> val d.
Hypothesis A : adds_all sum.
Notation grads := (list (list (val d))).
Lemma two_ok : fle two fone = false /\ fdiv fone two = one_half /\ exists b mm e H, two = B754_finite b mm e H.
Proof. split; [vm_compute; reflexivity|]. split; [apply B2SF_inj; vm_compute; reflexivity|]. destruct two as [| | |b mm e H] eqn:E; try (apply (f_equal B2SF) in E; vm_compute in E; discriminate). now exists b, mm, e, H. Qed.
Lemma total_two (gs : grads) : total_norm m d sum two gs = Some (Pow m (sum_loop m d sum 0 two fzero gs) one_half).
Proof. destruct two_ok as (_ & E & b & mm & e & H & E2). unfold total_norm. rewrite E. rewrite E2. reflexivity. Qed.
Lemma coefficient_infinite (M : val F64) : finite M -> exists s, coefficient M infinity = B754_zero s.
Proof.
  intros F. unfold coefficient. assert (E : fadd infinity small = infinity) by (apply B2SF_inj; vm_compute; reflexivity). rewrite E. destruct M as [s|s| |s mm e H]; try discriminate; eexists; reflexivity.
Qed.
(** what becomes of an element when everything is multiplied by zero *)
Definition erased (x x' : val d) : Prop := (finite x -> is_zero x') /\ (~ finite x -> x' = B754_nan).
Lemma erase s (x : val d) : erased x (scale_elem d (B754_zero s) x).
Proof. unfold erased, scale_elem, finite, is_zero. cbn [conv]. destruct x as [b|b| |b mm e H]; (split; [intros F; try discriminate; split; reflexivity|intros F; try reflexivity; exfalso; now apply F]). Qed.
Lemma erase_all s (gs : grads) : Forall2 (Forall2 erased) gs (map (map (scale_elem d (B754_zero s))) gs).
Proof. induction gs as [|g gs IH]; cbn [map]; constructor; [|exact IH]. induction g as [|x g IHg]; cbn [map]; constructor; [apply erase|exact IHg]. Qed.
Lemma clip_infinite (M p : val F64) (gs : grads) : finite M -> fle p fone = false -> total_norm m d sum p gs = Some infinity ->
  exists gs', norm_clip m d sum M p gs = Some gs' /\ Forall2 (Forall2 erased) gs gs'.
Proof.
  intros F P T. unfold norm_clip. rewrite P, T. destruct (coefficient_infinite M F) as (s & E). rewrite E. cbv zeta. assert (Z : flt (B754_zero s : val F64) fone = true) by (destruct s; vm_compute; reflexivity). rewrite Z. eexists. split; [reflexivity|apply erase_all].
Qed.
Lemma clip_not_number (M p : val F64) (gs : grads) : fle p fone = false -> total_norm m d sum p gs = Some B754_nan -> norm_clip m d sum M p gs = Some gs.
Proof.
  intros P T. unfold norm_clip. rewrite P, T. unfold coefficient. assert (E : fdiv M (fadd B754_nan small) = B754_nan) by (destruct M; reflexivity). cbv zeta. rewrite E. reflexivity.
Qed.
(** squares *)
Lemma square_elem (x : val d) : is_nan x = false -> large_or (pow_elem m d two (abs_elem d x)) /\ (~ finite x \/ huge d <= Rabs (real x) -> pow_elem m d two (abs_elem d x) = infinity).
Proof.
  intros N. rewrite abs_elem_eq. unfold pow_elem. destruct (is_finite x) eqn:Fx.
  2: { destruct x as [s|s| |s mm e H]; try discriminate. change (conv d F64 (fabs (B754_infinity s : val d))) with (B754_infinity false : val F64). rewrite (sq_infinity m G). split; [right|intros _]; reflexivity. }
  assert (Fa : finite (fabs x)) by now apply abs_finite. destruct (conv_up d (fabs x) Fa) as (Fu & Vu). rewrite abs_eq in Vu. set (w := conv d F64 (fabs x)) in *.
  assert (Pw : 0 <= real w) by (rewrite Vu; apply Rabs_pos).
  assert (Cl : forall v : val F64, finite v /\ 0 <= real v \/ v = infinity -> large_or (conv F64 d v)).
  { intros v [(Fv & Pv)| ->]; [|right; reflexivity]. destruct d; [|left; rewrite conv_same; auto]. destruct v as [s|s| |s mm e H]; try discriminate; [left; split; [reflexivity|cbn; lra]|].
    pose proof (conv_finite F64 F32 s mm e H) as C. cbv zeta in C. destruct (Rlt_bool _ _).
    - destruct C as (Fc & Vc & _). left. split; [exact Fc|]. unfold real. rewrite Vc. apply nearest_pos. exact Pv.
    - right. rewrite C. cbn [Bsign]. destruct s; [|reflexivity]. exfalso. cbn in Pv. pose proof (F2R_lt_0 radix2 (Float radix2 (Zneg mm) e) ltac:(cbn; lia)). lra. }
  split; [apply Cl; destruct (sq_either m G w Fu); auto|]. intros [Q|Q]; [now elim Q|]. assert (Q' : huge d <= Rabs (real w)) by (rewrite Vu, Rabs_Rabsolu; exact Q). clear Cl Q. unfold huge in Q'. destruct d.
  - (* float32: the square is at least 2^128 *)
    assert (L : Rabs (real w) <= 2 ^ 500). { rewrite Vu, Rabs_Rabsolu. pose proof (rep_real F32 x Fx) as (_ & L). rewrite limit_eq in L. apply Rlt_le in L. eapply Rle_trans; [exact L|]. rewrite pow2. apply bpow_le. cbn. lia. }
    destruct (sq_value m G w Fu L) as (Fs & Ps & E). set (v := Pow m w two) in *. apply Rabs_le_inv in E. rewrite (Rabs_right (real w)) in Q' by lra.
    assert (W : 2 ^ 130 <= real w * real w) by (change 130%nat with (65 + 65)%nat; rewrite pow_add; apply Rmult_le_compat; try exact Q'; apply pow_le; lra).
    assert (T : / 2 ^ 50 <= / 1000) by (apply inv_small; lia). assert (T' : / 2 ^ 1074 <= / 1000) by (apply inv_small; lia). unfold Rdiv in E.
    assert (B : 2 ^ 128 <= real v). { assert (W2 : 2 ^ 130 = 4 * 2 ^ 128) by (change 130%nat with (2 + 128)%nat; rewrite pow_add; cbn; lra). assert (1 <= 2 ^ 128) by (apply pow_R1_Rle; lra). assert (real w * real w * / 2 ^ 50 <= real w * real w * / 1000) by (apply Rmult_le_compat_l; lra). lra. }
    destruct v as [s|s| |s mm e H]; try discriminate; [cbn in B; assert (1 <= 2 ^ 128) by (apply pow_R1_Rle; lra); lra|]. pose proof (conv_finite F64 F32 s mm e H) as C. cbv zeta in C. rewrite Rlt_bool_false in C.
    + rewrite C. cbn [Bsign]. destruct s; [|reflexivity]. exfalso. cbn in Ps. pose proof (F2R_lt_0 radix2 (Float radix2 (Zneg mm) e) ltac:(cbn; lia)). lra.
    + eapply Rle_trans; [|apply Rle_abs]. rewrite limit_eq. rewrite pow2 in B. rewrite nearest_eq. apply round_ge_generic; [apply FLT_exp_valid; reflexivity|apply valid_rnd_round_mode|apply generic_format_bpow; unfold SpecFloat.fexp, FLT_exp, SpecFloat.emin; cbn; lia|exact B].
  - rewrite (sq_overflow m G w Fu Q'). reflexivity.
Qed.
Lemma up_large (v : val d) : large_or v -> large_or (conv d F64 v) /\ (v = infinity -> conv d F64 v = infinity).
Proof. intros [(F & P)| ->]; [|split; [right|]; reflexivity]. destruct (conv_up d v F) as (F1 & V1). split; [left; rewrite V1; auto|]. intros ->. discriminate. Qed.
Lemma loop_large (gs : grads) k (s : val F64) : Forall (Forall (fun x => is_nan x = false)) gs -> large_or s ->
  large_or (sum_loop m d sum k two s gs) /\ (s = infinity \/ Exists (Exists (fun x => ~ finite x \/ huge d <= Rabs (real x))) gs -> sum_loop m d sum k two s gs = infinity).
Proof.
  revert k s. induction gs as [|g gs IH]; intros k s N L; cbn [sum_loop].
  - split; [exact L|]. intros [E|E]; [exact E|inversion E].
  - inversion N as [|? ? Ng Ns]; subst. set (sq := map (pow_elem m d two) (map (abs_elem d) g)).
    assert (Q : Forall large_or sq /\ (Exists (fun x => ~ finite x \/ huge d <= Rabs (real x)) g -> In infinity sq)).
    { unfold sq. rewrite map_map. split.
      - apply Forall_map. eapply Forall_impl; [|exact Ng]. intros x Nx. now apply square_elem.
      - intros E. apply Exists_exists in E as (x & Hx & E). rewrite Forall_forall in Ng. apply in_map_iff. exists x. split; [|exact Hx]. now apply square_elem; [apply Ng|]. }
    destruct Q as (Q1 & Q2). destruct (sum_large _ _ (A k sq) Q1) as (L1 & I1). destruct (up_large _ L1) as (L2 & I2). destruct (add_large s _ L L2) as (L3 & I3). destruct (IH (S k) _ Ns L3) as (L4 & I4). split; [exact L4|].
    intros [E|E]; [apply I4; left; apply I3; now left|]. inversion E as [? ? E1|? ? E1]; subst; apply I4; [left; apply I3; right; apply I2, I1, Q2, E1|right; exact E1].
Qed.
Lemma loop_nan (gs : grads) k (s : val F64) : s = B754_nan \/ Exists (Exists (fun x => is_nan x = true)) gs -> sum_loop m d sum k two s gs = B754_nan.
Proof.
  revert k s. induction gs as [|g gs IH]; intros k s E; cbn [sum_loop].
  - destruct E as [E|E]; [exact E|inversion E].
  - apply IH. destruct E as [->|E]; [left; reflexivity|]. inversion E as [? ? E1|? ? E1]; subst; [left|right; exact E1].
    assert (Z : sum k (map (pow_elem m d two) (map (abs_elem d) g)) = B754_nan).
    { apply (sum_nan d _ _ (A k _)). apply Exists_exists in E1 as (x & Hx & Nx). rewrite map_map. apply in_map_iff. exists x. split; [|exact Hx]. destruct x; try discriminate. unfold pow_elem, abs_elem. cbn [conv fabs Babs]. rewrite (sq_nan m G). reflexivity. }
    rewrite Z. apply add_nan. right. reflexivity.
Qed.
Lemma overflow_erases (M : val F64) (gs : grads) : finite M -> Forall (Forall (fun x => is_nan x = false)) gs -> Exists (Exists (fun x => ~ finite x \/ huge d <= Rabs (real x))) gs ->
  exists gs', norm_clip m d sum M two gs = Some gs' /\ Forall2 (Forall2 erased) gs gs'.
Proof.
  intros F N E. apply clip_infinite; [exact F|apply two_ok|]. rewrite total_two. f_equal. destruct (loop_large gs 0 fzero N) as (_ & I); [left; split; [reflexivity|cbn; lra]|]. rewrite I by auto. apply (root_infinity m G).
Qed.
Lemma nan_unchanged (M : val F64) (gs : grads) : Exists (Exists (fun x => is_nan x = true)) gs -> norm_clip m d sum M two gs = Some gs.
Proof. intros E. apply clip_not_number; [apply two_ok|]. rewrite total_two. f_equal. rewrite loop_nan by auto. apply (root_nan m G). Qed.
End Special.
