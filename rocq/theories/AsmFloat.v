(** * Floating-point lanes: commutativity and the errors of sums *)
From Coq Require Import List ZArith Bool Reals Lia Lra Permutation.
From Flocq Require Import Core BinarySingleNaN Plus_error Relative.
From Verif Require Import FloatModel FloatSpec FloatProofs NumModel NumSpec NumLemmas AsmModel AsmSpec AsmCalls AsmFloatSpec.
Import ListNotations.
Open Scope R_scope.

Lemma fadd_comm d (x y : val d) : fadd x y = fadd y x.
Proof.
  destruct x as [s|s| |s m e B], y as [s'|s'| |s' m' e' B']; try reflexivity; unfold fadd, Bplus.
  - now destruct s, s'.
  - now destruct s, s'.
  - rewrite (Z.min_comm e' e). cbv zeta. unfold Fplus_naive. rewrite Z.add_comm. reflexivity.
Qed.
Lemma fmul_comm d (x y : val d) : fmul x y = fmul y x.
Proof.
  apply B2SF_inj. destruct x as [s|s| |s m e B], y as [s'|s'| |s' m' e' B']; try reflexivity; unfold fmul, Bmult; cbn [B2SF]; try (now rewrite xorb_comm).
  rewrite !B2SF_SF2B, xorb_comm, Pos.mul_comm, Z.add_comm. reflexivity.
Qed.

Lemma u_eq d : u d = / 2 * bpow radix2 (- prec d + 1).
Proof.
  unfold u. rewrite pow2, <- bpow_opp. change (/ 2) with (bpow radix2 (-1)). rewrite <- bpow_plus. f_equal. destruct d; reflexivity.
Qed.
Lemma half_tiny_eq d : half_tiny d = / 2 * bpow radix2 (3 - emax d - prec d).
Proof.
  unfold half_tiny. rewrite pow2, <- bpow_opp. change (/ 2) with (bpow radix2 (-1)). rewrite <- bpow_plus. f_equal. destruct d; reflexivity.
Qed.
Lemma u_pos d : 0 < u d. Proof. unfold u. apply Rinv_0_lt_compat, pow_lt. lra. Qed.
Lemma half_tiny_pos d : 0 < half_tiny d. Proof. unfold half_tiny. apply Rinv_0_lt_compat, pow_lt. lra. Qed.
Lemma gamma_0 d : gamma d 0 = 0. Proof. unfold gamma. cbn [pow]. lra. Qed.
Lemma gamma_S d n : gamma d (S n) = gamma d n + u d * (1 + gamma d n). Proof. unfold gamma. cbn [pow]. lra. Qed.
Lemma gamma_pos d n : 0 <= gamma d n.
Proof. induction n; [rewrite gamma_0; lra|]. rewrite gamma_S. pose proof (u_pos d). nra. Qed.
Lemma gamma_le d n m : (n <= m)%nat -> gamma d n <= gamma d m.
Proof. induction 1; [lra|]. rewrite gamma_S. pose proof (u_pos d). pose proof (gamma_pos d m). nra. Qed.

Lemma round_error d x : Rabs (nearest d x - x) <= u d * Rabs x + half_tiny d.
Proof.
  rewrite nearest_eq. destruct (error_N_FLT radix2 (3 - emax d - prec d) (prec d) ltac:(destruct d; reflexivity) (fun t => negb (Z.even t)) x) as (eps & eta & E1 & E2 & _ & E).
  rewrite <- u_eq in E1. rewrite <- half_tiny_eq in E2.
  change (round radix2 (SpecFloat.fexp (prec d) (emax d)) (round_mode mode_NE) x) with (round radix2 (FLT_exp (3 - emax d - prec d) (prec d)) (Znearest (fun t => negb (Z.even t))) x). rewrite E.
  replace (x * (1 + eps) + eta - x) with (eps * x + eta) by ring. eapply Rle_trans; [apply Rabs_triang|]. rewrite Rabs_mult. pose proof (Rabs_pos x). nra.
Qed.
Lemma plus_error_rel d (x y : val d) : Rabs (nearest d (real x + real y) - (real x + real y)) <= u d * Rabs (real x + real y).
Proof.
  pose proof (u_pos d) as U. destruct (Rle_or_lt (Rabs (real x + real y)) (bpow radix2 (prec d + (3 - emax d - prec d)))) as [H|H].
  - rewrite nearest_eq, round_generic.
    + replace (real x + real y - (real x + real y)) with 0 by ring. rewrite Rabs_R0. pose proof (Rabs_pos (real x + real y)). nra.
    + apply valid_rnd_round_mode.
    + apply (@FLT_format_plus_small radix2 (3 - emax d - prec d) (prec d) (prec_pos d)); auto; apply generic_format_B2R.
  - rewrite nearest_eq, u_eq.
    apply (relative_error_N_FLT radix2 (3 - emax d - prec d) (prec d) ltac:(destruct d; reflexivity) (fun t => negb (Z.even t))).
    apply Rlt_le. eapply Rle_lt_trans; [|exact H]. apply bpow_le. lia.
Qed.

Lemma overflow_infinite d s : is_finite_SF (binary_overflow (prec d) (emax d) mode_NE s) = false. Proof. reflexivity. Qed.
Lemma finite_SF d (x : val d) : is_finite_SF (B2SF x) = is_finite x. Proof. now destruct x. Qed.
Lemma add_back d (x y : val d) : finite (fadd x y) -> finite x /\ finite y /\ real (fadd x y) = nearest d (real x + real y).
Proof.
  intros F. assert (Fx : finite x /\ finite y).
  { unfold finite, fadd in *. destruct x as [s|s| |s m e B], y as [s'|s'| |s' m' e' B']; cbn in F |- *; auto; try discriminate. now destruct (eqb s s'). }
  destruct Fx as (Fx & Fy). split; [exact Fx|]. split; [exact Fy|].
  pose proof (@Bplus_correct (prec d) (emax d) (prec_pos d) (prec_emax d) mode_NE x y Fx Fy) as C. rewrite <- nearest_eq, <- limit_eq in C. fold (fadd x y) in C.
  destruct (Rlt_bool _ _); [exact (proj1 C)|]. exfalso. destruct C as (C & _). unfold finite in F. rewrite <- finite_SF, C, overflow_infinite in F. discriminate.
Qed.
Lemma mul_back d (x y : val d) : finite (fmul x y) -> finite x /\ finite y /\ real (fmul x y) = nearest d (real x * real y).
Proof.
  intros F.
  pose proof (@Bmult_correct (prec d) (emax d) (prec_pos d) (prec_emax d) mode_NE x y) as C. rewrite <- nearest_eq, <- limit_eq in C. fold (fmul x y) in C. unfold finite in *.
  destruct (Rlt_bool _ _).
  - destruct C as (V & C & _). rewrite F in C. symmetry in C. apply andb_true_iff in C. tauto.
  - exfalso. rewrite <- finite_SF, C, overflow_infinite in F. discriminate.
Qed.
Lemma fma_back d (x y z : val d) : finite (ffma x y z) -> finite x /\ finite y /\ finite z /\ real (ffma x y z) = nearest d (real x * real y + real z).
Proof.
  intros F. assert (Fx : finite x /\ finite y /\ finite z).
  { unfold finite, ffma in *. destruct x as [s|s| |s m e B], y as [s'|s'| |s' m' e' B'], z as [t|t| |t n g D]; cbn in F |- *; auto; try discriminate;
      revert F; unfold Bfma; try (destruct (eqb _ _)); discriminate. }
  destruct Fx as (Fx & Fy & Fz). split; [exact Fx|]. split; [exact Fy|]. split; [exact Fz|].
  pose proof (@Bfma_correct (prec d) (emax d) (prec_pos d) (prec_emax d) mode_NE x y z Fx Fy Fz) as C. cbv zeta in C. rewrite <- nearest_eq, <- limit_eq in C. fold (ffma x y z) in C.
  destruct (Rlt_bool _ _); [exact (proj1 C)|]. exfalso. unfold finite in F. rewrite <- finite_SF, C, overflow_infinite in F. discriminate.
Qed.

(** ** Exact sums of permuted and joined lists *)
Lemma total_app d (l k : list (val d)) : total (l ++ k) = total l + total k.
Proof. unfold total. induction l; cbn [app fold_right]; lra. Qed.
Lemma total_perm d (l k : list (val d)) : Permutation l k -> total l = total k.
Proof. unfold total. induction 1; cbn [fold_right]; lra. Qed.
Lemma total_abs_app d (l k : list (val d)) : total_abs (l ++ k) = total_abs l + total_abs k.
Proof. unfold total_abs. induction l; cbn [app fold_right]; lra. Qed.
Lemma total_abs_perm d (l k : list (val d)) : Permutation l k -> total_abs l = total_abs k.
Proof. unfold total_abs. induction 1; cbn [fold_right]; lra. Qed.
Lemma total_le d (l : list (val d)) : Rabs (total l) <= total_abs l.
Proof. induction l; cbn [total total_abs fold_right]; [rewrite Rabs_R0; lra|]. fold (total l) (total_abs l). eapply Rle_trans; [apply Rabs_triang|]. lra. Qed.
Lemma product_app d (l k : list (val d * val d)) : product (l ++ k) = product l + product k.
Proof. unfold product. induction l; cbn [app fold_right]; lra. Qed.
Lemma product_perm d (l k : list (val d * val d)) : Permutation l k -> product l = product k.
Proof. unfold product. induction 1; cbn [fold_right]; lra. Qed.
Lemma product_abs_app d (l k : list (val d * val d)) : product_abs (l ++ k) = product_abs l + product_abs k.
Proof. unfold product_abs. induction l; cbn [app fold_right]; lra. Qed.
Lemma product_abs_perm d (l k : list (val d * val d)) : Permutation l k -> product_abs l = product_abs k.
Proof. unfold product_abs. induction 1; cbn [fold_right]; lra. Qed.
Lemma product_le d (l : list (val d * val d)) : Rabs (product l) <= product_abs l.
Proof. induction l; cbn [product product_abs fold_right]; [rewrite Rabs_R0; lra|]. fold (product l) (product_abs l). eapply Rle_trans; [apply Rabs_triang|]. lra. Qed.
Lemma total_abs_pos d (l : list (val d)) : 0 <= total_abs l.
Proof. eapply Rle_trans; [apply Rabs_pos|apply total_le]. Qed.
Lemma product_abs_pos d (l : list (val d * val d)) : 0 <= product_abs l.
Proof. eapply Rle_trans; [apply Rabs_pos|apply product_le]. Qed.

Section Errors.
Variable d : dtype.

Lemma sum_empty v l : sum_of (floats d) v l -> l = [] -> real v = 0 /\ finite v.
Proof.
  induction 1 as [|x|a b l k m Sa IHa Sb IHb P]; intros E; [split; reflexivity|discriminate|]. subst m.
  symmetry in P. apply Permutation_nil in P. apply app_eq_nil in P. destruct P as (-> & ->).
  destruct (IHa eq_refl) as (A1 & A2), (IHb eq_refl) as (B1 & B2). cbn [bin floats].
  destruct (add_in d a b 0 0 A2 B2 (rep_0 d) (rep_0 d)) as (F & V & _); [lra|]. split; [lra|exact F].
Qed.
(** a sum of nothing added changes nothing *)
Lemma add_zero_r a b : finite (fadd a b) -> @real d b = 0 -> real (fadd a b) = real a.
Proof.
  intros F E. destruct (add_back d a b F) as (Fa & _ & V). rewrite V, E, Rplus_0_r. apply rep_real in Fa. apply Fa.
Qed.
Theorem sum_error v l : sum_of (floats d) v l -> finite v -> Forall finite l /\ Rabs (real v - total l) <= gamma d (length l - 1) * total_abs l.
Proof.
  induction 1 as [|x|a b l k m Sa IHa Sb IHb P]; intros F.
  - split; [constructor|]. cbn. unfold Rminus. rewrite Rplus_opp_r, Rabs_R0. lra.
  - split; [now constructor|]. cbn [length Nat.sub]. unfold total. cbn [fold_right]. rewrite gamma_0. replace (real x - (real x + 0)) with 0 by ring. rewrite Rabs_R0. lra.
  - cbn [bin floats] in *. destruct (add_back d a b F) as (Fa & Fb & V). specialize (IHa Fa). specialize (IHb Fb). destruct IHa as (Fl & Ea), IHb as (Fk & Eb).
    split. { eapply Permutation_Forall; [exact P|]. apply Forall_app. auto. }
    rewrite <- (total_perm _ _ _ P), <- (total_abs_perm _ _ _ P), <- (Permutation_length P), total_app, total_abs_app, app_length.
    pose proof (total_abs_pos d l) as Pl. pose proof (total_abs_pos d k) as Pk.
    destruct l as [|x0 l'] eqn:El.
    { destruct (sum_empty a [] Sa eq_refl) as (Za & _). rewrite fadd_comm in F |- *. rewrite (add_zero_r b a F Za). cbn [length Nat.add]. unfold total at 1, total_abs at 1. cbn [fold_right]. rewrite !Rplus_0_l. exact Eb. }
    destruct k as [|y0 k'] eqn:Ek.
    { destruct (sum_empty b [] Sb eq_refl) as (Zb & _). rewrite (add_zero_r a b F Zb). rewrite Nat.add_0_r. change (total []) with 0. change (total_abs []) with 0. rewrite !Rplus_0_r. exact Ea. }
    rewrite <- El, <- Ek in *. pose proof (plus_error_rel d a b) as Er. rewrite <- V in Er.
    set (N := (length l + length k - 1)%nat). set (M := (N - 1)%nat).
    assert (LM : (length l - 1 <= M)%nat /\ (length k - 1 <= M)%nat /\ N = S M) by (unfold M, N; subst l k; cbn [length]; lia). destruct LM as (L1 & L2 & EN).
    pose proof (gamma_le d _ _ L1) as G1. pose proof (gamma_le d _ _ L2) as G2. rewrite EN, gamma_S. pose proof (gamma_pos d M) as GM. pose proof (u_pos d) as U.
    assert (Ea' : Rabs (real a - total l) <= gamma d M * total_abs l) by nra.
    assert (Eb' : Rabs (real b - total k) <= gamma d M * total_abs k) by nra. clear Ea Eb.
    assert (Es : Rabs (real a + real b) <= (1 + gamma d M) * (total_abs l + total_abs k)).
    { replace (real a + real b) with ((real a - total l) + (real b - total k) + total l + total k) by ring.
      pose proof (total_le d l). pose proof (total_le d k).
      eapply Rle_trans; [apply Rabs_triang|]. eapply Rle_trans; [apply Rplus_le_compat_r, Rabs_triang|]. eapply Rle_trans; [apply Rplus_le_compat_r, Rplus_le_compat_r, Rabs_triang|]. lra. }
    replace (real (fadd a b) - (total l + total k)) with ((real (fadd a b) - (real a + real b)) + (real a - total l) + (real b - total k)) by ring.
    eapply Rle_trans; [apply Rabs_triang|]. eapply Rle_trans; [apply Rplus_le_compat_r, Rabs_triang|]. nra.
Qed.

Lemma dot_empty v l : dot_of (floats d) v l -> l = [] -> real v = 0 /\ finite v.
Proof.
  induction 1 as [|x y|a b l k m Sa IHa Sb IHb P|a x y l m Sa IHa P]; intros E; [split; reflexivity|discriminate| |].
  - subst m. symmetry in P. apply Permutation_nil in P. apply app_eq_nil in P. destruct P as (-> & ->).
    destruct (IHa eq_refl) as (A1 & A2), (IHb eq_refl) as (B1 & B2). cbn [bin floats].
    destruct (add_in d a b 0 0 A2 B2 (rep_0 d) (rep_0 d)) as (F & V & _); [lra|]. split; [lra|exact F].
  - subst m. symmetry in P. apply Permutation_nil in P. apply app_eq_nil in P. destruct P as (_ & H). discriminate.
Qed.
(** the bound of a dot product of n terms *)
Definition dbound (n : nat) (a : R) : R := gamma d n * a + INR n * (1 + gamma d n) * half_tiny d.
Theorem dot_error v l : dot_of (floats d) v l -> finite v -> Forall (fun p => finite (fst p) /\ finite (snd p)) l /\ Rabs (real v - product l) <= dbound (length l) (product_abs l).
Proof.
  pose proof (u_pos d) as U. pose proof (half_tiny_pos d) as Hh.
  induction 1 as [|x y|a b l k m Sa IHa Sb IHb P|a x y l m Sa IHa P]; intros F.
  - split; [constructor|]. unfold dbound. cbn. unfold Rminus. rewrite Rplus_opp_r, Rabs_R0. rewrite gamma_0. lra.
  - cbn [bin floats] in *. destruct (mul_back d x y F) as (Fx & Fy & V). split; [constructor; [auto|constructor]|].
    unfold dbound. cbn [length INR]. unfold product, product_abs. cbn [fold_right fst snd]. rewrite V, !Rplus_0_r, gamma_S, gamma_0. pose proof (round_error d (real x * real y)). nra.
  - cbn [bin floats] in *. destruct (add_back d a b F) as (Fa & Fb & V). specialize (IHa Fa). specialize (IHb Fb). destruct IHa as (Fl & Ea), IHb as (Fk & Eb).
    split. { eapply Permutation_Forall; [exact P|]. apply Forall_app. auto. }
    rewrite <- (product_perm _ _ _ P), <- (product_abs_perm _ _ _ P), <- (Permutation_length P), product_app, product_abs_app, app_length.
    pose proof (product_abs_pos d l) as Pl. pose proof (product_abs_pos d k) as Pk.
    destruct l as [|x0 l'] eqn:El.
    { destruct (dot_empty a [] Sa eq_refl) as (Za & _). rewrite fadd_comm in F |- *. rewrite (add_zero_r b a F Za). cbn [length Nat.add]. change (product []) with 0. change (product_abs []) with 0. rewrite !Rplus_0_l. exact Eb. }
    destruct k as [|y0 k'] eqn:Ek.
    { destruct (dot_empty b [] Sb eq_refl) as (Zb & _). rewrite (add_zero_r a b F Zb). rewrite Nat.add_0_r. change (product []) with 0. change (product_abs []) with 0. rewrite !Rplus_0_r. exact Ea. }
    rewrite <- El, <- Ek in *. pose proof (plus_error_rel d a b) as Er. rewrite <- V in Er.
    set (N := (length l + length k)%nat). set (M := (N - 1)%nat).
    assert (LM : (length l <= M)%nat /\ (length k <= M)%nat /\ N = S M) by (unfold M, N; subst l k; cbn [length]; lia). destruct LM as (L1 & L2 & EN).
    pose proof (gamma_le d _ _ L1) as G1. pose proof (gamma_le d _ _ L2) as G2. pose proof (gamma_pos d M) as GM.
    assert (IN : INR N = INR (length l) + INR (length k)) by (unfold N; apply plus_INR). unfold dbound in *. rewrite IN. rewrite EN, gamma_S.
    pose proof (pos_INR (length l)) as I1. pose proof (pos_INR (length k)) as I2.
    assert (Ea' : Rabs (real a - product l) <= gamma d M * product_abs l + INR (length l) * (1 + gamma d M) * half_tiny d).
    { eapply Rle_trans; [exact Ea|]. apply Rplus_le_compat; [apply Rmult_le_compat_r; lra|]. apply Rmult_le_compat_r; [lra|]. apply Rmult_le_compat_l; lra. }
    assert (Eb' : Rabs (real b - product k) <= gamma d M * product_abs k + INR (length k) * (1 + gamma d M) * half_tiny d).
    { eapply Rle_trans; [exact Eb|]. apply Rplus_le_compat; [apply Rmult_le_compat_r; lra|]. apply Rmult_le_compat_r; [lra|]. apply Rmult_le_compat_l; lra. }
    clear Ea Eb. set (g := gamma d M) in *. set (h := half_tiny d) in *. set (s := INR (length l)) in *. set (t := INR (length k)) in *.
    pose proof (product_le d l) as Ql. pose proof (product_le d k) as Qk.
    set (ea := Rabs (real a - product l)) in *. set (eb := Rabs (real b - product k)) in *.
    assert (Es : Rabs (real a + real b) <= ea + eb + (product_abs l + product_abs k)).
    { replace (real a + real b) with ((real a - product l) + (real b - product k) + product l + product k) by ring.
      eapply Rle_trans; [apply Rabs_triang|]. eapply Rle_trans; [apply Rplus_le_compat_r, Rabs_triang|]. eapply Rle_trans; [apply Rplus_le_compat_r, Rplus_le_compat_r, Rabs_triang|]. fold ea eb. lra. }
    replace (real (fadd a b) - (product l + product k)) with ((real (fadd a b) - (real a + real b)) + (real a - product l) + (real b - product k)) by ring.
    apply Rle_trans with (u d * Rabs (real a + real b) + ea + eb).
    { eapply Rle_trans; [apply Rabs_triang|]. fold eb. apply Rplus_le_compat_r. eapply Rle_trans; [apply Rabs_triang|]. fold ea. lra. }
    set (al := product_abs l) in *. set (ak := product_abs k) in *.
    assert (Hs : ea + eb <= g * (al + ak) + (s + t) * (1 + g) * h) by lra.
    assert (Hu : u d * Rabs (real a + real b) <= u d * (ea + eb + (al + ak))) by (apply Rmult_le_compat_l; lra).
    assert (Hv : u d * (ea + eb) <= u d * (g * (al + ak) + (s + t) * (1 + g) * h)) by (apply Rmult_le_compat_l; lra). lra.
  - cbn [fma floats] in *. destruct (fma_back d x y a F) as (Fx & Fy & Fa & V). specialize (IHa Fa). destruct IHa as (Fl & Ea).
    split. { eapply Permutation_Forall; [exact P|]. apply Forall_app. split; [exact Fl|]. constructor; [auto|constructor]. }
    rewrite <- (product_perm _ _ _ P), <- (product_abs_perm _ _ _ P), <- (Permutation_length P), product_app, product_abs_app, app_length.
    cbn [length]. rewrite Nat.add_1_r. unfold product at 2, product_abs at 2. cbn [fold_right fst snd]. rewrite !Rplus_0_r.
    unfold dbound in *. rewrite S_INR, gamma_S. rewrite V. pose proof (round_error d (real x * real y + real a)) as Er.
    set (p := real x * real y) in *. set (n := length l) in *. set (g := gamma d n) in *. set (h := half_tiny d) in *. set (s := INR n) in *.
    pose proof (gamma_pos d n : 0 <= g) as G. pose proof (pos_INR n : 0 <= s) as I. pose proof (product_le d l) as Ql. pose proof (product_abs_pos d l) as Pl.
    set (ea := Rabs (real a - product l)) in *. set (al := product_abs l) in *. pose proof (Rabs_pos p) as Pp.
    assert (Es : Rabs (p + real a) <= ea + (al + Rabs p)).
    { replace (p + real a) with ((real a - product l) + product l + p) by ring. eapply Rle_trans; [apply Rabs_triang|]. eapply Rle_trans; [apply Rplus_le_compat_r, Rabs_triang|]. fold ea. lra. }
    replace (nearest d (p + real a) - (product l + p)) with ((nearest d (p + real a) - (p + real a)) + (real a - product l)) by ring.
    apply Rle_trans with (u d * Rabs (p + real a) + h + ea). { eapply Rle_trans; [apply Rabs_triang|]. fold ea. lra. }
    assert (Hu : u d * Rabs (p + real a) <= u d * (ea + (al + Rabs p))) by (apply Rmult_le_compat_l; lra).
    assert (Hv : u d * ea <= u d * (g * al + s * (1 + g) * h)) by (apply Rmult_le_compat_l; lra).
    assert (H1 : 0 <= (1 + u d) * g * Rabs p) by (apply Rmult_le_pos; [apply Rmult_le_pos; lra|exact Pp]).
    assert (H2 : 0 <= (g + u d * (1 + g)) * h) by (apply Rmult_le_pos; [|lra]; apply Rplus_le_le_0_compat; [exact G|apply Rmult_le_pos; lra]).
    lra.
Qed.
End Errors.
