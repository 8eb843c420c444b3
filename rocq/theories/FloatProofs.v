(** * Proofs about conversions *)
From Coq Require Import List ZArith Bool Reals Lia Lra.
From Flocq Require Import Core BinarySingleNaN.
From Verif Require Import DenseModel FloatModel FloatSpec.
Import ListNotations.
Open Scope R_scope.

Lemma nearest_eq d x : nearest d x = round radix2 (SpecFloat.fexp (prec d) (emax d)) (round_mode mode_NE) x.
Proof. destruct d; reflexivity. Qed.
Lemma limit_eq d : limit d = bpow radix2 (emax d).
Proof. destruct d; unfold limit, emax; rewrite bpow_powerRZ; reflexivity. Qed.
Lemma conv_finite S D s m e H : let x : val S := B754_finite s m e H in
  if Rlt_bool (Rabs (nearest D (B2R x))) (limit D)
  then is_finite (conv S D x) = true /\ B2R (conv S D x) = nearest D (B2R x) /\ Bsign (conv S D x) = Bsign x
  else conv S D x = B754_infinity (Bsign x).
Proof.
  intros x. pose proof (binary_normalize_correct (prec D) (emax D) (prec_pos D) (prec_emax D) mode_NE (SpecFloat.cond_Zopp s (Zpos m)) e s) as C. cbv zeta in C.
  change (F2R {| Fnum := SpecFloat.cond_Zopp s (Zpos m); Fexp := e |}) with (B2R x) in C. rewrite <- nearest_eq, <- limit_eq in C.
  change (binary_normalize (prec D) (emax D) (prec_pos D) (prec_emax D) mode_NE (SpecFloat.cond_Zopp s (Zpos m)) e s) with (conv S D x) in C.
  assert (Sg : (s = true /\ B2R x < 0) \/ (s = false /\ 0 < B2R x)).
  { unfold x, B2R. destruct s; [left|right]; (split; [reflexivity|]); [apply F2R_lt_0|apply F2R_gt_0]; cbn; lia. }
  destruct (Rlt_bool (Rabs (nearest D (B2R x))) (limit D)).
  - destruct C as (V & F & G). repeat split; auto. rewrite G. cbn [x Bsign]. destruct Sg as [(-> & L)|(-> & L)]; [now rewrite Rcompare_Lt|now rewrite Rcompare_Gt].
  - assert (B : B2SF (conv S D x) = SpecFloat.S754_infinity s) by (destruct Sg as [(-> & L)|(-> & L)]; [rewrite Rlt_bool_true in C by auto|rewrite Rlt_bool_false in C by lra]; exact C).
    change (Bsign x) with s. clear -B. destruct (conv S D x); cbn in B; congruence.
Qed.
Lemma conv_spec S D x : converted x (conv S D x).
Proof.
  destruct x as [s|s| |s m e H]; try reflexivity. pose proof (conv_finite S D s m e H) as C. cbv zeta in C. unfold converted.
  destruct (Rlt_dec _ _) as [L|L]; [rewrite Rlt_bool_true in C by auto|rewrite Rlt_bool_false in C by lra]; exact C.
Qed.
(** a wider or equal type holds every value *)
Definition narrower (S D : dtype) : Prop := match S, D with F64, F32 => False | _, _ => True end.
Lemma fits_wide S D (x : val S) : narrower S D -> is_finite x = true -> nearest D (B2R x) = B2R x /\ Rabs (B2R x) < limit D.
Proof.
  intros N F. split.
  - rewrite nearest_eq. apply round_generic; [apply valid_rnd_round_mode|]. apply generic_inclusion_mag with (fexp1 := SpecFloat.fexp (prec S) (emax S)); [|apply generic_format_B2R].
    intros _. destruct S, D; try contradiction; unfold SpecFloat.fexp, SpecFloat.emin, prec, emax; lia.
  - rewrite limit_eq. apply Rlt_le_trans with (bpow radix2 (emax S)); [apply abs_B2R_lt_emax|]. apply bpow_le. destruct S, D; try contradiction; cbn; lia.
Qed.
Lemma conv_wide S D (x : val S) : narrower S D -> is_finite x = true -> is_finite (conv S D x) = true /\ B2R (conv S D x) = B2R x /\ Bsign (conv S D x) = Bsign x.
Proof.
  intros N F. destruct x as [s|s| |s m e H]; try discriminate; [repeat split|]. destruct (fits_wide S D _ N F) as (E & L).
  pose proof (conv_finite S D s m e H) as C. cbv zeta in C. rewrite E, Rlt_bool_true in C by auto. exact C.
Qed.
Lemma conv_back S D (x : val S) : narrower S D -> conv D S (conv S D x) = x.
Proof.
  intros N. destruct x as [s|s| |s m e H] eqn:X; try reflexivity. rewrite <- X.
  assert (F : is_finite x = true) by now rewrite X.
  destruct (conv_wide S D x N F) as (F1 & V1 & S1).
  assert (FB : nearest S (B2R x) = B2R x /\ Rabs (B2R x) < limit S) by (apply fits_wide; [destruct S; exact I|exact F]).
  assert (Q : is_finite (conv D S (conv S D x)) = true /\ B2R (conv D S (conv S D x)) = B2R x /\ Bsign (conv D S (conv S D x)) = Bsign x).
  { rewrite <- S1. destruct (conv S D x) as [s'|s'| |s' m' e' H']; try discriminate; [now rewrite <- V1|].
    pose proof (conv_finite D S s' m' e' H') as C. cbv zeta in C. rewrite V1, (proj1 FB), Rlt_bool_true in C by apply FB. exact C. }
  destruct Q as (F2 & V2 & S2). now apply B2R_Bsign_inj.
Qed.
Lemma conv_same d (x : val d) : conv d d x = x.
Proof.
  destruct x as [s|s| |s m e H] eqn:X; try reflexivity. rewrite <- X. assert (F : is_finite x = true) by now rewrite X.
  destruct (conv_wide d d x ltac:(destruct d; exact I) F) as (F1 & V1 & S1). now apply B2R_Bsign_inj.
Qed.
Lemma convert_eq S D l : convert_slice S D l = option_map (map (conv S D)) l.
Proof.
  assert (I : forall d (l : gslice (val d)), l = option_map (map (conv d d)) l).
  { intros d [k|]; [|reflexivity]. cbn. f_equal. erewrite map_ext; [symmetry; apply map_id|]. apply conv_same. }
  destruct S, D; cbn [convert_slice]; try apply I; destruct l; reflexivity.
Qed.
Lemma eq_val_spec d (x y : val d) : eq_val x y = true <-> same_number x y.
Proof.
  unfold eq_val. destruct (is_finite x && is_finite y) eqn:F.
  - apply andb_true_iff in F as (Fx & Fy). rewrite Beqb_correct by auto. destruct (Req_bool_spec (B2R x) (B2R y)) as [E|E]; destruct x, y; try discriminate; cbn [same_number]; tauto || (split; [congruence|tauto]).
  - destruct x as [[]|[]| |[]], y as [[]|[]| |[]]; try discriminate; cbn; split; try tauto; try congruence; intros H; discriminate.
Qed.
Lemma all_pairs_spec A B (ok : A -> B -> bool) l o : length l = length o -> all_pairs ok l o = true <-> forall i x y, nth_error l i = Some x -> nth_error o i = Some y -> ok x y = true.
Proof.
  revert o. induction l as [|x l IH]; intros [|y o] E; try discriminate; [cbn; split; [intros _ [|i] ? ? H; discriminate|reflexivity]|]. cbn [all_pairs].
  injection E as E. destruct (ok x y) eqn:O; cbn [negb].
  - rewrite IH by auto. split.
    + intros H [|i] x' y' X Y; [injection X as <-; injection Y as <-; exact O|]. apply (H i); assumption.
    + intros H i x' y' X Y. apply (H (S i)); assumption.
  - split; [discriminate|]. intros H. rewrite <- O. apply (H 0%nat); reflexivity.
Qed.
(** a finite value converted exactly when the other type holds it *)
Lemma conv_exact S D (x : val S) : is_finite x = true -> nearest D (B2R x) = B2R x -> Rabs (B2R x) < limit D -> is_finite (conv S D x) = true /\ B2R (conv S D x) = B2R x.
Proof.
  intros F N L. destruct x as [s|s| |s m e H]; try discriminate; [split; reflexivity|]. pose proof (conv_finite S D s m e H) as C. cbv zeta in C. rewrite N, Rlt_bool_true in C by auto. tauto.
Qed.
Lemma same_finite d (x y : val d) : is_finite x = true -> is_finite y = true -> same_number x y <-> B2R x = B2R y.
Proof. destruct x, y; try discriminate; cbn [same_number]; tauto. Qed.
Lemma same_flip S D (x : val S) (y : val D) : narrower D S -> same_number x (conv D S y) -> same_number y (conv S D x).
Proof.
  intros N H. destruct (is_finite x) eqn:Fx.
  - assert (Fy : is_finite y = true) by (destruct y as [| | |]; try reflexivity; destruct x; discriminate || contradiction).
    destruct (conv_wide D S y N Fy) as (F1 & V1 & _). apply same_finite in H; auto. rewrite V1 in H.
    assert (Q : nearest D (B2R y) = B2R y /\ Rabs (B2R y) < limit D) by (apply fits_wide; [destruct D; exact I|exact Fy]).
    destruct (conv_exact S D x Fx) as (F2 & V2); [rewrite H; apply Q..|]. apply same_finite; auto. now rewrite V2.
  - destruct x as [s|s| |s m e B]; try discriminate; [|contradiction]. cbn [conv]. destruct y as [t|t| |t m e B]; cbn in H |- *; auto; [].
    assert (F : is_finite (conv D S (B754_finite t m e B)) = true) by (apply conv_wide; auto). cbn [conv] in F. destruct (binary_normalize _ _ _ _ _ _ _ _); discriminate || contradiction.
Qed.
Lemma sub_spec d (x y : val d) : is_finite x = true -> is_finite y = true ->
  let r := nearest d (B2R x - B2R y) in
  if Rlt_bool (Rabs r) (limit d) then is_finite (sub_val x y) = true /\ B2R (sub_val x y) = r else exists s, sub_val x y = B754_infinity s.
Proof.
  intros Fx Fy. pose proof (@Bminus_correct (prec d) (emax d) (prec_pos d) (prec_emax d) mode_NE x y Fx Fy) as C. rewrite <- nearest_eq, <- limit_eq in C. cbv zeta. fold (sub_val x y) in C.
  destruct (Rlt_bool _ _); [tauto|]. destruct C as (C & _). unfold binary_overflow in C. cbn in C. exists (Bsign x). clear -C. destruct (sub_val x y); cbn in C; congruence.
Qed.
Lemma beyond_spec d (delta : val F64) (x y : val d) : is_finite delta = true -> is_finite x = true -> is_finite y = true ->
  beyond delta x y = false <-> Rabs (nearest d (B2R x - B2R y)) < limit d /\ Rabs (nearest d (B2R x - B2R y)) <= B2R delta.
Proof.
  intros Fd Fx Fy. unfold beyond. pose proof (sub_spec d x y Fx Fy) as C. cbv zeta in C. destruct (Rlt_bool_spec (Rabs (nearest d (B2R x - B2R y))) (limit d)) as [L|L].
  - destruct C as (F & V). destruct (conv_wide d F64 (sub_val x y) ltac:(destruct d; exact I) F) as (F1 & V1 & _).
    rewrite Bltb_correct by (auto; now rewrite is_finite_Babs). rewrite B2R_Babs, V1, V. destruct (Rlt_bool_spec (B2R delta) (Rabs (nearest d (B2R x - B2R y)))); split; intros; try discriminate; try tauto; lra.
  - destruct C as (s & E). rewrite E. cbn [conv Babs]. split; [|lra]. destruct delta as [?| | |[] ? ? ?]; try discriminate; intros H; discriminate.
Qed.
