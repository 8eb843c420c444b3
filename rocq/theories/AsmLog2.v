(** * The polynomial of Log32 and the logarithm *)
From Coq Require Import ZArith Bool Lia List Reals Lra.
From Coquelicot Require Import Coquelicot.
From Flocq Require Import Core.
Import ListNotations.
Local Open Scope R_scope.

(** ** Bounds of polynomials with integer coefficients *)
Fixpoint peval (p : list Z) (x : R) : R := match p with [] => 0 | a :: p => IZR a + x * peval p x end.
Fixpoint padd (p q : list Z) : list Z :=
  match p, q with
  | [], _ => q
  | _, [] => p
  | a :: p, b :: q => (a + b)%Z :: padd p q
  end.
(** p(X + c) *)
Fixpoint pshift (p : list Z) (c : Z) : list Z :=
  match p with
  | [] => []
  | a :: p => let q := pshift p c in padd (a :: q) (map (Z.mul c) q)
  end.
Definition pabs (p : list Z) : Z := fold_right (fun a s => (Z.abs a + s)%Z) 0%Z p.
Lemma padd_eval p : forall q x, peval (padd p q) x = peval p x + peval q x.
Proof. induction p as [|a p IH]; intros [|b q] x; cbn [padd peval]; rewrite ?plus_IZR, ?IH; lra. Qed.
Lemma pmul_eval c p x : peval (map (Z.mul c) p) x = IZR c * peval p x.
Proof. induction p as [|a p IH]; cbn [map peval]; rewrite ?mult_IZR, ?IH; lra. Qed.
Lemma pshift_eval p c x : peval (pshift p c) x = peval p (x + IZR c).
Proof. induction p as [|a p IH]; [reflexivity|]. cbn [pshift]. cbv zeta. rewrite padd_eval, pmul_eval. cbn [peval]. rewrite IH. lra. Qed.
Lemma pabs_bound p x : 0 <= x <= 1 -> Rabs (peval p x) <= IZR (pabs p).
Proof.
  intros H. induction p as [|a p IH]; cbn [peval pabs fold_right]; [rewrite Rabs_R0; lra|]. rewrite plus_IZR, abs_IZR. fold (pabs p).
  eapply Rle_trans; [apply Rabs_triang|]. rewrite Rabs_mult, (Rabs_right x) by lra. pose proof (Rabs_pos (peval p x)). nra.
Qed.

(** ** The polynomial *)
Definition quotient (f : R) : R :=
  f * (f * (f * (f * (f * (f * (f * (f * (9445819 / 134217728) + - 1931831 / 16777216) + 7836301 / 67108864) + - 16670031 / 134217728) + 9562559 / 67108864)
   + - 699109 / 4194304) + 3355563 / 16777216) + - 4194303 / 16777216) + 5592405 / 16777216.
Definition log_poly (f : R) : R := f + (f * f * (f * quotient f) - f * f / 2).
(** (1 + f) times the derivative of the error, scaled, as a polynomial of 512 f *)
Definition residue : list Z :=
  [0; 0; 19342813113834066795298816; -113336795588871485128704; -44493546705787438497792; 115436265648760553472; 12423672153310756864;
   -35430250376593408; -1032559798517760; 3537125244928; 25928945152; -103904009]%Z.
Definition residue_ok (j : Z) : bool := (2 * 2 ^ 24 * 512 * pabs (pshift residue j) <=? 13 * 2 ^ 126 * (512 + j))%Z.
Lemma residue_checked : forallb residue_ok (map (fun n => Z.of_nat n - 150)%Z (seq 0 364)) = true.
Proof. vm_compute. reflexivity. Qed.
Lemma residue_bound f : -0.2929 <= f <= 0.41422 -> Rabs (peval residue (512 * f)) <= 6.5 / 2 ^ 24 * (2 ^ 126 * (1 + f)).
Proof.
  intros H. set (j := Zfloor (512 * f)). pose proof (Zfloor_lb (512 * f)) as L. pose proof (Zfloor_ub (512 * f)) as U. fold j in L, U.
  assert (J : (-150 <= j <= 212)%Z). { split; [apply Zfloor_lub; lra|]. assert (j < 213)%Z; [|lia]. apply lt_IZR. lra. }
  assert (C : residue_ok j = true). { pose proof residue_checked as C. rewrite forallb_forall in C. apply C. apply in_map_iff. exists (Z.to_nat (j + 150)). split; [lia|]. apply in_seq. lia. }
  unfold residue_ok in C. apply Z.leb_le, IZR_le in C. rewrite !mult_IZR, plus_IZR in C.
  replace (512 * f) with ((512 * f - IZR j) + IZR j) at 1 by lra. rewrite <- pshift_eval. eapply Rle_trans; [apply pabs_bound; lra|].
  change (IZR (2 ^ 24)) with 16777216 in C. replace (IZR (2 ^ 126)) with (2 ^ 126) in C by (change (2 ^ 126)%Z with (2 ^ Z.of_nat 126)%Z; now rewrite <- (pow_IZR 2 126)).
  change (2 ^ 24) with (2 ^ 24). replace (2 ^ 24) with 16777216 by (simpl; lra). assert (P : 0 < 2 ^ 126) by (apply pow_lt; lra). set (T := 2 ^ 126) in *.
  assert (T * IZR j <= T * (512 * f)) by (apply Rmult_le_compat_l; lra). lra.
Qed.
Lemma log_poly_derive f : -1 < f -> is_derive (fun f => ln (1 + f) - log_poly f) f (peval residue (512 * f) / (2 ^ 126 * (1 + f))).
Proof.
  intros H. unfold log_poly, quotient. auto_derive; [lra|]. replace (2 ^ 126) with (2 ^ 27 * (2 ^ 9) ^ 11) by ring. cbn [peval residue]. simpl pow. field. lra.
Qed.
Lemma log_poly_near f : -0.2929 <= f <= 0.41422 -> Rabs (log_poly f - ln (1 + f)) <= 6.5 / 2 ^ 24 * Rabs f.
Proof.
  intros H. assert (P : 0 < 2 ^ 126) by (apply pow_lt; lra).
  destruct (MVT_gen (fun f => ln (1 + f) - log_poly f) 0 f (fun f => peval residue (512 * f) / (2 ^ 126 * (1 + f)))) as (c & Hc & E).
  - intros x Hx. apply log_poly_derive. unfold Rmin, Rmax in Hx. destruct (Rle_dec 0 f); lra.
  - intros x Hx. apply continuity_pt_filterlim. apply (ex_derive_continuous (fun f => ln (1 + f) - log_poly f) x). eexists. apply log_poly_derive. unfold Rmin, Rmax in Hx. destruct (Rle_dec 0 f); lra.
  - assert (Hc' : -0.2929 <= c <= 0.41422) by (unfold Rmin, Rmax in Hc; destruct (Rle_dec 0 f); lra).
    replace (ln (1 + 0) - log_poly 0) with 0 in E by (rewrite Rplus_0_r, ln_1; unfold log_poly; lra).
    replace (log_poly f - ln (1 + f)) with (- (ln (1 + f) - log_poly f)) by lra. rewrite Rabs_Ropp.
    replace (ln (1 + f) - log_poly f) with (peval residue (512 * c) / (2 ^ 126 * (1 + c)) * f) by lra. rewrite Rabs_mult. apply Rmult_le_compat_r; [apply Rabs_pos|].
    pose proof (residue_bound c Hc') as R. unfold Rdiv at 1. rewrite Rabs_mult, (Rabs_right (/ _)); [|apply Rle_ge, Rlt_le, Rinv_0_lt_compat, Rmult_lt_0_compat; lra].
    assert (Q : 0 < 2 ^ 126 * (1 + c)) by (apply Rmult_lt_0_compat; lra). apply (Rmult_le_reg_r (2 ^ 126 * (1 + c))); [exact Q|]. rewrite Rmult_assoc, Rinv_l by lra. lra.
Qed.
