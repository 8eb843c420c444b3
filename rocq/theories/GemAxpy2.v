(** * Proofs: AxpyUnitary and AxpyUnitaryTo of float32 *)
From Coq Require Import ZArith String Bool List Lia.
From Verif Require Import AsmModel AsmLemmas AsmSpec AsmProofs2.
From Verif Require Import GemModel GemCode GemLemmas GemSpec GemAxpy.
Import ListNotations.
Open Scope string_scope.
Open Scope list_scope.
Open Scope nat_scope.

Lemma land_mod n k : (0 <= k)%Z -> Z.land n (Z.pred (2 ^ k)) = (n mod 2 ^ k)%Z.
Proof. intros H. rewrite <- Z.ones_equiv. now apply Z.land_ones. Qed.
Lemma nat_land n k : Z.land (Z.of_nat n) (Z.pred (2 ^ Z.of_nat k)) = Z.of_nat (n mod 2 ^ k).
Proof. rewrite land_mod by lia. rewrite Nat2Z.inj_mod, Nat2Z.inj_pow. reflexivity. Qed.
Lemma nat_shiftr n k : Z.shiftr (Z.of_nat n) (Z.of_nat k) = Z.of_nat (n / 2 ^ k).
Proof. rewrite Z.shiftr_div_pow2 by lia. rewrite Nat2Z.inj_div, Nat2Z.inj_pow. reflexivity. Qed.
Lemma nat_eqb0 n : (Z.of_nat n =? 0)%Z = Nat.eqb n 0.
Proof. destruct n; reflexivity. Qed.

Section F32.
Variable yr : ireg.
Hypothesis Hyr : yr = DI \/ yr = DX.
Notation it := (fun b => ix 4 b 0).
Definition body32 : code := [
  ("axpy_align", sc yr it 2 ++ [IncQ (R AX); DecQ (R BX); Je "axpy_end"; Loop "axpy_align"]);
  ("axpy_no_trim", [Move 0 1; MovQ (R BX) (R CX); AndQ (N 15) (R BX); ShrQ (N 4) (R CX); Je "axpy_tail4_start"]);
  ("axpy_loop", (pk4 4 yr ++ [AddQ (N 16) (R AX)]) ++ Loop "axpy_loop" :: [CmpQ (R BX) (N 0); Je "axpy_end"]);
  ("axpy_tail4_start", [MovQ (R BX) (R CX); ShrQ (N 2) (R CX); Je "axpy_tail_start"]);
  ("axpy_tail4", (pk1 4 yr ++ [AddQ (N 4) (R AX)]) ++ Loop "axpy_tail4" :: []);
  ("axpy_tail_start", [MovQ (R BX) (R CX); AndQ (N 3) (R CX); Je "axpy_end"]);
  ("axpy_tail", (sc yr it 1 ++ [IncQ (R AX)]) ++ Loop "axpy_tail" :: []);
  ("axpy_end", [Ret])].
Variable entry : list instr.
Definition whole32 : code := ("entry", entry) :: body32.

Variable A : lanes.
Variable equal : lane A -> lane A -> bool.
Variable farg : string -> lane A.
Notation L := (lane A).
Notation read := (read A 4).
Notation write := (write A 4).
Notation block := (block A 4 4 equal farg).
Notation step := (step A 4 4 equal farg).
Notation reach := (reach A 4 4 equal farg whole32).
Variable alpha : L.
Variables (x y dst : Z) (n : nat) (xs ys : list L) (m0 : Z -> option L).
Hypothesis R1 : read m0 x n = Some xs.
Hypothesis R2 : read m0 y n = Some ys.
Hypothesis Cd : cells A 4 m0 dst n.
Hypothesis O1 : forall i j, i < n -> j < n -> (x + 4 * Z.of_nat i = dst + 4 * Z.of_nat j)%Z -> i = j.
Hypothesis O2 : forall i j, i < n -> j < n -> (y + 4 * Z.of_nat i = dst + 4 * Z.of_nat j)%Z -> i = j.
Notation inv := (inv A 4 4 yr alpha x y dst n xs ys m0).
Notation kept := (kept A).
Definition aligned (i : nat) : Prop := ((y + 4 * Z.of_nat i) mod 16 = 0)%Z.
Lemma aligned_4 i : aligned i -> aligned (i + 4).
Proof. unfold aligned. intros H. rewrite Nat2Z.inj_add, Z.mul_add_distr_l, Z.add_assoc. replace (4 * Z.of_nat 4)%Z with (1 * 16)%Z by reflexivity. now rewrite Z.mod_add. Qed.
Lemma inv_ext i st st' : inv i st -> gpr A st' AX = gpr A st AX -> gpr A st' SI = gpr A st SI -> gpr A st' DI = gpr A st DI -> gpr A st' DX = gpr A st DX ->
  vec A st' 0 = vec A st 0 -> mem A st' = mem A st -> inv i st'.
Proof. intros (H1 & H2 & H3 & H4 & H5 & H6 & H7) E1 E2 E3 E4 E5 E6. unfold GemAxpy.inv. rewrite E1, E2, E3, E5, E6. repeat split; auto. destruct Hyr; subst yr; congruence. Qed.
(** a step that writes k elements and advances AX *)
Lemma inv_step i k st st' st'' : inv i st -> i + k <= n -> kept st st' -> write m0 dst (firstn (i + k) (out A alpha n xs ys)) = Some (mem A st') ->
  gpr A st'' AX = (gpr A st' AX + Z.of_nat k)%Z -> gpr A st'' SI = gpr A st' SI -> gpr A st'' DI = gpr A st' DI -> gpr A st'' DX = gpr A st' DX ->
  vec A st'' 0 = vec A st' 0 -> mem A st'' = mem A st' -> inv (i + k) st''.
Proof.
  intros (H1 & H2 & H3 & H4 & H5 & H6 & H7) Q (K1 & K2 & K3) W E1 E2 E3 E4 E5 E6. unfold GemAxpy.inv. rewrite E1, E2, E3, E5, E6, K2, K1. repeat split; auto; try lia.
  destruct Hyr; subst yr; congruence.
Qed.
Lemma it_at st i b : inv i st -> address A st (it b) = (gpr A st b + 4 * Z.of_nat i)%Z.
Proof. intros (_ & H & _). unfold address. cbn [base index disp ix]. rewrite H. lia. Qed.
Lemma it_same b (st st' : state A) : gpr A st' = gpr A st -> address A st' (it b) = address A st (it b).
Proof. intros H. unfold address. cbn [base index disp ix]. now rewrite H. Qed.
Definition at_end (st : state A) (c : code) (st0 : state A) : Prop := inv n st /\ reach c st0 [("axpy_end", [Ret])] st.
Lemma at_end_trans c0 st0 c1 st1 : reach c0 st0 c1 st1 -> (exists st, at_end st c1 st1) -> exists st, at_end st c0 st0.
Proof. intros H (st & I & R'). exists st. split; [exact I|]. eapply reach_trans; eauto. Qed.
Definition from (l : string) : code := match from_label whole32 l with Some c => c | None => [] end.

Ltac ext H := eapply inv_ext; [exact H|reflexivity|reflexivity|reflexivity|reflexivity|reflexivity|reflexivity].
Ltac simp := cbn [GemModel.step]; unfold arith, set_zf; cbn [get put]; unfold put, get; cbn [gpr vec mem args zf lf set_gpr set_flags set_vec set_mem]; cbn [ireg_eqb number Nat.eqb].
Ltac raw := eapply reach_step; [cbn [GemModel.step]; reflexivity|].
Ltac stp := eapply reach_step; [simp; reflexivity|].


(** the last elements *)
Lemma tail_ok i st : inv i st -> (exists q, gpr A st BX = Z.of_nat (4 * q + (n - i))) -> n - i < 4 -> exists st', at_end st' (from "axpy_tail_start") st.
Proof.
  intros H [q HB] Q. assert (HB' : Z.land (gpr A st BX) 3 = Z.of_nat (n - i)).
  { change 3%Z with (Z.pred (2 ^ Z.of_nat 2)). rewrite HB, nat_land; change (2 ^ 2) with 4; f_equal.
    rewrite Nat.add_comm, Nat.mul_comm, Nat.mod_add by lia. apply Nat.mod_small. exact Q. }
  cbn [from from_label whole32 body32 String.eqb Ascii.eqb Bool.eqb].
  pose proof H as (Hi & _).
  destruct (n - i) as [|k] eqn:E.
  - assert (i = n) by lia. subst i. eexists. split; [|stp; stp; eapply reach_goto; [simp; rewrite HB'; reflexivity|reflexivity|apply reach_refl]].
    ext H.
  - set (st1 := set_zf A (set_gpr A (set_gpr A st CX (gpr A st BX)) CX (Z.of_nat (S k))) false).
    assert (I1 : inv i st1) by (ext H).
    destruct (loop A 4 4 equal farg whole32 "axpy_tail" "axpy_tail" (sc yr it 1 ++ [IncQ (R AX)]) [] [("axpy_end", [Ret])]
      (fun c s => exists j, inv j s /\ n - j = c /\ gpr A s CX = Z.of_nat c) eq_refl) with (n := k) (st := st1) as (st' & (j & I' & E' & _) & R').
    + intros c s (j & Ij & Ej & Gj). destruct (sc_ok A 4 4 equal farg ltac:(lia) eq_refl yr alpha x y dst n xs ys m0 R1 R2 Cd O1 O2 it 1 j s) as (s1 & B1 & K1 & _ & W1); auto.
      * intros b. now apply it_at.
      * intros b s' Hs. now apply it_same.
      * lia.
      * eexists. split; [eapply block_snoc; [exact B1|reflexivity]|].
        split; [simp; rewrite (proj1 K1); exact Gj|]. exists (j + 1). split; [|split; [lia|reflexivity]].
        apply (inv_step j 1 s s1); auto; try reflexivity; lia.
    + exists i. repeat split; try apply I1; auto.
    + exists st'. split; [assert (j = n) by (destruct I'; lia); now subst j|]. stp. stp. eapply reach_step; [simp; rewrite HB'; reflexivity|].
      apply reach_next. eapply reach_trans; [exact R'|apply reach_next, reach_refl].
Qed.
Lemma tail4_ok i st : inv i st -> gpr A st BX = Z.of_nat (n - i) -> aligned i -> exists st', at_end st' (from "axpy_tail4_start") st.
Proof.
  intros H HB Al. pose proof H as (Hi & _). assert (HS : Z.shiftr (gpr A st BX) 2 = Z.of_nat ((n - i) / 4)) by (rewrite HB; exact (nat_shiftr (n - i) 2)).
  pose proof (Nat.div_mod (n - i) 4 ltac:(lia)) as DM. pose proof (Nat.mod_upper_bound (n - i) 4 ltac:(lia)) as UB.
  cbn [from from_label whole32 body32 String.eqb Ascii.eqb Bool.eqb].
  destruct ((n - i) / 4) as [|k] eqn:E.
  - set (st1 := set_zf A (set_gpr A (set_gpr A st CX (gpr A st BX)) CX 0) true).
    destruct (tail_ok i st1) as (st' & I' & R'); [ext H|exists 0; exact HB|lia|].
    exists st'. split; [exact I'|]. stp. stp. eapply reach_goto; [simp; rewrite HS; reflexivity|reflexivity|]. exact R'.
  - set (st1 := set_zf A (set_gpr A (set_gpr A st CX (gpr A st BX)) CX (Z.of_nat (S k))) false).
    assert (I1 : inv i st1) by (ext H).
    destruct (loop A 4 4 equal farg whole32 "axpy_tail4" "axpy_tail4" (pk1 4 yr ++ [AddQ (N 4) (R AX)]) [] (from "axpy_tail_start")
      (fun c s => exists j, inv j s /\ n - j = 4 * c + (n - i) mod 4 /\ gpr A s CX = Z.of_nat c /\ aligned j /\ gpr A s BX = Z.of_nat (n - i)) eq_refl) with (n := k) (st := st1) as (st' & (j & I' & E' & _ & Al' & B') & R').
    + intros c s (j & Ij & Ej & Gj & Alj & Bj). destruct (pk1_ok A 4 4 equal farg ltac:(lia) yr alpha x y dst n xs ys m0 R1 R2 Cd O1 O2 j s Ij) as (s1 & B1 & K1 & _ & W1); auto; [lia|].
      eexists. split; [eapply block_snoc; [exact B1|reflexivity]|].
      split; [simp; rewrite (proj1 K1); exact Gj|]. exists (j + 4). split; [|split; [lia|split; [reflexivity|split; [now apply aligned_4|simp; now rewrite (proj1 K1)]]]].
      apply (inv_step j 4 s s1); auto; try reflexivity; lia.
    + exists i. repeat split; try apply I1; auto; lia.
    + destruct (tail_ok j st') as (st2 & I2 & T2); [exact I'| |lia|].
      { exists (S k). rewrite B'. f_equal. lia. }
      exists st2. split; [exact I2|]. stp. stp. eapply reach_step; [simp; rewrite HS; reflexivity|].
      apply reach_next. eapply reach_trans; [exact R'|]. apply reach_next. exact T2.
Qed.
Lemma no_trim_ok i st : inv i st -> gpr A st BX = Z.of_nat (n - i) -> aligned i -> exists st', at_end st' (from "axpy_no_trim") st.
Proof.
  intros H HB Al. pose proof H as (Hi & _ & _ & _ & _ & V0 & _). assert (HS : Z.shiftr (gpr A st BX) 4 = Z.of_nat ((n - i) / 16)) by (rewrite HB; exact (nat_shiftr (n - i) 4)).
  assert (HA : Z.land (gpr A st BX) 15 = Z.of_nat ((n - i) mod 16)) by (rewrite HB; exact (nat_land (n - i) 4)).
  pose proof (Nat.div_mod (n - i) 16 ltac:(lia)) as DM. pose proof (Nat.mod_upper_bound (n - i) 16 ltac:(lia)) as UB.
  cbn [from from_label whole32 body32 String.eqb Ascii.eqb Bool.eqb].
  set (r := (n - i) mod 16) in *.
  destruct ((n - i) / 16) as [|k] eqn:E.
  - eassert (I1 : inv i _); [|destruct (tail4_ok i _ I1) as (st' & I' & R')].
    3:{ exact Al. }
    3:{ exists st'. split; [exact I'|]. stp. stp. stp. stp. eapply reach_goto; [simp; rewrite HS; reflexivity|reflexivity|]. exact R'. }
    { ext H. }
    { simp. rewrite HA. f_equal. lia. }
  - set (st1 := set_zf A (set_gpr A (set_zf A (set_gpr A (set_gpr A (set_vec A st 1 (vec A st 0)) CX (gpr A st BX)) BX (Z.of_nat r)) (Z.of_nat r =? 0)%Z) CX (Z.of_nat (S k))) false).
    assert (I1 : inv i st1) by (ext H).
    destruct (loop A 4 4 equal farg whole32 "axpy_loop" "axpy_loop" (pk4 4 yr ++ [AddQ (N 16) (R AX)]) [CmpQ (R BX) (N 0); Je "axpy_end"] (from "axpy_tail4_start")
      (fun c s => exists j, inv j s /\ n - j = 16 * c + r /\ gpr A s CX = Z.of_nat c /\ aligned j /\ gpr A s BX = Z.of_nat r /\ vec A s 1 = repeat alpha 4) eq_refl) with (n := k) (st := st1) as (st' & (j & I' & E' & _ & Al' & B' & _) & R').
    + intros c s (j & Ij & Ej & Gj & Alj & Bj & V1). destruct (pk4_ok A 4 4 equal farg ltac:(lia) ltac:(lia) eq_refl yr alpha x y dst n xs ys m0 R1 R2 Cd O1 O2 j s Ij V1) as (s1 & B1 & K1 & V1' & W1); auto; [lia|].
      eexists. split; [eapply block_snoc; [exact B1|reflexivity]|].
      split; [simp; rewrite (proj1 K1); exact Gj|]. exists (j + 16). split; [|split; [lia|split; [reflexivity|split; [|split]]]].
      * apply (inv_step j 16 s s1); auto; try reflexivity; lia.
      * replace (j + 16) with (j + 4 + 4 + 4 + 4) by lia. do 4 apply aligned_4. exact Alj.
      * simp. now rewrite (proj1 K1).
      * simp. congruence.
    + exists i. repeat split; try apply I1; auto; lia.
    + assert (Rs : reach (from "axpy_no_trim") st (("", [CmpQ (R BX) (N 0); Je "axpy_end"]) :: from "axpy_tail4_start") st').
      { cbn [from from_label whole32 body32 String.eqb Ascii.eqb Bool.eqb]. stp. stp. stp. stp. eapply reach_step; [simp; rewrite HS, HA; reflexivity|].
        apply reach_next. try rewrite HA; exact R'. }
      apply (at_end_trans _ _ _ _ Rs). destruct r as [|r'] eqn:Er.
      * eexists. split; [|eapply reach_step; [simp; rewrite B'; reflexivity|eapply reach_goto; [reflexivity|reflexivity|apply reach_refl]]].
        assert (j = n) by (destruct I'; lia). subst j. ext I'.
      * eassert (I2 : inv j _); [|destruct (tail4_ok j _ I2) as (st2 & I3 & R3)].
        3:{ exact Al'. }
        3:{ exists st2. split; [exact I3|]. eapply reach_step; [simp; rewrite B'; reflexivity|]. eapply reach_step; [reflexivity|]. apply reach_next. exact R3. }
        { ext I'. }
        { simp. rewrite B'. f_equal. lia. }
Qed.
(** the elements before the first aligned one *)
Lemma align_ok c : forall i st, inv i st -> i < n -> gpr A st BX = Z.of_nat (n - i) -> gpr A st CX = Z.of_nat (S c) -> aligned (i + S c) -> exists st', at_end st' (from "axpy_align") st.
Proof.
  induction c as [|c IH]; intros i st H Q HB HC Al;
    (destruct (sc_ok A 4 4 equal farg ltac:(lia) eq_refl yr alpha x y dst n xs ys m0 R1 R2 Cd O1 O2 it 2 i st) as (s1 & B1 & K1 & _ & W1); auto;
      [intros b; now apply it_at | intros b s' Hs; now apply it_same |]);
    set (s2 := arith A (arith A s1 Z.add (N 1) (R AX)) Z.sub (N 1) (R BX));
    assert (I2 : inv (i + 1) s2) by (apply (inv_step i 1 st s1); auto; try reflexivity; lia);
    assert (B2 : gpr A s2 BX = Z.of_nat (n - (i + 1))) by (unfold s2; simp; rewrite (proj1 K1), HB; lia);
    assert (Z2 : zf A s2 = Nat.eqb (n - (i + 1)) 0) by (rewrite <- nat_eqb0, <- B2; reflexivity);
    assert (C2 : gpr A s2 CX = gpr A st CX) by (unfold s2; simp; now rewrite (proj1 K1));
    (destruct (Nat.eq_dec (i + 1) n) as [En|En];
      [exists s2; split; [now rewrite En in I2|]; cbn [from from_label whole32 body32 String.eqb Ascii.eqb Bool.eqb]; eapply reach_block; [exact B1|]; raw; raw;
       eapply reach_goto; [fold s2; cbn [GemModel.step]; rewrite Z2; replace (n - (i + 1)) with 0 by lia; reflexivity|reflexivity|apply reach_refl]|]);
    assert (Nz : Nat.eqb (n - (i + 1)) 0 = false) by (apply Nat.eqb_neq; destruct I2; lia).
  - eassert (I3 : inv (i + 1) _); [|destruct (no_trim_ok (i + 1) _ I3) as (st' & I' & R')].
    4:{ exists st'. split; [exact I'|]. cbn [from from_label whole32 body32 String.eqb Ascii.eqb Bool.eqb]. eapply reach_block; [exact B1|]. raw. raw. fold s2.
        eapply reach_step; [cbn [GemModel.step]; rewrite Z2, Nz; reflexivity|]. eapply reach_step; [cbn [GemModel.step]; rewrite C2, HC; reflexivity|]. apply reach_next. exact R'. }
    { ext I2. }
    { exact B2. }
    { exact Al. }
  - eassert (I3 : inv (i + 1) _); [|destruct (IH (i + 1) _ I3) as (st' & I' & R')].
    6:{ exists st'. split; [exact I'|]. cbn [from from_label whole32 body32 String.eqb Ascii.eqb Bool.eqb]. eapply reach_block; [exact B1|]. raw. raw. fold s2.
        eapply reach_step; [cbn [GemModel.step]; rewrite Z2, Nz; reflexivity|]. eapply reach_goto; [cbn [GemModel.step]; rewrite C2, HC; replace (Z.of_nat (S (S c)) - 1)%Z with (Z.of_nat (S c)) by lia; rewrite nat_eqb0; reflexivity|reflexivity|]. exact R'. }
    { ext I2. }
    { destruct I2; lia. }
    { exact B2. }
    { reflexivity. }
    { replace (i + 1 + S c) with (i + S (S c)) by lia. exact Al. }
Qed.
(** from the first alignment test on *)
Lemma entry_ok st : inv 0 st -> 0 < n -> gpr A st BX = Z.of_nat n -> gpr A st CX = y -> (y mod 4 = 0)%Z ->
  exists st', at_end st' (("", [AndQ (N 15) (R CX); Je "axpy_no_trim"; XorQ (N 15) (R CX); IncQ (R CX); ShrQ (N 2) (R CX)]) :: body32) st.
Proof.
  intros H Q HB HC Al. pose proof (Z.mod_pos_bound y 16 ltac:(lia)) as Rg.
  assert (M4 : ((y mod 16) mod 4 = 0)%Z). { rewrite <- (Znumtheory.Zmod_div_mod 4 16 y); try lia. now exists 4%Z. }
  assert (A16 : forall c, ((y mod 16) + 4 * Z.of_nat c = 16)%Z -> aligned (0 + c)).
  { intros c Hc. unfold aligned. cbn [Nat.add]. rewrite (Z.div_mod y 16) by lia. replace (16 * (y / 16) + y mod 16 + 4 * Z.of_nat c)%Z with ((y / 16 + 1) * 16)%Z by lia. apply Z.mod_mul. lia. }
  assert (HL : Z.land (gpr A st CX) 15 = (y mod 16)%Z) by (rewrite HC; exact (land_mod y 4 ltac:(lia))).
  destruct (Z.eq_dec (y mod 16) 0) as [E|E].
  - eassert (I3 : inv 0 _); [|destruct (no_trim_ok 0 _ I3) as (st' & I' & R')].
    4:{ exists st'. split; [exact I'|]. eapply reach_step; [simp; rewrite HL, E; reflexivity|]. eapply reach_goto; [reflexivity|reflexivity|]. exact R'. }
    { ext H. }
    { simp. rewrite HB. f_equal. lia. }
    { unfold aligned. now rewrite Z.mul_0_r, Z.add_0_r. }
  - destruct (si_32 (y mod 16) ltac:(lia) M4) as (t & T1 & T2).
    eassert (I3 : inv 0 _); [|destruct (align_ok t 0 _ I3) as (st' & I' & R')].
    6:{ exists st'. split; [exact I'|]. eapply reach_step; [simp; rewrite HL; reflexivity|]. eapply reach_step; [simp; replace (y mod 16 =? 0)%Z with false by (symmetry; now apply Z.eqb_neq); reflexivity|].
        stp. stp. stp. apply reach_next. exact R'. }
    { ext H. }
    { exact Q. }
    { simp. rewrite HB. f_equal. lia. }
    { simp. exact T1. }
    { apply A16. exact T2. }
Qed.
End F32.
