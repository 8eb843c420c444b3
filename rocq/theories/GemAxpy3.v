(** * Proofs: AxpyUnitary and AxpyUnitaryTo of float64 *)
From Coq Require Import ZArith String Bool List Lia.
From Verif Require Import AsmModel AsmLemmas AsmSpec AsmProofs2.
From Verif Require Import GemModel GemCode GemLemmas GemSpec GemAxpy GemAxpy2.
Import ListNotations.
Open Scope string_scope.
Open Scope list_scope.
Open Scope nat_scope.

Section F64.
Variable yr : ireg.
Hypothesis Hyr : yr = DI \/ yr = DX.
Notation it := (fun b => ix 8 b 0).
(** the copy of alpha is made before or after the alignment *)
Variable pre : list instr.
Definition body64 : code := [
  ("no_trim", [MovQ (R CX) (R BX); AndQ (N 7) (R BX); ShrQ (N 3) (R CX); Je "tail_start"] ++ pre);
  ("loop", (pk4 8 yr ++ [AddQ (N 8) (R AX)]) ++ DecQ (R CX) :: Jne "loop" :: [CmpQ (R BX) (N 0); Je "end"]);
  ("tail_start", [MovQ (R BX) (R CX); ShrQ (N 1) (R CX); Je "tail_one"]);
  ("tail_two", (pk1 8 yr ++ [AddQ (N 2) (R AX)]) ++ DecQ (R CX) :: Jne "tail_two" :: [AndQ (N 1) (R BX); Je "end"]);
  ("tail_one", sc yr it 2);
  ("end", [Ret])].
Variable entry : list instr.
Definition whole64 : code := ("entry", entry) :: body64.

Variable A : lanes.
Variable equal : lane A -> lane A -> bool.
Variable farg : string -> lane A.
Notation L := (lane A).
Notation read := (read A 8).
Notation write := (write A 8).
Notation block := (block A 8 2 equal farg).
Notation step := (step A 8 2 equal farg).
Notation reach := (reach A 8 2 equal farg whole64).
Variable alpha : L.
Variables (x y dst : Z) (n : nat) (xs ys : list L) (m0 : Z -> option L).
Hypothesis R1 : read m0 x n = Some xs.
Hypothesis R2 : read m0 y n = Some ys.
Hypothesis Cd : cells A 8 m0 dst n.
Hypothesis O1 : forall i j, i < n -> j < n -> (x + 8 * Z.of_nat i = dst + 8 * Z.of_nat j)%Z -> i = j.
Hypothesis O2 : forall i j, i < n -> j < n -> (y + 8 * Z.of_nat i = dst + 8 * Z.of_nat j)%Z -> i = j.
Notation inv := (inv A 8 2 yr alpha x y dst n xs ys m0).
Notation kept := (kept A).
Definition aligned (i : nat) : Prop := ((y + 8 * Z.of_nat i) mod 16 = 0)%Z.
Lemma aligned_2 i : aligned i -> aligned (i + 2).
Proof. unfold aligned. intros H. rewrite Nat2Z.inj_add, Z.mul_add_distr_l, Z.add_assoc. replace (8 * Z.of_nat 2)%Z with (1 * 16)%Z by reflexivity. now rewrite Z.mod_add. Qed.
Lemma inv_ext i st st' : inv i st -> gpr A st' AX = gpr A st AX -> gpr A st' SI = gpr A st SI -> gpr A st' DI = gpr A st DI -> gpr A st' DX = gpr A st DX ->
  vec A st' 0 = vec A st 0 -> mem A st' = mem A st -> inv i st'.
Proof. intros (H1 & H2 & H3 & H4 & H5 & H6 & H7) E1 E2 E3 E4 E5 E6. unfold GemAxpy.inv. rewrite E1, E2, E3, E5, E6. repeat split; auto. destruct Hyr; subst yr; congruence. Qed.
(** a step that writes k elements and advances AX *)
Lemma inv_step i k st st' st'' : inv i st -> i + k <= n -> kept st st' -> write m0 dst (firstn (i + k) (out A alpha n xs ys)) = Some (mem A st') ->
  gpr A st'' AX = (gpr A st' AX + Z.of_nat k)%Z -> gpr A st'' SI = gpr A st' SI -> gpr A st'' DI = gpr A st' DI -> gpr A st'' DX = gpr A st' DX ->
  vec A st'' 0 = vec A st' 0 -> mem A st'' = mem A st' -> inv (i + k) st''.
Proof.
  intros (H1 & H2 & H3 & H4 & H5 & H6 & H7) Q (K1 & K2 & K3) W E1 E2 E3 E4 E5 E6. unfold GemAxpy.inv. rewrite E1, E2, E3, E5, E6, K2, K1. repeat split; auto; try lia.
  destruct Hyr; subst yr; congruence.
Qed.
Lemma it_at st i b : inv i st -> address A st (it b) = (gpr A st b + 8 * Z.of_nat i)%Z.
Proof. intros (_ & H & _). unfold address. cbn [base index disp ix]. rewrite H. lia. Qed.
Lemma it_same b (st st' : state A) : gpr A st' = gpr A st -> address A st' (it b) = address A st (it b).
Proof. intros H. unfold address. cbn [base index disp ix]. now rewrite H. Qed.
Definition from (l : string) : code := match from_label whole64 l with Some c => c | None => [] end.

Ltac ext H := eapply inv_ext; [exact H|reflexivity|reflexivity|reflexivity|reflexivity|reflexivity|reflexivity].
Ltac simp := cbn [GemModel.step]; unfold arith, set_zf; cbn [get put]; unfold put, get; cbn [gpr vec mem args zf lf set_gpr set_flags set_vec set_mem]; cbn [ireg_eqb number Nat.eqb].
Ltac raw := eapply reach_step; [cbn [GemModel.step]; reflexivity|].
Ltac stp := eapply reach_step; [simp; reflexivity|].



Ltac lab := cbn [from from_label whole64 body64 String.eqb Ascii.eqb Bool.eqb].
Lemma one_ok at_ i st : (forall b, address A st (at_ b) = (gpr A st b + 8 * Z.of_nat i)%Z) -> (forall b st', gpr A st' = gpr A st -> address A st' (at_ b) = address A st (at_ b)) ->
  inv i st -> i < n ->
  exists st', block (sc yr at_ 2) st = Some (st', Seq) /\ kept st st' /\ vec A st' 1 = vec A st 1 /\ write m0 dst (firstn (i + 1) (out A alpha n xs ys)) = Some (mem A st').
Proof.
  intros H1 H2 H Q. destruct (sc_ok A 8 2 equal farg ltac:(lia) eq_refl yr alpha x y dst n xs ys m0 R1 R2 Cd O1 O2 at_ 2 i st) as (s1 & B1 & K1 & V1 & W1); auto.
  exists s1. repeat split; auto; apply K1.
Qed.
(** the result at the end; AX need not be n *)
Definition done (st : state A) : Prop := write m0 dst (out A alpha n xs ys) = Some (mem A st).
Lemma inv_done st : inv n st -> done st.
Proof. intros (_ & _ & _ & _ & _ & _ & W). unfold done. rewrite firstn_all2 in W; [exact W|]. rewrite (out_length A 8 alpha x y n xs ys m0 R1 R2). lia. Qed.
Definition ends (c : code) (st0 : state A) : Prop := exists st, done st /\ reach c st0 [("end", [Ret])] st.
Lemma ends_trans c0 st0 c1 st1 : reach c0 st0 c1 st1 -> ends c1 st1 -> ends c0 st0.
Proof. intros H (st & I & R'). exists st. split; [exact I|]. eapply reach_trans; eauto. Qed.

Lemma tail_one_ok i st : inv i st -> n - i = 1 -> ends (from "tail_one") st.
Proof.
  intros H Q. destruct (one_ok it i st) as (s1 & B1 & K1 & _ & W1); auto.
  - intros b. now apply it_at.
  - intros b s' Hs. now apply it_same.
  - lia.
  - exists s1. split.
    + unfold done. replace (i + 1) with n in W1 by lia. rewrite firstn_all2 in W1; [exact W1|]. rewrite (out_length A 8 alpha x y n xs ys m0 R1 R2). lia.
    + lab. rewrite <- (app_nil_r (sc yr it 2)). eapply reach_block; [exact B1|]. apply reach_next, reach_refl.
Qed.
Lemma tail_start_ok i st : inv i st -> i < n -> gpr A st BX = Z.of_nat (n - i) -> aligned i -> ends (from "tail_start") st.
Proof.
  intros H Q HB Al. assert (HS : Z.shiftr (gpr A st BX) 1 = Z.of_nat ((n - i) / 2)) by (rewrite HB; exact (nat_shiftr (n - i) 1)).
  assert (HA : Z.land (Z.of_nat (n - i)) 1 = Z.of_nat ((n - i) mod 2)) by exact (nat_land (n - i) 1).
  pose proof (Nat.div_mod (n - i) 2 ltac:(lia)) as DM. pose proof (Nat.mod_upper_bound (n - i) 2 ltac:(lia)) as UB.
  set (r := (n - i) mod 2) in *. lab.
  destruct ((n - i) / 2) as [|k] eqn:E.
  - set (st1 := set_zf A (set_gpr A (set_gpr A st CX (gpr A st BX)) CX 0) true).
    destruct (tail_one_ok i st1) as (st' & I' & R'); [ext H|lia|].
    exists st'. split; [exact I'|]. stp. stp. eapply reach_goto; [simp; rewrite HS; reflexivity|reflexivity|]. exact R'.
  - set (st1 := set_zf A (set_gpr A (set_gpr A st CX (gpr A st BX)) CX (Z.of_nat (S k))) false).
    assert (I1 : inv i st1) by (ext H).
    destruct (loop_dec A 8 2 equal farg whole64 CX "tail_two" "tail_two" (pk1 8 yr ++ [AddQ (N 2) (R AX)]) [AndQ (N 1) (R BX); Je "end"] (from "tail_one")
      (fun c s => exists j, inv j s /\ n - j = 2 * c + r /\ gpr A s CX = Z.of_nat c /\ aligned j /\ gpr A s BX = Z.of_nat (n - i)) eq_refl) with (n := k) (st := st1) as (st' & (j & I' & E' & _ & Al' & B') & R').
    + intros c s z (j & Ij & Ej & Gj & Alj & Bj). exists j. repeat split; auto; apply Ij.
    + intros c s (j & Ij & Ej & Gj & Alj & Bj). destruct (pk1_ok A 8 2 equal farg ltac:(lia) yr alpha x y dst n xs ys m0 R1 R2 Cd O1 O2 j s Ij) as (s1 & B1 & K1 & _ & W1); auto; [lia|].
      eexists. split; [eapply block_snoc; [exact B1|reflexivity]|].
      split; [simp; rewrite (proj1 K1); exact Gj|]. exists (j + 2). split; [|split; [lia|split; [reflexivity|split; [now apply aligned_2|simp; now rewrite (proj1 K1)]]]].
      apply (inv_step j 2 s s1); auto; try reflexivity; lia.
    + exists i. repeat split; try apply I1; auto; lia.
    + assert (Rs : reach (from "tail_start") st (("", [AndQ (N 1) (R BX); Je "end"]) :: from "tail_one") st').
      { lab. stp. stp. eapply reach_step; [simp; rewrite HS; reflexivity|]. apply reach_next. exact R'. }
      apply (ends_trans _ _ _ _ Rs). destruct r as [|r'] eqn:Er.
      * eexists. split; [|eapply reach_step; [simp; rewrite B', HA; reflexivity|eapply reach_goto; [reflexivity|reflexivity|apply reach_refl]]].
        apply inv_done. assert (j = n) by (destruct I'; lia). subst j. ext I'.
      * eassert (I2 : inv j _); [|destruct (tail_one_ok j _ I2) as (st2 & I3 & R3)].
        3:{ exists st2. split; [exact I3|]. eapply reach_step; [simp; rewrite B', HA; reflexivity|]. eapply reach_step; [reflexivity|]. apply reach_next. exact R3. }
        { ext I'. }
        { lia. }
Qed.
Lemma no_trim_ok i st : inv i st -> i < n -> gpr A st CX = Z.of_nat (n - i) -> aligned i -> pre = [Move 0 1] \/ pre = [] /\ vec A st 1 = repeat alpha 2 -> ends (from "no_trim") st.
Proof.
  intros H Q HB Al HP. pose proof H as (Hi & _ & _ & _ & _ & V0 & _). assert (HS : Z.shiftr (gpr A st CX) 3 = Z.of_nat ((n - i) / 8)) by (rewrite HB; exact (nat_shiftr (n - i) 3)).
  assert (HA : Z.land (gpr A st CX) 7 = Z.of_nat ((n - i) mod 8)) by (rewrite HB; exact (nat_land (n - i) 3)).
  pose proof (Nat.div_mod (n - i) 8 ltac:(lia)) as DM. pose proof (Nat.mod_upper_bound (n - i) 8 ltac:(lia)) as UB.
  set (r := (n - i) mod 8) in *.
  destruct ((n - i) / 8) as [|k] eqn:E.
  - eassert (I1 : inv i _); [|destruct (tail_start_ok i _ I1) as (st' & I' & R')].
    4:{ exact Al. }
    4:{ exists st'. split; [exact I'|]. lab. cbn [app]. stp. stp. stp. eapply reach_goto; [simp; rewrite HS; reflexivity|reflexivity|]. exact R'. }
    { ext H. }
    { lia. }
    { simp. rewrite HA. f_equal. lia. }
  - assert (exists st1, inv i st1 /\ gpr A st1 CX = Z.of_nat (S k) /\ gpr A st1 BX = Z.of_nat r /\ vec A st1 1 = repeat alpha 2 /\ reach (from "no_trim") st (from "loop") st1) as (st1 & I1 & C1 & B1 & V1 & T1).
    { destruct HP as [HP | (HP & V1)].
      - eexists. split; [|split; [|split; [|split; [|lab; rewrite HP; cbn [app]; stp; stp; stp; eapply reach_step; [simp; rewrite HS; reflexivity|]; stp; apply reach_next, reach_refl]]]].
        + ext H.
        + reflexivity.
        + simp. exact HA.
        + simp. exact V0.
      - eexists. split; [|split; [|split; [|split; [|lab; rewrite HP; cbn [app]; stp; stp; stp; eapply reach_step; [simp; rewrite HS; reflexivity|]; apply reach_next, reach_refl]]]].
        + ext H.
        + reflexivity.
        + simp. exact HA.
        + exact V1. }
    apply (ends_trans _ _ _ _ T1).
    destruct (loop_dec A 8 2 equal farg whole64 CX "loop" "loop" (pk4 8 yr ++ [AddQ (N 8) (R AX)]) [CmpQ (R BX) (N 0); Je "end"] (from "tail_start")
      (fun c s => exists j, inv j s /\ n - j = 8 * c + r /\ gpr A s CX = Z.of_nat c /\ aligned j /\ gpr A s BX = Z.of_nat r /\ vec A s 1 = repeat alpha 2) eq_refl) with (n := k) (st := st1) as (st' & (j & I' & E' & _ & Al' & B' & _) & R').
    + intros c s z (j & Ij & Ej & Gj & Alj & Bj & Vj). exists j. repeat split; auto; apply Ij.
    + intros c s (j & Ij & Ej & Gj & Alj & Bj & Vj). destruct (pk4_ok A 8 2 equal farg ltac:(lia) ltac:(lia) eq_refl yr alpha x y dst n xs ys m0 R1 R2 Cd O1 O2 j s Ij Vj) as (s1 & B1' & K1 & V1' & W1); auto; [lia|].
      eexists. split; [eapply block_snoc; [exact B1'|reflexivity]|].
      split; [simp; rewrite (proj1 K1); exact Gj|]. exists (j + 8). split; [|split; [lia|split; [reflexivity|split; [|split]]]].
      * apply (inv_step j 8 s s1); auto; try reflexivity; lia.
      * replace (j + 8) with (j + 2 + 2 + 2 + 2) by lia. do 4 apply aligned_2. exact Alj.
      * simp. now rewrite (proj1 K1).
      * simp. congruence.
    + exists i. repeat split; try apply I1; auto; lia.
    + apply (ends_trans _ _ _ _ R'). destruct r as [|r'] eqn:Er.
      * eexists. split; [|eapply reach_step; [simp; rewrite B'; reflexivity|eapply reach_goto; [reflexivity|reflexivity|apply reach_refl]]].
        apply inv_done. assert (j = n) by (destruct I'; lia). subst j. ext I'.
      * eassert (I2 : inv j _); [|destruct (tail_start_ok j _ I2) as (st2 & I3 & R3)].
        4:{ exact Al'. }
        4:{ exists st2. split; [exact I3|]. eapply reach_step; [simp; rewrite B'; reflexivity|]. eapply reach_step; [reflexivity|]. apply reach_next. exact R3. }
        { ext I'. }
        { destruct I'; lia. }
        { simp. rewrite B'. f_equal. lia. }
Qed.
(** from the alignment test on *)
Lemma entry64_ok st : inv 0 st -> 0 < n -> gpr A st CX = Z.of_nat n -> gpr A st BX = y -> (y mod 8 = 0)%Z -> pre = [Move 0 1] \/ pre = [] /\ vec A st 1 = repeat alpha 2 ->
  ends (("", AndQ (N 15) (R BX) :: Je "no_trim" :: sc yr (fun b => At b None 0) 2 ++ [IncQ (R AX); DecQ (R CX); Je "end"]) :: body64) st.
Proof.
  intros H Q HB HC Al HP. pose proof (Z.mod_pos_bound y 16 ltac:(lia)) as Rg.
  assert (M8 : ((y mod 16) mod 8 = 0)%Z). { rewrite <- (Znumtheory.Zmod_div_mod 8 16 y); try lia. now exists 2%Z. }
  assert (HL : Z.land (gpr A st BX) 15 = (y mod 16)%Z) by (rewrite HC; exact (land_mod y 4 ltac:(lia))).
  destruct (Z.eq_dec (y mod 16) 0) as [E|E].
  - eassert (I3 : inv 0 _); [|destruct (no_trim_ok 0 _ I3) as (st' & I' & R')].
    6:{ exists st'. split; [exact I'|]. eapply reach_step; [simp; rewrite HL, E; reflexivity|]. eapply reach_goto; [reflexivity|reflexivity|]. exact R'. }
    { ext H. }
    { exact Q. }
    { simp. rewrite HB. f_equal. lia. }
    { unfold aligned. now rewrite Z.mul_0_r, Z.add_0_r. }
    { exact HP. }
  - assert (E8 : (y mod 16 = 8)%Z). { pose proof (Z.div_mod (y mod 16) 8 ltac:(lia)). assert (y mod 16 / 8 = 1)%Z; [|lia]. assert (y mod 16 / 8 < 2)%Z by (apply Z.div_lt_upper_bound; lia). assert (0 <= y mod 16 / 8)%Z by (apply Z.div_pos; lia). lia. }
    set (s0 := set_zf A (set_gpr A st BX 8) false). assert (I0 : inv 0 s0) by (ext H).
    destruct (one_ok (fun b => At b None 0) 0 s0) as (s1 & B1 & K1 & V1 & W1); auto.
    { intros b. unfold address. cbn [base index disp]. lia. }
    { intros b s' Hs. unfold address. cbn [base index disp]. now rewrite Hs. }
    assert (Rs : reach (("", AndQ (N 15) (R BX) :: Je "no_trim" :: sc yr (fun b => At b None 0) 2 ++ [IncQ (R AX); DecQ (R CX); Je "end"]) :: body64) st (("", [Je "end"]) :: body64) (arith A (arith A s1 Z.add (N 1) (R AX)) Z.sub (N 1) (R CX))).
    { eapply reach_step; [simp; rewrite HL, E8; reflexivity|]. stp. eapply reach_block; [exact B1|]. raw. raw. apply reach_refl. }
    apply (ends_trans _ _ _ _ Rs).
    set (s2 := arith A (arith A s1 Z.add (N 1) (R AX)) Z.sub (N 1) (R CX)).
    assert (I2 : inv (0 + 1) s2) by (apply (inv_step 0 1 s0 s1); auto; try reflexivity; lia).
    assert (B2 : gpr A s2 CX = Z.of_nat (n - (0 + 1))) by (unfold s2; simp; rewrite (proj1 K1); unfold s0; simp; rewrite HB; lia).
    assert (Z2 : zf A s2 = Nat.eqb (n - (0 + 1)) 0) by (rewrite <- nat_eqb0, <- B2; reflexivity).
    destruct (Nat.eq_dec n 1) as [En|En].
    + exists s2. split; [apply inv_done; assert (X : inv n s2) by (replace n with (0 + 1) at 2 by lia; exact I2); exact X|]. eapply reach_goto; [cbn [GemModel.step]; rewrite Z2; replace (n - (0 + 1)) with 0 by lia; reflexivity|reflexivity|apply reach_refl].
    + destruct (no_trim_ok (0 + 1) s2) as (st' & I' & R'); auto.
      { lia. }
      { unfold aligned. rewrite (Z.div_mod y 16) by lia. rewrite E8. replace (16 * (y / 16) + 8 + 8 * Z.of_nat (0 + 1))%Z with ((y / 16 + 1) * 16)%Z by lia. apply Z.mod_mul. lia. }
      { destruct HP as [HP|[HP V]]; [now left|right; split; [exact HP|]]. unfold s2. simp. rewrite V1. exact V. }
      exists st'. split; [exact I'|]. eapply reach_step; [cbn [GemModel.step]; rewrite Z2; replace (Nat.eqb (n - (0 + 1)) 0) with false by (symmetry; apply Nat.eqb_neq; lia); reflexivity|]. apply reach_next. exact R'.
Qed.
End F64.
