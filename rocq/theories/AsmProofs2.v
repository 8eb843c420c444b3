(** * Proofs: the element-wise kernels of two operands, whole functions *)
From Coq Require Import ZArith String Bool List Lia.
From Verif Require Import AsmModel AsmCode AsmSpec AsmLemmas AsmProofs.
Import ListNotations.
Open Scope string_scope.
Open Scope list_scope.

Section Two.
Variable A : lanes.
Variable esize : Z.
Variable half : nat.
Notation L := (lane A).

Lemma slice_read m a l : slice A esize m a l -> read A esize m a (length l) = Some l.
Proof.
  intros H. apply read_intro. intros i Q. destruct (nth_error l i) as [x|] eqn:E; [|apply nth_error_None in E; lia].
  now apply H.
Qed.

Hypothesis esize_pos : (0 < esize)%Z.
Hypothesis half_pos : 0 < half.
Hypothesis width : (esize * Z.of_nat half = 16)%Z.

Section Run.
Variable F : frame A.
Variable op : bop.
Variables (x1 x2 y : Z) (N : nat) (xs1 xs2 : list L) (m0 : Z -> option L).
Hypothesis R1 : read A esize m0 x1 N = Some xs1.
Hypothesis R2 : read A esize m0 x2 N = Some xs2.
Hypothesis Cy : cells A esize m0 y N.
Hypothesis O1 : same_or_apart esize x1 y N.
Hypothesis O2 : same_or_apart esize x2 y N.
Notation inv := (inv2 A esize op x1 x2 y N xs1 xs2 m0).
Notation reach := (reach A esize half F).
Notation block := (block A esize half F).

Lemma inv_bx al n st : inv al n st -> gpr A st BX = Z.of_nat n.
Proof. intros (_ & _ & _ & _ & H & _). exact H. Qed.
Lemma inv_weaken al n st : inv al n st -> inv false n st.
Proof. intros (H1 & H2 & H3 & H4 & H5 & H6 & _). repeat split; auto. discriminate. Qed.

Lemma loops2_ok whole s vex tvex al n st : (vex = true \/ (al = true /\ s = X)) ->
  from_label whole "unrolledLoop" = Some (loops2 esize half op s vex tvex) ->
  from_label whole "singleRegisterLoop" = Some (skipn 1 (loops2 esize half op s vex tvex)) ->
  from_label whole "tailLoop" = Some (skipn 2 (loops2 esize half op s vex tvex)) ->
  from_label whole "end" = Some [("end", [Ret])] ->
  inv al n st ->
  exists st', inv false 0 st' /\ reach whole (loops2 esize half op s vex tvex) st [("end", [Ret])] st'.
Proof.
  intros Hv F1 F2 F3 F4 H. assert (W0 : 0 < lanes_of half s) by (destruct s; cbn; lia).
  destruct (loop A esize half F whole "unrolledLoop" "singleRegisterLoop" BX (lanes_of half s * 16) (body2 esize half op s vex 16) (skipn 1 (loops2 esize half op s vex tvex)) _ (inv al)
    ltac:(lia) F1 F2 (inv_bx al) (fun n st st' => inv2_same A esize op x1 x2 y N xs1 xs2 m0 al n st st')) with (n := n) (st := st) as (n1 & st1 & _ & I1 & Re1); [|exact H|].
  { intros k s0 Hk I. apply (body2_ok A esize half F esize_pos half_pos width op x1 x2 y N xs1 xs2 m0 R1 R2 Cy O1 O2 al s vex 16 (lanes_of half s * 16) s0 Hv eq_refl k Hk I). }
  destruct (loop A esize half F whole "singleRegisterLoop" "tailLoop" BX (lanes_of half s) (body2 esize half op s vex 1) (skipn 2 (loops2 esize half op s vex tvex)) _ (inv al)
    ltac:(lia) F2 F3 (inv_bx al) (fun n st st' => inv2_same A esize op x1 x2 y N xs1 xs2 m0 al n st st')) with (n := n1) (st := st1) as (n2 & st2 & _ & I2 & Re2); [|exact I1|].
  { intros k s0 Hk I. apply (body2_ok A esize half F esize_pos half_pos width op x1 x2 y N xs1 xs2 m0 R1 R2 Cy O1 O2 al s vex 1 (lanes_of half s) s0 Hv ltac:(lia) k Hk I). }
  destruct (tail_loop A esize half F whole "tailLoop" "end" BX (one2 esize op tvex) (skipn 3 (loops2 esize half op s vex tvex)) _ (inv false)
    F3 F4 (inv_bx false) (fun n st st' => inv2_same A esize op x1 x2 y N xs1 xs2 m0 false n st st')) with (n := n2) (st := st2) as (st3 & I3 & Re3); [|exact (inv_weaken _ _ _ I2)|].
  { intros k s0 I. destruct (one2_ok A esize half F esize_pos half_pos width op x1 x2 y N xs1 xs2 m0 R1 R2 Cy O1 O2 false tvex k s0 I) as (s1 & B & I' & _). eauto. }
  exists st3. split; [exact I3|]. eapply reach_trans; [exact Re1|]. eapply reach_trans; [exact Re2|]. exact Re3.
Qed.
End Run.

Lemma finish F c st st1 (op : bop) x1 x2 y N xs1 xs2 : read A esize (mem A st) x1 N = Some xs1 -> read A esize (mem A st) x2 N = Some xs2 ->
  reach A esize half F c c st [("end", [Ret])] st1 -> inv2 A esize op x1 x2 y N xs1 xs2 (mem A st) false 0 st1 ->
  exists st', returns A esize half F c st st' /\
    (forall i a b, nth_error xs1 i = Some a -> nth_error xs2 i = Some b -> mem A st' (y + esize * Z.of_nat i)%Z = Some (bin A op a b)) /\
    (forall p, ~ within esize y N p -> mem A st' p = mem A st p).
Proof.
  intros R1 R2 R (_ & _ & _ & _ & _ & W & _). exists st1. rewrite Nat.sub_0_r in W.
  pose proof (out2_length A esize op x1 x2 N xs1 xs2 (mem A st) R1 R2) as Ln. rewrite firstn_all2 in W by lia. split; [|split].
  - eapply reach_return; [exact R | reflexivity].
  - intros i a b Ha Hb. rewrite (write_get A esize esize_pos _ _ _ _ i W).
    + unfold out2. now rewrite map2_nth_error, Ha, Hb.
    + rewrite Ln. rewrite <- (read_length _ _ _ _ _ _ R1). apply nth_error_Some. congruence.
  - intros p Np. apply (write_frame A esize _ _ _ _ _ W). rewrite Ln. intros i Q E. apply Np. exists i. auto.
Qed.

Lemma entry_inv op F st st1 x1 x2 y N xs1 xs2 : iarg A F "x1_base" = x1 -> iarg A F "x2_base" = x2 -> iarg A F "y_base" = y -> iarg A F "x1_len" = Z.of_nat N ->
  block A esize half F args2 st = Some (st1, Seq) -> inv2 A esize op x1 x2 y N xs1 xs2 (mem A st) false N st1.
Proof.
  intros <- <- <- E [= <-]. unfold inv2. cbn [gpr mem set_gpr greg_eqb]. rewrite Nat.sub_diag. cbn [firstn write]. change (Z.of_nat 0) with 0%Z.
  rewrite !Z.mul_0_r, !Z.add_0_r. repeat split; auto. discriminate.
Qed.

Lemma args2_runs F st : exists st1, block A esize half F args2 st = Some (st1, Seq).
Proof. eexists. reflexivity. Qed.

Theorem avx2_ok op tvex : computes2 A esize half (avx2 esize half op tvex) (bin A op).
Proof.
  intros F st x1 x2 y l1 l2 ly E1 E2 E3 E4 L2 Ly S1 S2 Sy O1 O2 _.
  apply slice_read in S1, S2, Sy. rewrite L2 in S2. rewrite Ly in Sy. apply read_cells in Sy; auto.
  destruct (args2_runs F st) as [st1 B1]. pose proof (entry_inv op F st st1 x1 x2 y (length l1) l1 l2 E1 E2 E3 E4 B1) as I1.
  destruct (loops2_ok F op x1 x2 y (length l1) l1 l2 (mem A st) S1 S2 Sy O1 O2 (avx2 esize half op tvex) Y true tvex false (length l1) st1) as (st2 & I2 & R2); try reflexivity; auto.
  apply (finish F (avx2 esize half op tvex) st st2 op x1 x2 y (length l1) l1 l2); auto.
  eapply reach_trans; [|exact R2]. apply reach_fall. exact B1.
Qed.

(** ** SSE, float32: elements one by one until x2 is aligned *)
Definition sse_entry : list instr := args2 ++ [CmpQ BX 0; Je "end"; MovQ CX SI; AndQ 15 SI; Je "unrolledLoop"; XorQ 15 SI; IncQ SI; ShrQ 2 SI].

Lemma align_loop F op x1 x2 y l1 l2 (m0 : Z -> option L) : 
  read A esize m0 x1 (length l1) = Some l1 -> read A esize m0 x2 (length l1) = Some l2 -> cells A esize m0 y (length l1) ->
  same_or_apart esize x1 y (length l1) -> same_or_apart esize x2 y (length l1) ->
  forall whole rest l is cl, from_label whole "end" = Some [("end", [Ret])] -> rest = (l, is) :: cl ->
  let me := ("alignmentLoop", one2 esize op false ++ [Je "end"; DecQ SI; Jne "alignmentLoop"]) :: rest in
  from_label whole "alignmentLoop" = Some me ->
  forall t r st, inv2 A esize op x1 x2 y (length l1) l1 l2 m0 false (S r) st -> gpr A st SI = Z.of_nat (S t) ->
    ((gpr A st CX + esize * Z.of_nat (S t)) mod 16 = 0)%Z ->
    exists r' st', (inv2 A esize op x1 x2 y (length l1) l1 l2 m0 false 0 st' /\ reach A esize half F whole me st [("end", [Ret])] st') \/
                   (inv2 A esize op x1 x2 y (length l1) l1 l2 m0 true r' st' /\ reach A esize half F whole me st rest st').
Proof.
  intros R1 R2 Cy O1 O2 whole rest l is cl Fe Er me Fm. induction t as [| t IH]; intros r st I Si Al;
    destruct (one2_ok A esize half F esize_pos half_pos width op x1 x2 y (length l1) l1 l2 m0 R1 R2 Cy O1 O2 false false r st I) as (st1 & B1 & I1 & C1 & S1 & Z1).
  - destruct r as [| r].
    + exists 0, st1. left. split; [exact I1|]. apply (reach_goto A esize half F whole _ _ rest st st1 "end"); [|exact Fe].
      rewrite block_app, B1. cbn [AsmModel.block step]. now rewrite Z1.
    + eexists (S r), _. right. split; [|apply reach_fall; rewrite block_app, B1; cbn [AsmModel.block step]; rewrite Z1; cbn [Nat.eqb];
        cbn [zf set_zf]; rewrite S1, Si; reflexivity].
      destruct I1 as (H1 & H2 & H3 & H4 & H5 & H6 & _). unfold inv2. cbn [gpr mem set_zf set_gpr greg_eqb]. repeat split; auto.
      intros _. rewrite C1. change (Z.of_nat 1) with 1%Z in Al. rewrite Z.mul_1_r in Al. exact Al.
  - destruct r as [| r].
    + exists 0, st1. left. split; [exact I1|]. apply (reach_goto A esize half F whole _ _ rest st st1 "end"); [|exact Fe].
      rewrite block_app, B1. cbn [AsmModel.block step]. now rewrite Z1.
    + set (st2 := set_zf A (set_gpr A st1 SI (gpr A st1 SI - 1)) (gpr A st1 SI - 1 =? 0)%Z).
      assert (I2 : inv2 A esize op x1 x2 y (length l1) l1 l2 m0 false (S r) st2).
      { destruct I1 as (H1 & H2 & H3 & H4 & H5 & H6 & _). unfold inv2, st2. cbn [gpr mem set_zf set_gpr greg_eqb]. repeat split; auto. discriminate. }
      destruct (IH r st2 I2) as (r' & st' & K).
      * unfold st2. cbn [gpr set_zf set_gpr greg_eqb]. rewrite S1, Si. lia.
      * unfold st2. cbn [gpr set_zf set_gpr greg_eqb]. rewrite C1. rewrite <- Al. f_equal. lia.
      * assert (Re : reach A esize half F whole me st me st2).
        { apply (reach_goto A esize half F whole _ _ rest st st2 "alignmentLoop"); [|exact Fm].
          rewrite block_app, B1. cbn [AsmModel.block step]. rewrite Z1. cbn [Nat.eqb]. fold st2. replace (zf A st2) with false; [reflexivity|].
          unfold st2. cbn [zf set_zf]. symmetry. apply Z.eqb_neq. rewrite S1, Si. lia. }
        exists r', st'. destruct K as [[K1 K2] | [K1 K2]]; [left | right]; (split; [exact K1|]); eapply reach_trans; eauto.
Qed.
End Two.

Lemma land15 z : Z.land z 15 = (z mod 16)%Z.
Proof. change 15%Z with (Z.ones 4). rewrite Z.land_ones by lia. reflexivity. Qed.
Lemma si_32 o : (0 < o < 16)%Z -> (o mod 4 = 0)%Z -> exists t, Z.shiftr (Z.lxor o 15 + 1) 2 = Z.of_nat (S t) /\ (o + 4 * Z.of_nat (S t) = 16)%Z.
Proof.
  intros H M. assert (C : o = 4%Z \/ o = 8%Z \/ o = 12%Z).
  { pose proof (Z.div_mod o 4 ltac:(lia)). assert (o / 4 < 4)%Z by (apply Z.div_lt_upper_bound; lia). assert (0 <= o / 4)%Z by (apply Z.div_pos; lia). lia. }
  destruct C as [-> | [-> | ->]]; [exists 2 | exists 1 | exists 0]; split; reflexivity.
Qed.

Section SSE.
Variable A : lanes.
Notation L := (lane A).
Theorem sse2_32_ok op : computes2 A 4 4 (sse2_32 4 4 op) (bin A op).
Proof.
  intros F st x1 x2 y l1 l2 ly E1 E2 E3 E4 L2 Ly S1 S2 Sy O1 O2 Al.
  apply slice_read in S1, S2, Sy. rewrite L2 in S2. rewrite Ly in Sy. apply read_cells in Sy.
  destruct (args2_runs A 4 4 F st) as [st1 B1]. pose proof (entry_inv A 4 4 op F st st1 x1 x2 y (length l1) l1 l2 E1 E2 E3 E4 B1) as I1.
  set (whole := sse2_32 4 4 op) in *. pose proof I1 as (_ & _ & G2 & _ & G4 & _).
  rewrite Nat.sub_diag in G2. change (Z.of_nat 0) with 0%Z in G2. rewrite Z.mul_0_r, Z.add_0_r in G2.
  set (st2 := mkState A (gpr A st1) (vec A st1) (mem A st1) (gpr A st1 BX =? 0)%Z (gpr A st1 BX <? 0)%Z (ret A st1)).
  assert (I2 : inv2 A 4 op x1 x2 y (length l1) l1 l2 (mem A st) false (length l1) st2) by (apply (inv2_same _ _ _ _ _ _ _ _ _ _ _ _ st1 st2 I1); repeat split).
  assert (Fin : forall st3, inv2 A 4 op x1 x2 y (length l1) l1 l2 (mem A st) false 0 st3 -> reach A 4 4 F whole whole st [("end", [Ret])] st3 -> _)
    by (intros st3 I3 R3; exact (finish A 4 4 ltac:(lia) ltac:(lia) F whole st st3 op x1 x2 y (length l1) l1 l2 S1 S2 R3 I3)).
  destruct l1 as [| a l1'] eqn:El.
  - apply (Fin st2 I2). apply (reach_goto A 4 4 F whole "entry" _ _ st st2 "end"); [|reflexivity].
    unfold whole, sse2_32. rewrite block_app, B1. cbn [AsmModel.block step]. fold st2. replace (zf A st2) with true; [reflexivity|].
    unfold st2. cbn [zf]. rewrite G4. reflexivity.
  - rewrite <- El in *. assert (Nz : (gpr A st1 BX =? 0)%Z = false) by (apply Z.eqb_neq; rewrite G4, El; cbn [length]; lia).
    assert (M4 : (x2 mod 16 mod 4 = 0)%Z) by (rewrite (Znumtheory.Zmod_div_mod 4 16 x2) in Al; [exact Al | lia | lia | exists 4%Z; reflexivity]).
    pose proof (Z.mod_pos_bound x2 16 ltac:(lia)) as Bd.
    destruct (Z.eq_dec (x2 mod 16) 0) as [Q | Q].
    + set (st3 := set_zf A (set_gpr A (set_gpr A st2 SI (gpr A st2 CX)) SI (Z.land (gpr A st2 CX) 15)) (Z.land (gpr A st2 CX) 15 =? 0)%Z).
      assert (I3 : inv2 A 4 op x1 x2 y (length l1) l1 l2 (mem A st) true (length l1) st3).
      { destruct I2 as (H1 & H2 & H3 & H4 & H5 & H6 & _). unfold inv2, st3. cbn [gpr mem set_zf set_gpr greg_eqb]. repeat split; auto.
        intros _. unfold st2. cbn [gpr]. rewrite G2. exact Q. }
      destruct (loops2_ok A 4 4 ltac:(lia) ltac:(lia) eq_refl F op x1 x2 y (length l1) l1 l2 (mem A st) S1 S2 Sy O1 O2 whole X false false true (length l1) st3) as (st4 & I4 & R4); try reflexivity; auto.
      apply (Fin st4 I4). eapply reach_trans; [|exact R4]. apply (reach_goto A 4 4 F whole "entry" _ _ st st3 "unrolledLoop"); [|reflexivity].
      unfold whole, sse2_32. rewrite block_app, B1. cbn [AsmModel.block step]. fold st2. replace (zf A st2) with false by (symmetry; exact Nz).
      cbn [gpr set_gpr greg_eqb]. fold st3. replace (zf A st3) with true; [reflexivity|]. unfold st3. cbn [zf set_zf]. unfold st2. cbn [gpr].
      rewrite G2, land15, Q. reflexivity.
    + destruct (si_32 (x2 mod 16) ltac:(lia) M4) as (t & T1 & T2).
      assert (B : exists st3, block A 4 4 F (args2 ++ [CmpQ BX 0; Je "end"; MovQ CX SI; AndQ 15 SI; Je "unrolledLoop"; XorQ 15 SI; IncQ SI; ShrQ 2 SI]) st = Some (st3, Seq) /\
                 gpr A st3 AX = gpr A st2 AX /\ gpr A st3 CX = gpr A st2 CX /\ gpr A st3 DX = gpr A st2 DX /\ gpr A st3 BX = gpr A st2 BX /\ mem A st3 = mem A st2 /\ gpr A st3 SI = Z.of_nat (S t)).
      { rewrite block_app, B1. cbn [AsmModel.block step]. fold st2. replace (zf A st2) with false by (symmetry; exact Nz).
        cbn [gpr set_gpr set_zf zf greg_eqb]. assert (C2 : gpr A st2 CX = x2) by exact G2. rewrite C2, land15. rewrite (proj2 (Z.eqb_neq _ _) Q).
        eexists. split; [reflexivity|]. cbn [gpr set_gpr set_zf mem greg_eqb]. repeat split; first [exact T1 | exact C2 | symmetry; exact C2]. }
      destruct B as (st3 & B3 & K1 & K2 & K3 & K4 & K5 & K6).
      assert (I3 : inv2 A 4 op x1 x2 y (length l1) l1 l2 (mem A st) false (S (length l1')) st3).
      { replace (S (length l1')) with (length l1) by (rewrite El; reflexivity). unfold inv2. rewrite K1, K2, K3, K4, K5. exact I2. }
      destruct (align_loop A 4 4 ltac:(lia) ltac:(lia) eq_refl F op x1 x2 y l1 l2 (mem A st) S1 S2 Sy O1 O2 whole (loops2 4 4 op X false false) _ _ _ eq_refl eq_refl eq_refl t (length l1') st3 I3 K6) as (r' & st4 & [[K7 K8] | [K7 K8]]).
      { rewrite K2. unfold st2. cbn [gpr]. rewrite G2. rewrite (Z.div_mod x2 16) by lia.
        replace (16 * (x2 / 16) + x2 mod 16 + 4 * Z.of_nat (S t))%Z with (0 + (x2 / 16 + 1) * 16)%Z by lia. rewrite Z.mod_add by lia. reflexivity. }
      * apply (Fin st4 K7). eapply reach_trans; [|exact K8]. apply reach_fall. exact B3.
      * destruct (loops2_ok A 4 4 ltac:(lia) ltac:(lia) eq_refl F op x1 x2 y (length l1) l1 l2 (mem A st) S1 S2 Sy O1 O2 whole X false false true r' st4) as (st5 & I5 & R5); try reflexivity; auto.
        apply (Fin st5 I5). eapply reach_trans; [|exact R5]. eapply reach_trans; [|exact K8]. apply reach_fall. exact B3.
Qed.

Theorem sse2_64_ok op : computes2 A 8 2 (sse2_64 8 2 op) (bin A op).
Proof.
  intros F st x1 x2 y l1 l2 ly E1 E2 E3 E4 L2 Ly S1 S2 Sy O1 O2 Al.
  apply slice_read in S1, S2, Sy. rewrite L2 in S2. rewrite Ly in Sy. apply read_cells in Sy.
  destruct (args2_runs A 8 2 F st) as [st1 B1]. pose proof (entry_inv A 8 2 op F st st1 x1 x2 y (length l1) l1 l2 E1 E2 E3 E4 B1) as I1.
  set (whole := sse2_64 8 2 op) in *. pose proof I1 as (_ & _ & G2 & _ & G4 & _).
  rewrite Nat.sub_diag in G2. change (Z.of_nat 0) with 0%Z in G2. rewrite Z.mul_0_r, Z.add_0_r in G2.
  set (st2 := mkState A (gpr A st1) (vec A st1) (mem A st1) (gpr A st1 BX =? 0)%Z (gpr A st1 BX <? 0)%Z (ret A st1)).
  assert (I2 : inv2 A 8 op x1 x2 y (length l1) l1 l2 (mem A st) false (length l1) st2) by (apply (inv2_same _ _ _ _ _ _ _ _ _ _ _ _ st1 st2 I1); repeat split).
  assert (Fin : forall st3, inv2 A 8 op x1 x2 y (length l1) l1 l2 (mem A st) false 0 st3 -> reach A 8 2 F whole whole st [("end", [Ret])] st3 -> _)
    by (intros st3 I3 R3; exact (finish A 8 2 ltac:(lia) ltac:(lia) F whole st st3 op x1 x2 y (length l1) l1 l2 S1 S2 R3 I3)).
  destruct l1 as [| a l1'] eqn:El.
  - apply (Fin st2 I2). apply (reach_goto A 8 2 F whole "entry" _ _ st st2 "end"); [|reflexivity].
    unfold whole, sse2_64. rewrite block_app, B1. cbn [AsmModel.block step app]. fold st2. replace (zf A st2) with true; [reflexivity|].
    unfold st2. cbn [zf]. rewrite G4. reflexivity.
  - rewrite <- El in *. assert (Nz : (gpr A st1 BX =? 0)%Z = false) by (apply Z.eqb_neq; rewrite G4, El; cbn [length]; lia).
    assert (M8 : (x2 mod 16 mod 8 = 0)%Z) by (rewrite (Znumtheory.Zmod_div_mod 8 16 x2) in Al; [exact Al | lia | lia | exists 2%Z; reflexivity]).
    pose proof (Z.mod_pos_bound x2 16 ltac:(lia)) as Bd.
    set (st3 := set_zf A (set_gpr A (set_gpr A st2 SI (gpr A st2 CX)) SI (Z.land (gpr A st2 CX) 15)) (Z.land (gpr A st2 CX) 15 =? 0)%Z).
    assert (I3 : inv2 A 8 op x1 x2 y (length l1) l1 l2 (mem A st) false (length l1) st3).
    { destruct I2 as (H1 & H2 & H3 & H4 & H5 & H6 & _). unfold inv2, st3. cbn [gpr mem set_zf set_gpr greg_eqb]. repeat split; auto. discriminate. }
    destruct (Z.eq_dec (x2 mod 16) 0) as [Q | Q].
    + assert (I3' : inv2 A 8 op x1 x2 y (length l1) l1 l2 (mem A st) true (length l1) st3).
      { destruct I3 as (H1 & H2 & H3 & H4 & H5 & H6 & _). repeat split; auto. intros _. unfold st3, st2. cbn [gpr set_zf set_gpr greg_eqb]. rewrite G2. exact Q. }
      destruct (loops2_ok A 8 2 ltac:(lia) ltac:(lia) eq_refl F op x1 x2 y (length l1) l1 l2 (mem A st) S1 S2 Sy O1 O2 whole X false false true (length l1) st3) as (st4 & I4 & R4); try reflexivity; auto.
      apply (Fin st4 I4). eapply reach_trans; [|exact R4]. apply (reach_goto A 8 2 F whole "entry" _ _ st st3 "unrolledLoop"); [|reflexivity].
      unfold whole, sse2_64. rewrite block_app, B1. cbn [AsmModel.block step app]. fold st2. replace (zf A st2) with false by (symmetry; exact Nz).
      cbn [gpr set_gpr greg_eqb]. fold st3. replace (zf A st3) with true; [reflexivity|]. unfold st3. cbn [zf set_zf]. unfold st2. cbn [gpr].
      rewrite G2, land15, Q. reflexivity.
    + rewrite El in I3 at 3. cbn [length] in I3.
      destruct (one2_ok A 8 2 F ltac:(lia) ltac:(lia) eq_refl op x1 x2 y (length l1) l1 l2 (mem A st) S1 S2 Sy O1 O2 false false (length l1') st3 I3) as (st4 & B4 & I4 & C4 & _).
      assert (I4' : inv2 A 8 op x1 x2 y (length l1) l1 l2 (mem A st) true (length l1') st4).
      { destruct I4 as (H1 & H2 & H3 & H4 & H5 & H6 & _). repeat split; auto. intros _. rewrite C4. unfold st3, st2. cbn [gpr set_zf set_gpr greg_eqb]. rewrite G2.
        assert (x2 mod 16 = 8)%Z by (pose proof (Z.div_mod (x2 mod 16) 8 ltac:(lia)); assert (x2 mod 16 / 8 < 2)%Z by (apply Z.div_lt_upper_bound; lia); assert (0 <= x2 mod 16 / 8)%Z by (apply Z.div_pos; lia); lia).
        rewrite (Z.div_mod x2 16) by lia. replace (16 * (x2 / 16) + x2 mod 16 + 8)%Z with (0 + (x2 / 16 + 1) * 16)%Z by lia. rewrite Z.mod_add by lia. reflexivity. }
      destruct (loops2_ok A 8 2 ltac:(lia) ltac:(lia) eq_refl F op x1 x2 y (length l1) l1 l2 (mem A st) S1 S2 Sy O1 O2 whole X false false true (length l1') st4) as (st5 & I5 & R5); try reflexivity; auto.
      apply (Fin st5 I5). eapply reach_trans; [|exact R5]. apply reach_fall.
      rewrite block_app, B1. change ([CmpQ BX 0; Je "end"; MovQ CX SI; AndQ 15 SI; Je "unrolledLoop"] ++ one2 8 op false) with ([CmpQ BX 0; Je "end"; MovQ CX SI; AndQ 15 SI; Je "unrolledLoop"] ++ one2 8 op false).
      rewrite block_app. cbn [AsmModel.block step]. fold st2. replace (zf A st2) with false by (symmetry; exact Nz). cbn [gpr set_gpr greg_eqb]. fold st3.
      replace (zf A st3) with false; [exact B4|]. unfold st3. cbn [zf set_zf]. unfold st2. cbn [gpr]. rewrite G2, land15. symmetry. now apply Z.eqb_neq.
Qed.
End SSE.
