(** * Proofs: the four axpy functions *)
From Coq Require Import ZArith String Bool List Lia.
From Verif Require Import AsmModel AsmLemmas AsmSpec AsmProofs2.
From Verif Require Import GemModel GemCode GemLemmas GemSpec GemAxpy GemAxpy2 GemAxpy3.
Import ListNotations.
Open Scope string_scope.
Open Scope list_scope.
Open Scope nat_scope.

Section Common.
Variable A : lanes.
Variable esize : Z.
Variable half : nat.
Variable equal : lane A -> lane A -> bool.
Variable farg : string -> lane A.
Notation L := (lane A).
(** register r becomes the smaller of itself and an argument *)
Lemma min_block s r (st : state A) : exists st', block A esize half equal farg [CmpQ (FP s) (R r); CmovLE (FP s) (R r)] st = Some (st', Seq) /\
  gpr A st' r = Z.min (gpr A st r) (args A st s) /\ (forall q, ireg_eqb q r = false -> gpr A st' q = gpr A st q) /\ vec A st' = vec A st /\ mem A st' = mem A st /\ args A st' = args A st.
Proof.
  eexists. split; [reflexivity|]. cbn [zf lf set_flags get gpr args].
  assert (E : ireg_eqb r r = true) by (destruct r; reflexivity).
  destruct (Z.eqb_spec (args A st s) (gpr A st r)), (Z.ltb_spec (args A st s) (gpr A st r)); cbn [orb put set_gpr set_flags gpr vec mem args]; rewrite ?E;
    repeat split; auto; try lia; intros q ->; reflexivity.
Qed.
Lemma nth_error_repeat' (a : L) n i : i < n -> nth_error (repeat a n) i = Some a.
Proof. revert i. induction n; intros [|i] H; cbn; auto; try lia. apply IHn. lia. Qed.
Hypothesis esize_pos : (0 < esize)%Z.
Lemma finish alpha x y dst n (lx ly : list L) xs ys m0 m' : xs = firstn n lx -> ys = firstn n ly -> n <= length lx -> n <= length ly ->
  read A esize m0 x n = Some xs -> read A esize m0 y n = Some ys ->
  write A esize m0 dst (out A alpha n xs ys) = Some m' ->
  (forall i a b, i < n -> nth_error lx i = Some a -> nth_error ly i = Some b -> m' (dst + esize * Z.of_nat i)%Z = Some (bin A Add (bin A Mul a alpha) b)) /\
  (forall p, ~ within esize dst n p -> m' p = m0 p).
Proof.
  intros -> -> Lx Ly R1 R2 W. split.
  - intros i a b Hi Ha Hb. rewrite (write_get A esize esize_pos _ _ _ _ i W) by (rewrite (out_length A esize alpha x y n _ _ m0 R1 R2); exact Hi).
    unfold out, prod_. rewrite !map2_nth_error, nth_error_repeat' by exact Hi.
    assert (F : forall l : list L, nth_error (firstn n l) i = nth_error l i).
    { intros l. destruct (Nat.le_gt_cases (length l) i) as [G|G].
      - rewrite (proj2 (nth_error_None l i) G). apply nth_error_None. rewrite firstn_length. lia.
      - rewrite <- (firstn_skipn n l) at 2. rewrite nth_error_app1; [reflexivity|]. rewrite firstn_length. lia. }
    now rewrite !F, Ha, Hb.
  - intros p Hp. apply (write_frame A esize _ _ _ _ _ W). intros j Hj E. apply Hp. exists j. split; [|exact E].
    rewrite (out_length A esize alpha x y n _ _ m0 R1 R2) in Hj. exact Hj.
Qed.
End Common.

Ltac simp := cbn [GemModel.step]; unfold arith, set_zf; cbn [get put]; unfold put, get; cbn [gpr vec mem args zf lf set_gpr set_flags set_vec set_mem]; cbn [ireg_eqb number Nat.eqb].
Ltac raw := eapply reach_step; [cbn [GemModel.step]; reflexivity|].
Ltac stp := eapply reach_step; [simp; reflexivity|].

Theorem axpy32_ok A equal : computes_axpy A 4 4 equal axpy_unitary32.
Proof.
  intros farg st x y lx ly X1 Y1 X2 Y2 Sx Sy O Al. apply slice_read in Sx, Sy; [|lia..].
  set (n := Nat.min (length lx) (length ly)) in *.
  pose proof (read_sub A 4 _ _ _ _ 0 n Sx ltac:(lia)) as R1. pose proof (read_sub A 4 _ _ _ _ 0 n Sy ltac:(lia)) as R2.
  rewrite Z.mul_0_r, Z.add_0_r in R1, R2. cbn [skipn] in R1, R2.
  set (s1 := set_gpr A (set_gpr A (set_gpr A st SI x) DI y) BX (args A st "x_len")).
  destruct (min_block A 4 4 equal farg "y_len" BX s1) as (s2 & B2 & G2 & Q2 & V2 & M2 & A2).
  assert (G2' : gpr A s2 BX = Z.of_nat n). { rewrite G2. unfold s1. simp. rewrite X2, Y2. lia. }
  assert (T : reach A 4 4 equal farg axpy_unitary32 axpy_unitary32 st
    (("", [CmpQ (R BX) (N 0); Je "axpy_end"; ArgS "alpha" 0; Spread 0; XorQ (R AX) (R AX); Clear 2; Clear 3; MovQ (R DI) (R CX); AndQ (N 15) (R CX); Je "axpy_no_trim"; XorQ (N 15) (R CX); IncQ (R CX); ShrQ (N 2) (R CX)]) :: tl axpy_unitary32) s2).
  { eapply reach_step; [simp; rewrite X1; reflexivity|]. eapply reach_step; [simp; rewrite Y1; reflexivity|]. eapply reach_step; [simp; reflexivity|].
    eapply (reach_block _ _ _ _ _ _ _ [CmpQ (FP "y_len") (R BX); CmovLE (FP "y_len") (R BX)]); [exact B2|]. apply reach_refl. }
  assert (E : exists st', write A 4 (mem A st) y (out A (farg "alpha") n (firstn n lx) (firstn n ly)) = Some (mem A st') /\ returns A 4 4 equal farg axpy_unitary32 st st').
  { destruct (Nat.eq_dec n 0) as [Z|Z].
    - eexists. split; [|eapply (reach_return _ _ _ _ _ _ "axpy_end" []); eapply reach_trans; [exact T|]; eapply reach_step; [simp; rewrite G2', Z; reflexivity|]; eapply reach_goto; [reflexivity|reflexivity|apply reach_refl]].
      rewrite Z. cbn. rewrite M2. reflexivity.
    - eassert (I0 : inv A 4 4 DI (farg "alpha") x y y n (firstn n lx) (firstn n ly) (mem A st) 0 _);
        [|destruct (entry_ok DI (or_introl eq_refl) (snd (hd ("", []) axpy_unitary32)) A equal farg (farg "alpha") x y y n (firstn n lx) (firstn n ly) (mem A st) R1 R2 (read_cells _ _ _ _ _ _ R2) O ltac:(intros i j ? ? ?; lia) _ I0 ltac:(lia)) as (st' & I' & R')].
      4:{ exact Al. }
      4:{ exists st'. split; [destruct I' as (_ & _ & _ & _ & _ & _ & W); rewrite firstn_all2 in W; [exact W|rewrite (out_length A 4 _ x y n _ _ _ R1 R2); lia]|].
          eapply (reach_return _ _ _ _ _ _ "axpy_end" []). eapply reach_trans; [exact T|]. eapply reach_step; [simp; rewrite G2'; reflexivity|].
          eapply reach_step; [cbn [GemModel.step zf set_flags]; replace (Z.of_nat n =? 0)%Z with false by (symmetry; apply Z.eqb_neq; lia); reflexivity|].
          do 6 stp. exact R'. }
      { unfold GemAxpy.inv. simp. rewrite M2, !Q2 by reflexivity. unfold s1. simp. rewrite Z.lxor_nilpotent. repeat split; auto; lia. }
      { simp. exact G2'. }
      { simp. rewrite Q2 by reflexivity. reflexivity. } }
  destruct E as (st' & W & Rt). exists st'. split; [exact Rt|].
  destruct (finish A 4 ltac:(lia) (farg "alpha") x y y n lx ly _ _ _ _ eq_refl eq_refl ltac:(lia) ltac:(lia) R1 R2 W) as (F1 & F2). split; [|exact F2].
  intros i a b Ha Hb. apply F1; auto. apply Nat.min_glb_lt; apply nth_error_Some; congruence.
Qed.

Theorem axpy_to32_ok A equal : computes_axpy_to A 4 4 equal axpy_unitary_to32.
Proof.
  intros farg st dst x y ld lx ly n D1 X1 Y1 D2 X2 Y2 Sd Sx Sy Ox Oy Al. apply slice_read in Sx, Sy, Sd; [|lia..].
  pose proof (read_sub A 4 _ _ _ _ 0 n Sx ltac:(lia)) as R1. pose proof (read_sub A 4 _ _ _ _ 0 n Sy ltac:(lia)) as R2. pose proof (read_sub A 4 _ _ _ _ 0 n Sd ltac:(lia)) as R3.
  rewrite Z.mul_0_r, Z.add_0_r in R1, R2, R3. cbn [skipn] in R1, R2, R3. apply read_cells in R3.
  set (s1 := set_gpr A (set_gpr A (set_gpr A (set_gpr A st DI dst) SI x) DX y) BX (args A st "x_len")).
  destruct (min_block A 4 4 equal farg "y_len" BX s1) as (s2 & B2 & G2 & Q2 & V2 & M2 & A2).
  destruct (min_block A 4 4 equal farg "dst_len" BX s2) as (s3 & B3 & G3 & Q3 & V3 & M3 & A3).
  assert (G3' : gpr A s3 BX = Z.of_nat n). { rewrite G3, G2, A2. unfold s1. simp. rewrite X2, Y2, D2. lia. }
  assert (T : reach A 4 4 equal farg axpy_unitary_to32 axpy_unitary_to32 st
    (("", [CmpQ (R BX) (N 0); Je "axpy_end"; ArgS "alpha" 0; Spread 0; XorQ (R AX) (R AX); MovQ (R DX) (R CX); AndQ (N 15) (R CX); Je "axpy_no_trim"; XorQ (N 15) (R CX); IncQ (R CX); ShrQ (N 2) (R CX)]) :: tl axpy_unitary_to32) s3).
  { eapply reach_step; [simp; rewrite D1; reflexivity|]. eapply reach_step; [simp; rewrite X1; reflexivity|]. eapply reach_step; [simp; rewrite Y1; reflexivity|]. eapply reach_step; [simp; reflexivity|].
    eapply (reach_block _ _ _ _ _ _ _ [CmpQ (FP "y_len") (R BX); CmovLE (FP "y_len") (R BX)]); [exact B2|].
    eapply (reach_block _ _ _ _ _ _ _ [CmpQ (FP "dst_len") (R BX); CmovLE (FP "dst_len") (R BX)]); [exact B3|]. apply reach_refl. }
  assert (E : exists st', write A 4 (mem A st) dst (out A (farg "alpha") n (firstn n lx) (firstn n ly)) = Some (mem A st') /\ returns A 4 4 equal farg axpy_unitary_to32 st st').
  { destruct (Nat.eq_dec n 0) as [Z|Z].
    - eexists. split; [|eapply (reach_return _ _ _ _ _ _ "axpy_end" []); eapply reach_trans; [exact T|]; eapply reach_step; [simp; rewrite G3', Z; reflexivity|]; eapply reach_goto; [reflexivity|reflexivity|apply reach_refl]].
      rewrite Z. cbn. rewrite M3, M2. reflexivity.
    - eassert (I0 : inv A 4 4 DX (farg "alpha") x y dst n (firstn n lx) (firstn n ly) (mem A st) 0 _);
        [|destruct (entry_ok DX (or_intror eq_refl) (snd (hd ("", []) axpy_unitary_to32)) A equal farg (farg "alpha") x y dst n (firstn n lx) (firstn n ly) (mem A st) R1 R2 R3 Ox Oy _ I0 ltac:(lia)) as (st' & I' & R')].
      4:{ exact Al. }
      4:{ exists st'. split; [destruct I' as (_ & _ & _ & _ & _ & _ & W); rewrite firstn_all2 in W; [exact W|rewrite (out_length A 4 _ x y n _ _ _ R1 R2); lia]|].
          eapply (reach_return _ _ _ _ _ _ "axpy_end" []). eapply reach_trans; [exact T|]. eapply reach_step; [simp; rewrite G3'; reflexivity|].
          eapply reach_step; [cbn [GemModel.step zf set_flags]; replace (Z.of_nat n =? 0)%Z with false by (symmetry; apply Z.eqb_neq; lia); reflexivity|].
          do 4 stp. exact R'. }
      { unfold GemAxpy.inv. simp. rewrite M3, M2, !Q3, !Q2 by reflexivity. unfold s1. simp. rewrite Z.lxor_nilpotent. repeat split; auto; lia. }
      { simp. exact G3'. }
      { simp. rewrite Q3, Q2 by reflexivity. reflexivity. } }
  destruct E as (st' & W & Rt). exists st'. split; [exact Rt|].
  exact (finish A 4 ltac:(lia) (farg "alpha") x y dst n lx ly _ _ _ _ eq_refl eq_refl ltac:(lia) ltac:(lia) R1 R2 W).
Qed.

Theorem axpy64_ok A equal : computes_axpy A 8 2 equal axpy_unitary64.
Proof.
  intros farg st x y lx ly X1 Y1 X2 Y2 Sx Sy O Al. apply slice_read in Sx, Sy; [|lia..].
  set (n := Nat.min (length lx) (length ly)) in *.
  pose proof (read_sub A 8 _ _ _ _ 0 n Sx ltac:(lia)) as R1. pose proof (read_sub A 8 _ _ _ _ 0 n Sy ltac:(lia)) as R2.
  rewrite Z.mul_0_r, Z.add_0_r in R1, R2. cbn [skipn] in R1, R2.
  set (s1 := set_gpr A (set_gpr A (set_gpr A st SI x) DI y) CX (args A st "x_len")).
  destruct (min_block A 8 2 equal farg "y_len" CX s1) as (s2 & B2 & G2 & Q2 & V2 & M2 & A2).
  assert (G2' : gpr A s2 CX = Z.of_nat n). { rewrite G2. unfold s1. simp. rewrite X2, Y2. lia. }
  assert (T : reach A 8 2 equal farg axpy_unitary64 axpy_unitary64 st
    (("", [CmpQ (R CX) (N 0); Je "end"; XorQ (R AX) (R AX); ArgS "alpha" 0; Spread 0; Move 0 1; MovQ (R DI) (R BX)] ++ AndQ (N 15) (R BX) :: Je "no_trim" :: sc DI (fun b => At b None 0) 2 ++ [IncQ (R AX); DecQ (R CX); Je "end"]) :: tl axpy_unitary64) s2).
  { eapply reach_step; [simp; rewrite X1; reflexivity|]. eapply reach_step; [simp; rewrite Y1; reflexivity|]. eapply reach_step; [simp; reflexivity|].
    eapply (reach_block _ _ _ _ _ _ _ [CmpQ (FP "y_len") (R CX); CmovLE (FP "y_len") (R CX)]); [exact B2|]. apply reach_refl. }
  assert (E : exists st', write A 8 (mem A st) y (out A (farg "alpha") n (firstn n lx) (firstn n ly)) = Some (mem A st') /\ returns A 8 2 equal farg axpy_unitary64 st st').
  { destruct (Nat.eq_dec n 0) as [Z|Z].
    - eexists. split; [|eapply (reach_return _ _ _ _ _ _ "end" []); eapply reach_trans; [exact T|]; eapply reach_step; [simp; rewrite G2', Z; reflexivity|]; eapply reach_goto; [reflexivity|reflexivity|apply reach_refl]].
      rewrite Z. cbn. rewrite M2. reflexivity.
    - eassert (I0 : inv A 8 2 DI (farg "alpha") x y y n (firstn n lx) (firstn n ly) (mem A st) 0 _);
        [|destruct (entry64_ok DI (or_introl eq_refl) [] (snd (hd ("", []) axpy_unitary64)) A equal farg (farg "alpha") x y y n (firstn n lx) (firstn n ly) (mem A st) R1 R2 (read_cells _ _ _ _ _ _ R2) O ltac:(intros i j ? ? ?; lia) _ I0 ltac:(lia)) as (st' & W & R')].
      4:{ exact Al. }
      5:{ exists st'. split; [exact W|].
          eapply (reach_return _ _ _ _ _ _ "end" []). eapply reach_trans; [exact T|]. cbn [app]. eapply reach_step; [simp; rewrite G2'; reflexivity|].
          eapply reach_step; [cbn [GemModel.step zf set_flags]; replace (Z.of_nat n =? 0)%Z with false by (symmetry; apply Z.eqb_neq; lia); reflexivity|].
          do 5 stp. exact R'. }
      { unfold GemAxpy.inv. simp. rewrite M2, !Q2 by reflexivity. unfold s1. simp. rewrite Z.lxor_nilpotent. repeat split; auto; lia. }
      { simp. exact G2'. }
      { simp. rewrite Q2 by reflexivity. reflexivity. }
      { right. split; reflexivity. } }
  destruct E as (st' & W & Rt). exists st'. split; [exact Rt|].
  destruct (finish A 8 ltac:(lia) (farg "alpha") x y y n lx ly _ _ _ _ eq_refl eq_refl ltac:(lia) ltac:(lia) R1 R2 W) as (F1 & F2). split; [|exact F2].
  intros i a b Ha Hb. apply F1; auto. apply Nat.min_glb_lt; apply nth_error_Some; congruence.
Qed.

Theorem axpy_to64_ok A equal : computes_axpy_to A 8 2 equal axpy_unitary_to64.
Proof.
  intros farg st dst x y ld lx ly n D1 X1 Y1 D2 X2 Y2 Sd Sx Sy Ox Oy Al. apply slice_read in Sx, Sy, Sd; [|lia..].
  pose proof (read_sub A 8 _ _ _ _ 0 n Sx ltac:(lia)) as R1. pose proof (read_sub A 8 _ _ _ _ 0 n Sy ltac:(lia)) as R2. pose proof (read_sub A 8 _ _ _ _ 0 n Sd ltac:(lia)) as R3.
  rewrite Z.mul_0_r, Z.add_0_r in R1, R2, R3. cbn [skipn] in R1, R2, R3. apply read_cells in R3.
  set (s1 := set_gpr A (set_gpr A (set_gpr A (set_gpr A st DI dst) SI x) DX y) CX (args A st "x_len")).
  destruct (min_block A 8 2 equal farg "y_len" CX s1) as (s2 & B2 & G2 & Q2 & V2 & M2 & A2).
  destruct (min_block A 8 2 equal farg "dst_len" CX s2) as (s3 & B3 & G3 & Q3 & V3 & M3 & A3).
  assert (G3' : gpr A s3 CX = Z.of_nat n). { rewrite G3, G2, A2. unfold s1. simp. rewrite X2, Y2, D2. lia. }
  assert (T : reach A 8 2 equal farg axpy_unitary_to64 axpy_unitary_to64 st
    (("", [CmpQ (R CX) (N 0); Je "end"; XorQ (R AX) (R AX); ArgS "alpha" 0; Spread 0; MovQ (R DX) (R BX)] ++ AndQ (N 15) (R BX) :: Je "no_trim" :: sc DX (fun b => At b None 0) 2 ++ [IncQ (R AX); DecQ (R CX); Je "end"]) :: tl axpy_unitary_to64) s3).
  { eapply reach_step; [simp; rewrite D1; reflexivity|]. eapply reach_step; [simp; rewrite X1; reflexivity|]. eapply reach_step; [simp; rewrite Y1; reflexivity|]. eapply reach_step; [simp; reflexivity|].
    eapply (reach_block _ _ _ _ _ _ _ [CmpQ (FP "y_len") (R CX); CmovLE (FP "y_len") (R CX)]); [exact B2|].
    eapply (reach_block _ _ _ _ _ _ _ [CmpQ (FP "dst_len") (R CX); CmovLE (FP "dst_len") (R CX)]); [exact B3|]. apply reach_refl. }
  assert (E : exists st', write A 8 (mem A st) dst (out A (farg "alpha") n (firstn n lx) (firstn n ly)) = Some (mem A st') /\ returns A 8 2 equal farg axpy_unitary_to64 st st').
  { destruct (Nat.eq_dec n 0) as [Z|Z].
    - eexists. split; [|eapply (reach_return _ _ _ _ _ _ "end" []); eapply reach_trans; [exact T|]; eapply reach_step; [simp; rewrite G3', Z; reflexivity|]; eapply reach_goto; [reflexivity|reflexivity|apply reach_refl]].
      rewrite Z. cbn. rewrite M3, M2. reflexivity.
    - eassert (I0 : inv A 8 2 DX (farg "alpha") x y dst n (firstn n lx) (firstn n ly) (mem A st) 0 _);
        [|destruct (entry64_ok DX (or_intror eq_refl) [Move 0 1] (snd (hd ("", []) axpy_unitary_to64)) A equal farg (farg "alpha") x y dst n (firstn n lx) (firstn n ly) (mem A st) R1 R2 R3 Ox Oy _ I0 ltac:(lia)) as (st' & W & R')].
      4:{ exact Al. }
      5:{ exists st'. split; [exact W|].
          eapply (reach_return _ _ _ _ _ _ "end" []). eapply reach_trans; [exact T|]. cbn [app]. eapply reach_step; [simp; rewrite G3'; reflexivity|].
          eapply reach_step; [cbn [GemModel.step zf set_flags]; replace (Z.of_nat n =? 0)%Z with false by (symmetry; apply Z.eqb_neq; lia); reflexivity|].
          do 4 stp. exact R'. }
      { unfold GemAxpy.inv. simp. rewrite M3, M2, !Q3, !Q2 by reflexivity. unfold s1. simp. rewrite Z.lxor_nilpotent. repeat split; auto; lia. }
      { simp. exact G3'. }
      { simp. rewrite Q3, Q2 by reflexivity. reflexivity. }
      { now left. } }
  destruct E as (st' & W & Rt). exists st'. split; [exact Rt|].
  exact (finish A 8 ltac:(lia) (farg "alpha") x y dst n lx ly _ _ _ _ eq_refl eq_refl ltac:(lia) ltac:(lia) R1 R2 W).
Qed.
