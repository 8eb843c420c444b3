(** * GemvN: the entry and the whole *)
From Coq Require Import ZArith String Bool List Lia Permutation.
From Verif Require Import AsmModel AsmLemmas AsmSpec.
From Verif Require Import GemModel GemCode GemSpec GemLemmas GemGemv.
Import ListNotations.
Open Scope string_scope.
Open Scope nat_scope.

Ltac ex b next := let c := eval vm_compute in (snd (hd ("", []) (from b))) in change (from b) with ((b, c) :: from next).
Ltac look A o t := cbn [GemModel.step]; match goal with |- context [GemModel.get A ?s o] => change (GemModel.get A s o) with t end.

Lemma ex_step A equal farg l i is c st st' c' (P : state A -> Prop) : step A 8 2 equal farg i st = Some (st', Seq) ->
  (exists s1, reach A 8 2 equal farg gemv_n64 (("", is) :: c) st' c' s1 /\ P s1) -> exists s1, reach A 8 2 equal farg gemv_n64 ((l, i :: is) :: c) st c' s1 /\ P s1.
Proof. intros H (s1 & R & Q). exists s1. split; [|exact Q]. eapply reach_step; [exact H|exact R]. Qed.
Ltac nx := eapply ex_step; [reflexivity|].
Theorem gemv_ok A equal : computes_gemv A 8 2 equal gemv_n64.
Proof.
  intros farg st m n a x y la lx ly Hm Hn Hlda HiX HiY Ha Hx Hy Hb La Lx Ly Sa Sx Sy Da Dx.
  assert (F : forall l, existsb (String.eqb l) (map fst gemv_n64) = true -> from_label gemv_n64 l = Some (from l)) by exact from_some.
  destruct m as [|m'].
  { eexists. split.
    - eapply reach_return. change gemv_n64 with (from "entry") at 2. ex "entry" "gemv_clear". do 2 (eapply reach_step; [reflexivity|]).
      eapply reach_step; [look A (R CX) (args A st "m"); rewrite Hm; reflexivity|].
      eapply reach_goto; [reflexivity|apply from_some; reflexivity|apply reach_refl].
    - split; [lia|]. reflexivity. }
  destruct n as [|n'].
  { eexists. split.
    - eapply reach_return. change gemv_n64 with (from "entry") at 2. ex "entry" "gemv_clear". do 2 (eapply reach_step; [reflexivity|]).
      eapply reach_step; [look A (R CX) (args A st "m"); rewrite Hm; reflexivity|]. eapply reach_step; [reflexivity|].
      eapply reach_step; [look A (R BX) (args A st "n"); rewrite Hn; reflexivity|].
      eapply reach_goto; [reflexivity|apply from_some; reflexivity|apply reach_refl].
    - split; [lia|]. reflexivity. }
  set (m := S m') in *. set (n := S n') in *.
  set (al := farg "alpha") in *. set (be := farg "beta") in *.
  assert (E : exists s1, reach A 8 2 equal farg gemv_n64 gemv_n64 st (from "gemv_clear") s1 /\
    (gpr A s1 AX = a /\ gpr A s1 DI = a /\ gpr A s1 SI = x /\ gpr A s1 DX = y /\ gpr A s1 R10 = 8%Z /\ gpr A s1 R12 = (8 * Z.of_nat n)%Z /\ gpr A s1 R13 = (24 * Z.of_nat n)%Z /\
    gpr A s1 CX = Z.of_nat m /\ vec A s1 15 = [al; al] /\ vec A s1 14 = [be; be] /\
    args A s1 "x_base" = x /\ args A s1 "y_base" = y /\ args A s1 "m" = Z.of_nat m /\ args A s1 "n" = Z.of_nat n /\ args A s1 "incX" = 1%Z /\ args A s1 "incY" = 1%Z /\ mem A s1 = mem A st)).
  { change gemv_n64 with (from "entry") at 2. ex "entry" "gemv_clear". do 2 nx.
    eapply ex_step; [look A (R CX) (args A st "m"); rewrite Hm; reflexivity|]. nx.
    eapply ex_step; [look A (R BX) (args A st "n"); rewrite Hn; reflexivity|]. nx. do 7 nx.
    match goal with |- exists s1, reach A _ _ _ _ _ _ ?S _ s1 /\ _ =>
      assert (V : gpr A S AX = a /\ gpr A S SI = x /\ gpr A S DX = y /\ gpr A S R10 = 1%Z /\ gpr A S R12 = Z.of_nat n /\ gpr A S CX = Z.of_nat m /\ vec A S 15 = [al; al] /\ vec A S 14 = [be; be] /\ mem A S = mem A st /\ args A S = args A st)
        by (repeat split; assumption); generalize dependent S end.
    intros s (V1 & V2 & V3 & V4 & V5 & V6 & V7 & V8 & V9 & V10). do 3 nx.
    match goal with |- exists s1, reach A _ _ _ _ _ _ ?S _ s1 /\ _ =>
      assert (W : gpr A S AX = a /\ gpr A S SI = x /\ gpr A S DX = y /\ gpr A S R10 = 1%Z /\ gpr A S R12 = (8 * Z.of_nat n)%Z /\ gpr A S CX = Z.of_nat m /\ vec A S 15 = [al; al] /\ vec A S 14 = [be; be] /\ mem A S = mem A st /\ args A S = args A st /\
         gpr A S R13 = (24 * Z.of_nat n)%Z /\ gpr A S DI = a) end.
    { repeat split; try assumption.
      - change (Z.shiftl (gpr A s R12) 3 = 8 * Z.of_nat n)%Z. rewrite V5, Z.shiftl_mul_pow2 by lia. lia.
      - change (Z.shiftl (gpr A s R12) 3 + Z.shiftl (gpr A s R12) 3 * 2 + 0 = 24 * Z.of_nat n)%Z. rewrite V5, Z.shiftl_mul_pow2 by lia. lia. }
    clear V1 V2 V3 V4 V5 V6 V7 V8 V9 V10. match type of W with gpr A ?S _ = _ /\ _ => generalize dependent S end. clear s.
    intros s (V1 & V2 & V3 & V4 & V5 & V6 & V7 & V8 & V9 & V10 & V11 & V12). do 2 nx.
    match goal with |- exists s1, reach A _ _ _ _ _ _ ?S _ s1 /\ _ =>
      assert (W : gpr A S AX = a /\ gpr A S SI = x /\ gpr A S DX = y /\ gpr A S R10 = 1%Z /\ gpr A S R12 = (8 * Z.of_nat n)%Z /\ gpr A S CX = Z.of_nat m /\ vec A S 15 = [al; al] /\ vec A S 14 = [be; be] /\ mem A S = mem A st /\ args A S = args A st /\
         gpr A S R13 = (24 * Z.of_nat n)%Z /\ gpr A S DI = a /\ gpr A S R15 = 0%Z) end.
    { repeat split; try assumption. exact (Z.lxor_nilpotent (gpr A s R15)). }
    clear V1 V2 V3 V4 V5 V6 V7 V8 V9 V10 V11 V12. match type of W with gpr A ?S _ = _ /\ _ => generalize dependent S end. clear s.
    intros s (V1 & V2 & V3 & V4 & V5 & V6 & V7 & V8 & V9 & V10 & V11 & V12 & V13). do 2 nx.
    match goal with |- exists s1, reach A _ _ _ _ _ _ ?S _ s1 /\ _ =>
      assert (W : gpr A S AX = a /\ gpr A S SI = x /\ gpr A S DX = y /\ gpr A S R10 = 1%Z /\ gpr A S R12 = (8 * Z.of_nat n)%Z /\ gpr A S CX = Z.of_nat m /\ vec A S 15 = [al; al] /\ vec A S 14 = [be; be] /\ mem A S = mem A st /\ args A S = args A st /\
         gpr A S R13 = (24 * Z.of_nat n)%Z /\ gpr A S DI = a /\ gpr A S R15 = 0%Z) by (repeat split; assumption) end.
    clear V1 V2 V3 V4 V5 V6 V7 V8 V9 V10 V11 V12 V13. match type of W with gpr A ?S _ = _ /\ _ => generalize dependent S end. clear s.
    intros s (V1 & V2 & V3 & V4 & V5 & V6 & V7 & V8 & V9 & V10 & V11 & V12 & V13). nx.
    eapply ex_step; [look A (R R10) (gpr A s R10); rewrite V4; reflexivity|]. nx.
    match goal with |- exists s1, reach A _ _ _ _ _ _ ?S _ s1 /\ _ =>
      assert (W : gpr A S AX = a /\ gpr A S SI = x /\ gpr A S DX = y /\ gpr A S R10 = 1%Z /\ gpr A S R12 = (8 * Z.of_nat n)%Z /\ gpr A S CX = Z.of_nat m /\ vec A S 15 = [al; al] /\ vec A S 14 = [be; be] /\ mem A S = mem A st /\ args A S = args A st /\
         gpr A S R13 = (24 * Z.of_nat n)%Z /\ gpr A S DI = a /\ gpr A S R15 = 0%Z) by (repeat split; assumption) end.
    clear V1 V2 V3 V4 V5 V6 V7 V8 V9 V10 V11 V12 V13. match type of W with gpr A ?S _ = _ /\ _ => generalize dependent S end. clear s.
    intros s (V1 & V2 & V3 & V4 & V5 & V6 & V7 & V8 & V9 & V10 & V11 & V12 & V13). do 5 nx.
    eapply ex_step. { cbn [GemModel.step]. match goal with |- context [equal ?u ?v] => change (equal u v) with (equal (zero A) (nth 0 (vec A s 14) (zero A))) end. rewrite V8. cbn [nth]. rewrite Hb. reflexivity. }
    nx. eexists. split; [apply reach_next, reach_refl|].
    assert (Y : (gpr A s DX + gpr A s R15 * 8 + 0 = y)%Z) by (rewrite V13, V3; lia).
    repeat match goal with |- _ /\ _ => split end; try assumption.
    - change (Z.shiftl (gpr A s R10) 3 = 8)%Z. rewrite V4. reflexivity.
    - change (args A s "x_base" = x). rewrite V10. exact Hx.
    - change (args A s "m" = Z.of_nat m). rewrite V10. exact Hm.
    - change (args A s "n" = Z.of_nat n). rewrite V10. exact Hn.
    - change (args A s "incX" = 1%Z). rewrite V10. exact HiX.
    - change (args A s "incY" = 1%Z). rewrite V10. exact HiY. }
  destruct E as (s1 & R1 & GA & GDI & GSI & GDX & G10 & G12 & G13 & GC & V15 & V14 & Bx & By & Bm & Bn & BiX & BiY & Me).
  destruct (clear_ok A equal farg m n y la lx (mem A st) ltac:(lia) La Lx s1) as (s2 & R2 & G2 & W14 & W15 & Ar2 & D2 & C2 & M2); try assumption.
  { rewrite Me. split; [reflexivity|]. split; [lia|]. intros k Hk. destruct (nth_error ly k) as [w|] eqn:Ek; [|apply nth_error_None in Ek; lia]. rewrite (Sy k w Ek). discriminate. }
  destruct (rows_ok A equal farg m n a x y la lx (mem A st) ltac:(lia) La Lx Sa Sx Da Dx s2) as (s3 & M3 & R3).
  - unfold regs. rewrite (G2 AX), (G2 DI), (G2 SI), (G2 R10), (G2 R12), (G2 R13), W14, W15, Ar2 by (cbn; tauto). rewrite GA.
    repeat match goal with |- _ /\ _ => split end; try assumption; try lia; apply M2.
  - exact C2.
  - rewrite Ar2. exact BiX.
  - exists s3. split; [|split].
    + eapply reach_return. eapply reach_trans; [exact R1|]. eapply reach_trans; [exact R2|exact R3].
    + intros i Hi _. destruct M3 as (_ & D & _). exact (D i Hi).
    + destruct M3 as (F3 & _). exact F3.
Qed.
