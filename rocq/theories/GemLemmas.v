(** * Lemmas about the machine of the matrix products *)
From Coq Require Import ZArith String Bool List Lia.
From Verif Require Import AsmModel AsmLemmas.
From Verif Require Import GemModel.
Import ListNotations.

Section Machine.
Variable A : lanes.
Variable esize : Z.
Variable half : nat.
Variable equal : lane A -> lane A -> bool.
Variable farg : string -> lane A.
Notation L := (lane A).
Notation state := (state A).
Notation step := (step A esize half equal farg).
Notation block := (block A esize half equal farg).
Notation run := (run A esize half equal farg).

Definition reach (whole c : code) (st : state) (c' : code) (st' : state) : Prop :=
  exists n, forall fuel, run (n + fuel) whole c st = run fuel whole c' st'.
Lemma reach_refl whole c st : reach whole c st c st.
Proof. exists 0. reflexivity. Qed.
Lemma reach_trans whole c1 s1 c2 s2 c3 s3 : reach whole c1 s1 c2 s2 -> reach whole c2 s2 c3 s3 -> reach whole c1 s1 c3 s3.
Proof. intros [n H] [k K]. exists (n + k). intros fuel. rewrite <- Nat.add_assoc, H. apply K. Qed.
Lemma reach_step whole l i is c st st' c2 s2 : step i st = Some (st', Seq) -> reach whole ((""%string, is) :: c) st' c2 s2 -> reach whole ((l, i :: is) :: c) st c2 s2.
Proof.
  intros H. apply reach_trans. exists 0. intros [|fuel]; [reflexivity|]. cbn [Nat.add GemModel.run GemModel.block]. now rewrite H.
Qed.
Lemma reach_block whole l a is c st st' c2 s2 : block a st = Some (st', Seq) -> reach whole ((""%string, is) :: c) st' c2 s2 -> reach whole ((l, a ++ is) :: c) st c2 s2.
Proof.
  intros H. apply reach_trans. exists 0. intros [|fuel]; [reflexivity|]. cbn [Nat.add GemModel.run].
  replace (block (a ++ is) st) with (block is st'); [reflexivity|]. revert st H. induction a as [|i a IH]; intros st H; cbn [GemModel.block app] in *.
  - now injection H as ->.
  - destruct (step i st) as [[s [| |]]|]; try discriminate. now apply IH.
Qed.
Lemma reach_next whole l c st c2 s2 : reach whole c st c2 s2 -> reach whole ((l, []) :: c) st c2 s2.
Proof. intros [n H]. exists (S n). intros fuel. cbn [Nat.add GemModel.run GemModel.block]. apply H. Qed.
Lemma reach_goto whole l i is c st st' k c' c2 s2 : step i st = Some (st', Goto k) -> from_label whole k = Some c' -> reach whole c' st' c2 s2 -> reach whole ((l, i :: is) :: c) st c2 s2.
Proof. intros H K [n R]. exists (S n). intros fuel. cbn [Nat.add GemModel.run GemModel.block]. rewrite H, K. apply R. Qed.
Lemma reach_return whole l c st st0 : reach whole whole st0 ((l, [Ret]) :: c) st -> returns A esize half equal farg whole st0 st.
Proof. intros [n H]. exists (n + 1). rewrite H. reflexivity. Qed.
Lemma block_cons i is st st' r : step i st = Some (st', Seq) -> block is st' = r -> block (i :: is) st = r.
Proof. intros H <-. cbn [GemModel.block]. now rewrite H. Qed.
Lemma block_snoc a i st s1 s2 : block a st = Some (s1, Seq) -> step i s1 = Some (s2, Seq) -> block (a ++ [i]) st = Some (s2, Seq).
Proof.
  intros H K. revert st H. induction a as [|j a IH]; intros st H; cbn [GemModel.block app] in *.
  - injection H as ->. now rewrite K.
  - destruct (step j st) as [[s [| |]]|]; try discriminate. now apply IH.
Qed.

(** A loop that LOOP ends; n rounds remain *)
Lemma loop (whole : code) l l' body post rest (I : nat -> state -> Prop) :
  from_label whole l = Some ((l, body ++ Loop l :: post) :: rest) ->
  (forall n st, I (S n) st -> exists st', block body st = Some (st', Seq) /\ gpr A st' CX = Z.of_nat (S n) /\ I n (set_gpr A st' CX (Z.of_nat n))) ->
  forall n st, I (S n) st -> exists st', I 0 st' /\ reach whole ((l', body ++ Loop l :: post) :: rest) st ((""%string, post) :: rest) st'.
Proof.
  intros Fl H n. revert l'. induction n as [|n IH]; intros l' st Hs; destruct (H _ st Hs) as (st1 & B1 & G1 & I1).
  - exists (set_gpr A st1 CX 0). split; [exact I1|]. eapply reach_block; [exact B1|]. eapply reach_step; [|apply reach_refl].
    cbn [GemModel.step]. rewrite G1. reflexivity.
  - destruct (IH l (set_gpr A st1 CX (Z.of_nat (S n))) I1) as (st' & I' & R'). exists st'. split; [exact I'|].
    eapply reach_block; [exact B1|]. eapply reach_goto; [|exact Fl|exact R'].
    cbn [GemModel.step]. rewrite G1. replace (Z.of_nat (S (S n)) - 1)%Z with (Z.of_nat (S n)) by lia.
    replace (Z.of_nat (S n) =? 0)%Z with false by (symmetry; apply Z.eqb_neq; lia). reflexivity.
Qed.
(** The same with DECQ and JNZ *)
Lemma loop_dec (whole : code) r l l' body post rest (I : nat -> state -> Prop) :
  from_label whole l = Some ((l, body ++ DecQ (R r) :: Jne l :: post) :: rest) ->
  (forall n st z, I n st -> I n (set_zf A st z)) ->
  (forall n st, I (S n) st -> exists st', block body st = Some (st', Seq) /\ gpr A st' r = Z.of_nat (S n) /\ I n (set_gpr A st' r (Z.of_nat n))) ->
  forall n st, I (S n) st -> exists st', I 0 st' /\ reach whole ((l', body ++ DecQ (R r) :: Jne l :: post) :: rest) st ((""%string, post) :: rest) st'.
Proof.
  intros Fl Hz H n. revert l'. induction n as [|n IH]; intros l' st Hs; destruct (H _ st Hs) as (st1 & B1 & G1 & I1).
  - eexists. split; [apply (Hz 0 _ true I1)|]. eapply reach_block; [exact B1|]. eapply reach_step.
    { cbn [GemModel.step]. unfold arith. cbn [get put]. rewrite G1. reflexivity. }
    eapply reach_step; [|apply reach_refl]. reflexivity.
  - destruct (IH l (set_zf A (set_gpr A st1 r (Z.of_nat (S n))) false) (Hz _ _ false I1)) as (st' & I' & R'). exists st'. split; [exact I'|].
    eapply reach_block; [exact B1|]. eapply reach_step.
    { cbn [GemModel.step]. unfold arith. cbn [get put]. rewrite G1. replace (Z.of_nat (S (S n)) - 1)%Z with (Z.of_nat (S n)) by lia.
      replace (Z.of_nat (S n) =? 0)%Z with false by (symmetry; apply Z.eqb_neq; lia). reflexivity. }
    eapply reach_goto; [|exact Fl|exact R']. reflexivity.
Qed.
End Machine.
