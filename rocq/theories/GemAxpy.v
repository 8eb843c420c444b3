(** * Proofs: AxpyUnitary and AxpyUnitaryTo *)
From Coq Require Import ZArith String Bool List Lia.
From Verif Require Import AsmModel AsmLemmas AsmSpec.
From Verif Require Import GemModel GemCode GemLemmas GemSpec.
Import ListNotations.
Open Scope string_scope.
Open Scope list_scope.
Open Scope nat_scope.

(** ** The shapes *)
Section Shapes.
Variable esize : Z.
Variable yr : ireg.
Definition ix (b : ireg) (d : Z) : addr := At b (Some (AX, esize)) d.
Definition pk1 : list instr := [Load (ix SI 0) 2; Bin Mul (V 0) 2; Bin Add (M (ix yr 0)) 2; Store 2 (ix DI 0)].
Definition pk4 : list instr :=
  [Load (ix SI 0) 2; Load (ix SI 16) 3; Load (ix SI 32) 4; Load (ix SI 48) 5;
   Bin Mul (V 0) 2; Bin Mul (V 1) 3; Bin Mul (V 0) 4; Bin Mul (V 1) 5;
   Bin Add (M (ix yr 0)) 2; Bin Add (M (ix yr 16)) 3; Bin Add (M (ix yr 32)) 4; Bin Add (M (ix yr 48)) 5;
   Store 2 (ix DI 0); Store 3 (ix DI 16); Store 4 (ix DI 32); Store 5 (ix DI 48)].
Definition sc (at_ : ireg -> addr) (r : nat) : list instr := [LoadS (at_ SI) r; BinS Mul (V 0) r; BinS Add (M (at_ yr)) r; StoreS r (at_ DI)].
End Shapes.

Section Axpy.
Variable A : lanes.
Variable esize : Z.
Variable half : nat.
Variable equal : lane A -> lane A -> bool.
Variable farg : string -> lane A.
Notation L := (lane A).
Notation read := (read A esize).
Notation write := (write A esize).
Notation block := (block A esize half equal farg).
Notation step := (step A esize half equal farg).
Hypothesis esize_pos : (0 < esize)%Z.
Hypothesis half_two : 2 <= half.
Hypothesis width : (esize * Z.of_nat half = 16)%Z.
Variable yr : ireg.
Hypothesis yr_AX : ireg_eqb yr AX = false.
Variable alpha : L.
Variables (x y dst : Z) (N : nat) (xs ys : list L) (m0 : Z -> option L).
Hypothesis R1 : read m0 x N = Some xs.
Hypothesis R2 : read m0 y N = Some ys.
Hypothesis Cd : cells A esize m0 dst N.
Hypothesis O1 : forall i j, i < N -> j < N -> (x + esize * Z.of_nat i = dst + esize * Z.of_nat j)%Z -> i = j.
Hypothesis O2 : forall i j, i < N -> j < N -> (y + esize * Z.of_nat i = dst + esize * Z.of_nat j)%Z -> i = j.
Definition prod_ : list L := map2 A (bin A Mul) xs (repeat alpha N).
Definition out : list L := map2 A (bin A Add) prod_ ys.
Lemma xs_length : length xs = N. Proof. exact (read_length _ _ _ _ _ _ R1). Qed.
Lemma ys_length : length ys = N. Proof. exact (read_length _ _ _ _ _ _ R2). Qed.
Lemma prod_length : length prod_ = N.
Proof. unfold prod_. rewrite map2_length; rewrite ?repeat_length; apply xs_length. Qed.
Lemma out_length : length out = N.
Proof. unfold out. rewrite map2_length; rewrite prod_length; [reflexivity | now rewrite ys_length]. Qed.

Definition inv (i : nat) (st : state A) : Prop :=
  i <= N /\ gpr A st AX = Z.of_nat i /\ gpr A st SI = x /\ gpr A st yr = y /\ gpr A st DI = dst /\
  vec A st 0 = repeat alpha half /\ write m0 dst (firstn i out) = Some (mem A st).
Definition kept (st st' : state A) : Prop := gpr A st' = gpr A st /\ vec A st' 0 = vec A st 0 /\ args A st' = args A st.

Lemma inv_read_x i k st : inv i st -> k <= N - i -> read (mem A st) (x + esize * Z.of_nat i) k = Some (firstn k (skipn i xs)).
Proof.
  intros (Q & _ & _ & _ & _ & _ & W) K. rewrite (read_ext A esize m0).
  - apply (read_sub A esize m0 x N xs i k R1). lia.
  - intros j Hj. apply (write_frame A esize _ _ _ _ _ W). intros j' Hj' E. rewrite firstn_length, out_length in Hj'.
    enough (i + j = j') by lia. apply O1; lia.
Qed.
Lemma inv_read_y i k st : inv i st -> k <= N - i -> read (mem A st) (y + esize * Z.of_nat i) k = Some (firstn k (skipn i ys)).
Proof.
  intros (Q & _ & _ & _ & _ & _ & W) K. rewrite (read_ext A esize m0).
  - apply (read_sub A esize m0 y N ys i k R2). lia.
  - intros j Hj. apply (write_frame A esize _ _ _ _ _ W). intros j' Hj' E. rewrite firstn_length, out_length in Hj'.
    enough (i + j = j') by lia. apply O2; lia.
Qed.
Lemma write_more i k m : write m0 dst (firstn i out) = Some m -> i + k <= N ->
  exists m', write m (dst + esize * Z.of_nat i) (firstn k (skipn i out)) = Some m' /\ write m0 dst (firstn (i + k) out) = Some m'.
Proof.
  intros W Q. destruct (write_some A esize m (dst + esize * Z.of_nat i) (firstn k (skipn i out))) as [m' W'].
  - apply (cells_sub A esize _ dst N).
    + apply (write_cells A esize _ _ _ _ _ _ W). exact Cd.
    + rewrite firstn_length, skipn_length, out_length. lia.
  - exists m'. split; [exact W'|]. rewrite firstn_add. rewrite (write_app A esize _ _ _ _ _ W), firstn_length, out_length.
    replace (Nat.min i N) with i by lia. exact W'.
Qed.
Lemma skipn_repeat {T} (a : T) n k : skipn k (repeat a n) = repeat a (n - k).
Proof. revert k. induction n; intros [|k]; cbn; auto. Qed.
Lemma firstn_repeat {T} (a : T) n k : firstn k (repeat a n) = repeat a (Nat.min k n).
Proof. revert k. induction n; intros [|k]; cbn; auto. now rewrite IHn. Qed.
Lemma out_chunk i k : i + k <= N -> map2 A (bin A Add) (map2 A (bin A Mul) (firstn k (skipn i xs)) (repeat alpha k)) (firstn k (skipn i ys)) = firstn k (skipn i out).
Proof.
  intros Q. unfold out. rewrite <- map2_skipn by (now rewrite prod_length, ys_length). rewrite <- map2_firstn. f_equal.
  unfold prod_. rewrite <- map2_skipn by (now rewrite repeat_length, xs_length). rewrite <- map2_firstn. f_equal.
  rewrite skipn_repeat, firstn_repeat. f_equal. lia.
Qed.

Ltac go := cbn [GemModel.step]; unfold value, address; cbn [base index disp gpr vec mem args set_vec set_mem Nat.eqb ix].
Lemma pk1_ok i st : inv i st -> i + half <= N -> ((y + esize * Z.of_nat i) mod 16 = 0)%Z ->
  exists st', block (pk1 esize yr) st = Some (st', Seq) /\ kept st st' /\ vec A st' 1 = vec A st 1 /\ write m0 dst (firstn (i + half) out) = Some (mem A st').
Proof.
  intros H Q Al. pose proof H as (_ & GA & GS & GY & GD & V0 & W).
  destruct (write_more i half _ W Q) as (m1 & W1 & E1).
  pose proof (inv_read_x i half st H ltac:(lia)) as X1. pose proof (inv_read_y i half st H ltac:(lia)) as Y1.
  eexists. split.
  - unfold pk1.
    eapply block_cons. { go. rewrite GS, GA, Z.add_0_r, (Z.mul_comm (Z.of_nat i)), X1. reflexivity. }
    eapply block_cons. { go. reflexivity. }
    eapply block_cons. { go. rewrite GY, GA, Z.add_0_r, (Z.mul_comm (Z.of_nat i)), Al. replace (Nat.ltb 1 half) with true by (symmetry; apply Nat.ltb_lt; lia). cbn [andb negb Z.eqb]. rewrite Y1. reflexivity. }
    eapply block_cons. { go. rewrite GD, GA, Z.add_0_r, (Z.mul_comm (Z.of_nat i)), V0, firstn_repeat, Nat.min_id, (out_chunk i half Q), W1. reflexivity. }
    reflexivity.
  - split; [repeat split|]. split; [reflexivity|]. exact E1.
Qed.
Lemma pk4_ok i st : inv i st -> vec A st 1 = repeat alpha half -> i + half * 4 <= N -> ((y + esize * Z.of_nat i) mod 16 = 0)%Z ->
  exists st', block (pk4 esize yr) st = Some (st', Seq) /\ kept st st' /\ vec A st' 1 = vec A st 1 /\ write m0 dst (firstn (i + half * 4) out) = Some (mem A st').
Proof.
  intros H V1 Q Al. pose proof H as (_ & GA & GS & GY & GD & V0 & W).
  destruct (write_more i half _ W ltac:(lia)) as (m1 & W1 & E1).
  destruct (write_more (i + half) half _ E1 ltac:(lia)) as (m2 & W2 & E2).
  destruct (write_more (i + half + half) half _ E2 ltac:(lia)) as (m3 & W3 & E3).
  destruct (write_more (i + half + half + half) half _ E3 ltac:(lia)) as (m4 & W4 & E4).
  assert (X : forall j d, i + half * j + half <= N -> d = (16 * Z.of_nat j)%Z -> read (mem A st) (x + Z.of_nat i * esize + d) half = Some (firstn half (skipn (i + half * j) xs))).
  { intros j d Hj ->. pose proof (read_ext A esize m0 (mem A st) (x + esize * Z.of_nat (i + half * j)) half) as P.
    replace (x + Z.of_nat i * esize + 16 * Z.of_nat j)%Z with (x + esize * Z.of_nat (i + half * j))%Z by nia.
    rewrite P. - apply (read_sub A esize m0 x N xs _ half R1). lia.
    - intros j0 Hj0. apply (write_frame A esize _ _ _ _ _ W). intros j' Hj' E. rewrite firstn_length, out_length in Hj'.
      enough (i + half * j + j0 = j') by lia. apply O1; lia. }
  assert (Y : forall j d, i + half * j + half <= N -> d = (16 * Z.of_nat j)%Z -> value A esize st (M (ix esize yr d)) half = Some (firstn half (skipn (i + half * j) ys))).
  { intros j d Hj ->. go. rewrite GY, GA. pose proof (read_ext A esize m0 (mem A st) (y + esize * Z.of_nat (i + half * j)) half) as P.
    replace (y + Z.of_nat i * esize + 16 * Z.of_nat j)%Z with (y + esize * Z.of_nat i + Z.of_nat j * 16)%Z by lia.
    rewrite Z.mod_add, Al by lia. cbn [Z.eqb negb]. rewrite andb_false_r.
    replace (y + esize * Z.of_nat i + Z.of_nat j * 16)%Z with (y + esize * Z.of_nat (i + half * j))%Z by nia.
    rewrite P. - apply (read_sub A esize m0 y N ys _ half R2). lia.
    - intros j0 Hj0. apply (write_frame A esize _ _ _ _ _ W). intros j' Hj' E. rewrite firstn_length, out_length in Hj'.
      enough (i + half * j + j0 = j') by lia. apply O2; lia. }
  assert (VX : forall st' d, gpr A st' = gpr A st -> mem A st' = mem A st -> value A esize st' (M (ix esize yr d)) half = value A esize st (M (ix esize yr d)) half).
  { intros st' d Hg Hm. go. now rewrite Hg, Hm. }
  assert (D : forall d j, d = (16 * Z.of_nat j)%Z -> (dst + Z.of_nat i * esize + d)%Z = (dst + esize * Z.of_nat (i + half * j))%Z) by (intros d j ->; nia).
  eexists. split.
  - unfold pk4.
    eapply block_cons. { go. rewrite GS, GA, (X 0%nat) by lia. reflexivity. }
    eapply block_cons. { go. rewrite GS, GA, (X 1%nat) by lia. reflexivity. }
    eapply block_cons. { go. rewrite GS, GA, (X 2%nat) by lia. reflexivity. }
    eapply block_cons. { go. rewrite GS, GA, (X 3%nat) by lia. reflexivity. }
    do 4 (eapply block_cons; [go; rewrite ?V0, ?V1, firstn_repeat, Nat.min_id; reflexivity|]).
    eapply block_cons. { cbn [GemModel.step]. rewrite VX, (Y 0%nat) by (reflexivity || lia). reflexivity. }
    eapply block_cons. { cbn [GemModel.step]. rewrite VX, (Y 1%nat) by (reflexivity || lia). reflexivity. }
    eapply block_cons. { cbn [GemModel.step]. rewrite VX, (Y 2%nat) by (reflexivity || lia). reflexivity. }
    eapply block_cons. { cbn [GemModel.step]. rewrite VX, (Y 3%nat) by (reflexivity || lia). reflexivity. }
    eapply block_cons. { go. rewrite GD, GA, (D 0%Z 0%nat), out_chunk by lia. replace (i + half * 0) with i by lia. rewrite W1. reflexivity. }
    eapply block_cons. { go. rewrite GD, GA, (D 16%Z 1%nat), out_chunk by lia. replace (i + half * 1) with (i + half) by lia. rewrite W2. reflexivity. }
    eapply block_cons. { go. rewrite GD, GA, (D 32%Z 2%nat), out_chunk by lia. replace (i + half * 2) with (i + half + half) by lia. rewrite W3. reflexivity. }
    eapply block_cons. { go. rewrite GD, GA, (D 48%Z 3%nat), out_chunk by lia. replace (i + half * 3) with (i + half + half + half) by lia. rewrite W4. reflexivity. }
    reflexivity.
  - split; [repeat split|]. split; [reflexivity|]. replace (i + half * 4) with (i + half + half + half + half) by lia. exact E4.
Qed.
(** one element; it may overwrite register 1 *)
Lemma sc_ok at_ r i st : r = 1 \/ r = 2 -> (forall b, address A st (at_ b) = (gpr A st b + esize * Z.of_nat i)%Z) -> (forall b st', gpr A st' = gpr A st -> address A st' (at_ b) = address A st (at_ b)) ->
  inv i st -> i < N ->
  exists st', block (sc yr at_ r) st = Some (st', Seq) /\ kept st st' /\ (r = 2 -> vec A st' 1 = vec A st 1) /\ write m0 dst (firstn (i + 1) out) = Some (mem A st').
Proof.
  intros Hr At1 At2 H Q. pose proof H as (_ & GA & GS & GY & GD & V0 & W).
  destruct (write_more i 1 _ W ltac:(lia)) as (m1 & W1 & E1).
  pose proof (inv_read_x i 1 st H ltac:(lia)) as X1. pose proof (inv_read_y i 1 st H ltac:(lia)) as Y1.
  pose proof (out_chunk i 1 ltac:(lia)) as OC.
  destruct (firstn 1 (skipn i xs)) as [|a [|? ?]] eqn:Ea; [apply read_length in X1; discriminate| |apply read_length in X1; discriminate].
  destruct (firstn 1 (skipn i ys)) as [|b [|? ?]] eqn:Eb; [apply read_length in Y1; discriminate| |apply read_length in Y1; discriminate].
  cbn [AsmModel.read] in X1, Y1. destruct (mem A st (x + esize * Z.of_nat i)) as [a'|] eqn:Ma; [|discriminate]. injection X1 as ->.
  cbn [map2 repeat] in OC.
  assert (V0' : firstn 1 (vec A st 0) = [alpha]) by (rewrite V0; destruct half; [lia|reflexivity]).
  assert (K : forall r0, r0 = r -> r0 <> 0 /\ (r = 2 -> r0 <> 1)) by (destruct Hr; intros; lia).
  destruct (K r eq_refl) as (K0 & K1).
  eexists. split.
  - unfold sc.
    eapply block_cons. { cbn [GemModel.step]. rewrite At1, GS, Ma. reflexivity. }
    eapply block_cons. { cbn [GemModel.step value vec set_vec]. rewrite Nat.eqb_refl. destruct (Nat.eqb_spec 0 r); [lia|]. rewrite V0'. cbn [map2 app skipn]. reflexivity. }
    eapply block_cons. { cbn [GemModel.step value vec set_vec mem]. rewrite Nat.eqb_refl, At2 by reflexivity. rewrite At1, GY. cbn [Nat.ltb Nat.leb andb AsmModel.read].
      rewrite Y1. cbn [map2 app skipn]. reflexivity. }
    eapply block_cons. { cbn [GemModel.step value vec set_vec mem]. rewrite Nat.eqb_refl, At2 by reflexivity. rewrite At1, GD. cbn [firstn app]. rewrite OC, W1. reflexivity. }
    reflexivity.
  - split; [|split; [|exact E1]].
    + repeat split. cbn [vec set_vec set_mem]. destruct (Nat.eqb_spec 0 r); [lia|reflexivity].
    + intros ->. reflexivity.
Qed.
End Axpy.
