(** * Proofs: the element-wise kernels of two operands *)
From Coq Require Import ZArith String Bool List Lia.
From Verif Require Import AsmModel AsmCode AsmLemmas.
Import ListNotations.
Open Scope string_scope.
Open Scope list_scope.

(** ** The shape of the kernels *)
Section Shape.
Variable esize : Z.
Variable half : nat.
Notation w_of := (lanes_of half).
Definition stride (s : size) : Z := (esize * Z.of_nat (w_of s))%Z.
Definition advance3 (bytes : Z) : list instr := [AddQ bytes AX; AddQ bytes CX; AddQ bytes DX].
Definition body2 (op : bop) (s : size) (vex : bool) (n : nat) : list instr :=
  unroll n (fun j => Load s vex AX (stride s * Z.of_nat j) j) ++
  unroll n (fun j => Bin op s vex (Mem CX (stride s * Z.of_nat j)) j j) ++
  unroll n (fun j => Store s j DX (stride s * Z.of_nat j)) ++
  advance3 (stride s * Z.of_nat n) ++ [SubQ (Z.of_nat (w_of s * n)) BX].
Definition one2 (op : bop) (vex : bool) : list instr :=
  [LoadS vex AX 0 0; BinS op vex (Mem CX 0) 0 0; StoreS 0 DX 0] ++ advance3 esize ++ [DecQ BX].
Definition args2 : list instr := [Arg "x1_base" AX; Arg "x2_base" CX; Arg "y_base" DX; Arg "x1_len" BX].
Definition loops2 (op : bop) (s : size) (vex tvex : bool) : code := [
  ("unrolledLoop", [CmpQ BX (Z.of_nat (w_of s * 16)); Jl "singleRegisterLoop"] ++ body2 op s vex 16 ++ [Jmp "unrolledLoop"]);
  ("singleRegisterLoop", [CmpQ BX (Z.of_nat (w_of s)); Jl "tailLoop"] ++ body2 op s vex 1 ++ [Jmp "singleRegisterLoop"]);
  ("tailLoop", [CmpQ BX 0; Je "end"] ++ one2 op tvex ++ [Jmp "tailLoop"]);
  ("end", [Ret])].
Definition avx2 (op : bop) (tvex : bool) : code := ("entry", args2) :: loops2 op Y true tvex.
Definition sse2_32 (op : bop) : code :=
  ("entry", args2 ++ [CmpQ BX 0; Je "end"; MovQ CX SI; AndQ 15 SI; Je "unrolledLoop"; XorQ 15 SI; IncQ SI; ShrQ 2 SI]) ::
  ("alignmentLoop", one2 op false ++ [Je "end"; DecQ SI; Jne "alignmentLoop"]) :: loops2 op X false false.
Definition sse2_64 (op : bop) : code :=
  ("entry", args2 ++ [CmpQ BX 0; Je "end"; MovQ CX SI; AndQ 15 SI; Je "unrolledLoop"] ++ one2 op false) :: loops2 op X false false.
End Shape.
(** the code of the repository has these shapes *)
Lemma add_avx32_shape : add_avx32 = avx2 4 4 Add true. Proof. reflexivity. Qed.
Lemma add_avx64_shape : add_avx64 = avx2 8 2 Add true. Proof. reflexivity. Qed.
Lemma sub_avx32_shape : sub_avx32 = avx2 4 4 Sub false. Proof. reflexivity. Qed.
Lemma sub_avx64_shape : sub_avx64 = avx2 8 2 Sub false. Proof. reflexivity. Qed.
Lemma div_avx32_shape : div_avx32 = avx2 4 4 Div false. Proof. reflexivity. Qed.
Lemma div_avx64_shape : div_avx64 = avx2 8 2 Div false. Proof. reflexivity. Qed.
Lemma add_sse32_shape : add_sse32 = sse2_32 4 4 Add. Proof. reflexivity. Qed.
Lemma sub_sse32_shape : sub_sse32 = sse2_32 4 4 Sub. Proof. reflexivity. Qed.
Lemma div_sse32_shape : div_sse32 = sse2_32 4 4 Div. Proof. reflexivity. Qed.
Lemma add_sse64_shape : add_sse64 = sse2_64 8 2 Add. Proof. reflexivity. Qed.
Lemma sub_sse64_shape : sub_sse64 = sse2_64 8 2 Sub. Proof. reflexivity. Qed.
Lemma div_sse64_shape : div_sse64 = sse2_64 8 2 Div. Proof. reflexivity. Qed.

Section Two.
Variable A : lanes.
Variable esize : Z.
Variable half : nat.
Variable F : frame A.
Notation L := (lane A).
Notation read := (read A esize).
Notation write := (write A esize).
Notation block := (block A esize half F).
Notation step := (step A esize half F).
Notation w_of := (lanes_of half).
Hypothesis esize_pos : (0 < esize)%Z.
Hypothesis half_pos : 0 < half.
Hypothesis width : (esize * Z.of_nat half = 16)%Z.

Variable op : bop.
Variables (x1 x2 y : Z) (N : nat) (xs1 xs2 : list L) (m0 : Z -> option L).
Hypothesis R1 : read m0 x1 N = Some xs1.
Hypothesis R2 : read m0 x2 N = Some xs2.
Hypothesis Cy : cells A esize m0 y N.
(** y is an operand or apart from it *)
Hypothesis O1 : forall i j, i < N -> j < N -> (x1 + esize * Z.of_nat i = y + esize * Z.of_nat j)%Z -> i = j.
Hypothesis O2 : forall i j, i < N -> j < N -> (x2 + esize * Z.of_nat i = y + esize * Z.of_nat j)%Z -> i = j.
Definition out2 : list L := map2 A (bin A op) xs1 xs2.
Lemma xs1_length : length xs1 = N. Proof. exact (read_length _ _ _ _ _ _ R1). Qed.
Lemma xs2_length : length xs2 = N. Proof. exact (read_length _ _ _ _ _ _ R2). Qed.
Lemma out2_length : length out2 = N.
Proof. unfold out2. rewrite map2_length; [apply xs1_length | rewrite xs1_length, xs2_length; reflexivity]. Qed.

(** n elements remain *)
Definition inv2 (al : bool) (n : nat) (st : state A) : Prop :=
  n <= N /\ gpr A st AX = (x1 + esize * Z.of_nat (N - n))%Z /\ gpr A st CX = (x2 + esize * Z.of_nat (N - n))%Z /\
  gpr A st DX = (y + esize * Z.of_nat (N - n))%Z /\ gpr A st BX = Z.of_nat n /\
  write m0 y (firstn (N - n) out2) = Some (mem A st) /\ (al = true -> (gpr A st CX mod 16 = 0)%Z).
Lemma inv2_same al n st st' : inv2 al n st -> same A st st' -> inv2 al n st'.
Proof. intros H (G & V & M & _). unfold inv2 in *. rewrite G, M. exact H. Qed.

Lemma inv2_reads al n st : inv2 al n st ->
  read (mem A st) (gpr A st AX) n = Some (skipn (N - n) xs1) /\ read (mem A st) (gpr A st CX) n = Some (skipn (N - n) xs2) /\
  cells A esize (mem A st) (gpr A st DX) n.
Proof.
  intros (Q & G1 & G2 & G3 & G4 & W & _). rewrite G1, G2, G3.
  assert (Lf : length (firstn (N - n) out2) = N - n) by (rewrite firstn_length, out2_length; lia).
  repeat split.
  - rewrite (read_ext A esize m0).
    + rewrite (read_sub A esize m0 x1 N xs1 (N - n) n R1) by lia. f_equal. apply firstn_all2. rewrite skipn_length, xs1_length. lia.
    + intros i Hi. apply (write_frame A esize _ _ _ _ _ W). intros j Hj E. rewrite Lf in Hj.
      enough (N - n + i = j) by lia. apply O1; try lia.
  - rewrite (read_ext A esize m0).
    + rewrite (read_sub A esize m0 x2 N xs2 (N - n) n R2) by lia. f_equal. apply firstn_all2. rewrite skipn_length, xs2_length. lia.
    + intros i Hi. apply (write_frame A esize _ _ _ _ _ W). intros j Hj E. rewrite Lf in Hj.
      enough (N - n + i = j) by lia. apply O2; try lia.
  - apply (cells_sub A esize _ y N); [|lia]. apply (write_cells A esize _ _ _ _ _ _ W). exact Cy.
Qed.

(** the end of a body: k more elements are written *)
Lemma inv2_next al n k st st' m' : inv2 al n st -> k <= n ->
  write (mem A st) (gpr A st DX) (firstn k (skipn (N - n) out2)) = Some m' ->
  mem A st' = m' -> gpr A st' AX = (gpr A st AX + esize * Z.of_nat k)%Z -> gpr A st' CX = (gpr A st CX + esize * Z.of_nat k)%Z ->
  gpr A st' DX = (gpr A st DX + esize * Z.of_nat k)%Z -> gpr A st' BX = (gpr A st BX - Z.of_nat k)%Z ->
  (al = true -> (gpr A st' CX mod 16 = 0)%Z) -> inv2 al (n - k) st'.
Proof.
  intros (Q & G1 & G2 & G3 & G4 & W & _) Hk W' Hm H1 H2 H3 H4 H5. unfold inv2. rewrite Hm. rewrite H1, G1, H2, G2, H3, G3, H4, G4 in *.
  split; [lia|]. replace (N - (n - k)) with ((N - n) + k) by lia. rewrite Nat2Z.inj_add, Z.mul_add_distr_l. repeat split; try lia.
  - rewrite firstn_add, (write_app A esize _ _ _ _ _ W).
    rewrite firstn_length, out2_length. replace (Nat.min (N - n) N) with (N - n) by lia. exact W'.
  - exact H5.
Qed.

Lemma advance3_ok bytes c st : (c = DecQ BX \/ exists k, c = SubQ k BX) ->
  exists st', block (advance3 bytes ++ [c]) st = Some (st', Seq) /\ vec A st' = vec A st /\ mem A st' = mem A st /\ ret A st' = ret A st /\
    gpr A st' AX = (gpr A st AX + bytes)%Z /\ gpr A st' CX = (gpr A st CX + bytes)%Z /\ gpr A st' DX = (gpr A st DX + bytes)%Z /\
    gpr A st' SI = gpr A st SI /\ gpr A st' BX = (gpr A st BX - match c with SubQ k _ => k | _ => 1 end)%Z /\ zf A st' = (gpr A st' BX =? 0)%Z.
Proof.
  intros [-> | [k ->]]; (eexists; split; [reflexivity|]; repeat split).
Qed.
(** a body of n registers *)
Lemma body2_ok al s vex n k st : (vex = true \/ (al = true /\ s = X)) -> k = w_of s * n -> forall r, k <= r -> inv2 al r st ->
  exists st', block (body2 esize half op s vex n) st = Some (st', Seq) /\ inv2 al (r - k) st'.
Proof.
  intros Hv -> r Hr H. destruct (inv2_reads al r st H) as (A1 & A2 & A3). set (w := w_of s) in *.
  set (c1 := fun j => firstn w (skipn (w * j) (skipn (N - r) xs1))). set (c2 := fun j => firstn w (skipn (w * j) (skipn (N - r) xs2))).
  assert (E1 : forall j, j < n -> read (mem A st) (gpr A st AX + stride esize half s * Z.of_nat j) w = Some (c1 j)).
  { intros j Hj. unfold stride. fold w. replace (esize * Z.of_nat w * Z.of_nat j)%Z with (esize * Z.of_nat (w * j))%Z by lia.
    apply (read_sub A esize _ _ r); [exact A1 | nia]. }
  assert (E2 : forall j, j < n -> read (mem A st) (gpr A st CX + stride esize half s * Z.of_nat j) w = Some (c2 j)).
  { intros j Hj. unfold stride. fold w. replace (esize * Z.of_nat w * Z.of_nat j)%Z with (esize * Z.of_nat (w * j))%Z by lia.
    apply (read_sub A esize _ _ r); [exact A2 | nia]. }
  assert (Lc1 : forall j, j < n -> length (c1 j) = w) by (intros j Hj; exact (read_length _ _ _ _ _ _ (E1 j Hj))).
  assert (Lc2 : forall j, j < n -> length (c2 j) = w) by (intros j Hj; exact (read_length _ _ _ _ _ _ (E2 j Hj))).
  unfold body2. rewrite block_app.
  destruct (phase A esize half F n (fun j => Load s vex AX (stride esize half s * Z.of_nat j) j) 0 (fun j v => firstn w v = c1 j) st) as (st1 & B1 & (G1 & M1 & _ & V1) & P1).
  { intros j st' Hj (G' & M' & _ & _). cbn [AsmModel.step]. fold w. rewrite M', G', (E1 j Hj). eexists; split; [reflexivity|].
    unfold extend. apply firstn_len_app, (Lc1 j Hj). }
  rewrite B1, block_app. cbn [Nat.add] in P1.
  destruct (phase A esize half F n (fun j => Bin op s vex (Mem CX (stride esize half s * Z.of_nat j)) j j) 0 (fun j v => firstn w v = map2 A (bin A op) (c1 j) (c2 j)) st1) as (st2 & B2 & (G2 & M2 & _ & V2) & P2).
  { intros j st' Hj (G' & M' & _ & V'). cbn [AsmModel.step value]. fold w. rewrite M', M1, G', G1.
    assert (Al : negb vex && negb (((gpr A st CX + stride esize half s * Z.of_nat j) mod 16 =? 0)%Z) = false).
    { destruct Hv as [-> | [-> ->]]; [reflexivity|]. apply andb_false_iff. right. apply negb_false_iff, Z.eqb_eq.
      destruct H as (_ & _ & _ & _ & _ & _ & H). specialize (H eq_refl). unfold stride. cbn [lanes_of]. rewrite width, Z.mul_comm, Z.mod_add by lia. exact H. }
    rewrite Al, (E2 j Hj). eexists; split; [reflexivity|]. rewrite V' by lia. rewrite (P1 j Hj). unfold extend.
    apply firstn_len_app. rewrite map2_length; rewrite (Lc1 j Hj); [reflexivity | now rewrite (Lc2 j Hj)]. }
  rewrite B2, block_app. cbn [Nat.add] in P2.
  assert (Cc : concat (unroll n (fun j => map2 A (bin A op) (c1 j) (c2 j))) = firstn (w * n) (skipn (N - r) out2)).
  { rewrite <- (concat_unroll (firstn (w * n) (skipn (N - r) out2)) w n).
    - f_equal. unfold unroll. apply map_ext_in. intros j Hj. apply in_seq in Hj. unfold c1, c2. rewrite map2_firstn, map2_skipn.
      + rewrite map2_skipn by (rewrite xs1_length, xs2_length; reflexivity). fold out2.
        rewrite skipn_firstn_comm, firstn_firstn. f_equal. nia.
      + rewrite !skipn_length, xs1_length, xs2_length. reflexivity.
    - destruct H as (Hn & _). rewrite firstn_length, skipn_length, out2_length. nia. }
  assert (W : exists m', write (mem A st) (gpr A st DX) (firstn (w * n) (skipn (N - r) out2)) = Some m').
  { apply write_some. rewrite firstn_length. intros i Hi. apply A3. lia. }
  destruct W as [m' W].
  assert (B3 : block (unroll n (fun j => Store s j DX (stride esize half s * Z.of_nat j))) st2 = Some (set_mem A st2 m', Seq)).
  { apply (store_phase A esize half F n s 0 DX (fun j => map2 A (bin A op) (c1 j) (c2 j)) st2).
    - intros j Hj. cbn [Nat.add]. split; [exact (P2 j Hj)|]. rewrite map2_length; rewrite (Lc1 j Hj); [reflexivity | now rewrite (Lc2 j Hj)].
    - rewrite M2, M1, G2, G1, Cc. exact W. }
  rewrite B3. destruct (advance3_ok (stride esize half s * Z.of_nat n) (SubQ (Z.of_nat (w_of s * n)) BX) (set_mem A st2 m')) as (st3 & B4 & _ & M3 & _ & X1 & X2 & X3 & _ & X4 & _); [right; eauto|].
  rewrite B4. exists st3. split; [reflexivity|]. cbn [gpr mem set_mem] in *. rewrite G2, G1 in *. unfold stride in X1, X2, X3. fold w in X1, X2, X3, X4.
  apply (inv2_next al r (w * n) st _ m' H Hr W); [exact M3 | lia | lia | lia | exact X4 |].
  intros Ha. rewrite X2. destruct H as (_ & _ & _ & _ & _ & _ & H). specialize (H Ha).
  assert (Hs : exists q, (esize * Z.of_nat w = q * 16)%Z).
  { unfold w. destruct s; cbn [lanes_of]; [exists 1%Z; lia | exists 2%Z; lia]. }
  destruct Hs as [q ->]. replace (q * 16 * Z.of_nat n)%Z with (q * Z.of_nat n * 16)%Z by lia. rewrite Z.mod_add by lia. exact H.
Qed.

(** one element *)
Lemma one2_ok al vex r st : inv2 al (S r) st ->
  exists st', block (one2 esize op vex) st = Some (st', Seq) /\ inv2 false r st' /\ gpr A st' CX = (gpr A st CX + esize)%Z /\ gpr A st' SI = gpr A st SI /\
    zf A st' = Nat.eqb r 0.
Proof.
  intros H. destruct (inv2_reads al _ st H) as (A1 & A2 & A3).
  destruct (skipn (N - S r) xs1) as [| a l1] eqn:S1; [apply read_length in A1; discriminate|].
  destruct (skipn (N - S r) xs2) as [| b l2] eqn:S2; [apply read_length in A2; discriminate|].
  cbn [AsmModel.read] in A1, A2. destruct (mem A st (gpr A st AX)) as [a'|] eqn:M1; [|discriminate].
  destruct (read (mem A st) (gpr A st AX + esize) r); [|discriminate]. injection A1 as -> ->.
  destruct (mem A st (gpr A st CX)) as [b'|] eqn:M2; [|discriminate].
  destruct (read (mem A st) (gpr A st CX + esize) r); [|discriminate]. injection A2 as -> ->.
  pose proof (A3 0 ltac:(lia)) as M3. change (Z.of_nat 0) with 0%Z in M3. rewrite Z.mul_0_r, Z.add_0_r in M3.
  destruct (mem A st (gpr A st DX)) as [d|] eqn:M3'; [clear M3 | contradiction].
  assert (W : write (mem A st) (gpr A st DX) (firstn 1 (skipn (N - S r) out2)) = Some (fun z => if Z.eqb z (gpr A st DX) then Some (bin A op a b) else mem A st z)).
  { replace (skipn (N - S r) out2) with (map2 A (bin A op) (a :: l1) (b :: l2)) by (rewrite <- S1, <- S2; apply map2_skipn; now rewrite xs1_length, xs2_length).
    cbn. now rewrite M3'. }
  assert (BX' : (gpr A st BX - 1 =? 0)%Z = Nat.eqb r 0).
  { destruct H as (_ & _ & _ & _ & -> & _). destruct r; [reflexivity|]. cbn [Nat.eqb]. apply Z.eqb_neq. lia. }
  unfold one2. cbn [app].
  erewrite block_cons by (cbn [AsmModel.step]; rewrite Z.add_0_r, M1; reflexivity).
  erewrite block_cons by (cbn [AsmModel.step value AsmModel.read andb gpr mem set_vec]; rewrite Z.add_0_r, M2; reflexivity).
  erewrite block_cons by (cbn [AsmModel.step gpr mem vec set_vec Nat.eqb extend app map2 firstn AsmModel.write]; rewrite Z.add_0_r, M3'; reflexivity).
  match goal with |- context [set_mem A ?s ?m] => set (s1 := set_mem A s m) end.
  destruct (advance3_ok esize (DecQ BX) s1) as (st3 & B4 & _ & M4 & _ & X1 & X2 & X3 & X5 & X4 & X6); [left; reflexivity|].
  unfold s1 in X1, X2, X3, X4, X5, M4. cbn [gpr mem set_mem set_vec] in *. fold s1 in B4.
  exists st3. split; [exact B4|]. split; [|split; [exact X2 | split; [exact X5 | rewrite X6, X4; exact BX']]].
  replace r with (S r - 1) by lia. apply (inv2_next false (S r) 1 st _ _) with (3 := W); try lia; try assumption; try discriminate.
  destruct H as (H1 & H2 & H3 & H4 & H5 & H6 & _). repeat split; auto. discriminate.
Qed.
End Two.
