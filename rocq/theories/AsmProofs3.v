(** * Proofs: the kernels of a constant and a slice *)
From Coq Require Import ZArith String Bool List Lia.
From Verif Require Import AsmModel AsmCode AsmSpec AsmLemmas AsmProofs AsmProofs2.
Import ListNotations.
Open Scope string_scope.
Open Scope list_scope.

(** ** Four loops, of 14, 8, 4 and 1 registers *)
Definition loops4 (rc : greg) (w : nat) (body : nat -> list instr) (nx : string) (rest : code) : code :=
  ("unrolledLoop14", [CmpQ rc (Z.of_nat (w * 14)); Jl "unrolledLoop8"] ++ body 14 ++ [Jmp "unrolledLoop14"]) ::
  ("unrolledLoop8", [CmpQ rc (Z.of_nat (w * 8)); Jl "unrolledLoop4"] ++ body 8 ++ [Jmp "unrolledLoop8"]) ::
  ("unrolledLoop4", [CmpQ rc (Z.of_nat (w * 4)); Jl "unrolledLoop1"] ++ body 4 ++ [Jmp "unrolledLoop4"]) ::
  ("unrolledLoop1", [CmpQ rc (Z.of_nat (w * 1)); Jl nx] ++ body 1 ++ [Jmp "unrolledLoop1"]) :: rest.
Section Loops4.
Variable A : lanes.
Variable esize : Z.
Variable half : nat.
Variable F : frame A.
Lemma loops4_ok whole rc w body nx rest c' (I : nat -> state A -> Prop) : 0 < w ->
  from_label whole "unrolledLoop14" = Some (loops4 rc w body nx rest) ->
  from_label whole "unrolledLoop8" = Some (skipn 1 (loops4 rc w body nx rest)) ->
  from_label whole "unrolledLoop4" = Some (skipn 2 (loops4 rc w body nx rest)) ->
  from_label whole "unrolledLoop1" = Some (skipn 3 (loops4 rc w body nx rest)) ->
  from_label whole nx = Some c' ->
  (forall n st, I n st -> gpr A st rc = Z.of_nat n) ->
  (forall n st st', I n st -> same A st st' -> I n st') ->
  (forall k n st, k = 14 \/ k = 8 \/ k = 4 \/ k = 1 -> w * k <= n -> I n st -> exists st', block A esize half F (body k) st = Some (st', Seq) /\ I (n - w * k) st') ->
  forall n st, I n st -> exists n' st', I n' st' /\ reach A esize half F whole (loops4 rc w body nx rest) st c' st'.
Proof.
  intros W F1 F2 F3 F4 F5 Ir Is Ib n st H.
  destruct (loop A esize half F whole "unrolledLoop14" "unrolledLoop8" rc (w * 14) (body 14) _ _ I ltac:(lia) F1 F2 Ir Is (fun n st => Ib 14 n st ltac:(auto)) n st H) as (n1 & st1 & _ & H1 & R1).
  destruct (loop A esize half F whole "unrolledLoop8" "unrolledLoop4" rc (w * 8) (body 8) _ _ I ltac:(lia) F2 F3 Ir Is (fun n st => Ib 8 n st ltac:(auto)) n1 st1 H1) as (n2 & st2 & _ & H2 & R2).
  destruct (loop A esize half F whole "unrolledLoop4" "unrolledLoop1" rc (w * 4) (body 4) _ _ I ltac:(lia) F3 F4 Ir Is (fun n st => Ib 4 n st ltac:(auto)) n2 st2 H2) as (n3 & st3 & _ & H3 & R3).
  destruct (loop A esize half F whole "unrolledLoop1" nx rc (w * 1) (body 1) _ _ I ltac:(lia) F4 F5 Ir Is (fun n st => Ib 1 n st ltac:(auto)) n3 st3 H3) as (n4 & st4 & _ & H4 & R4).
  exists n4, st4. split; [exact H4|]. eapply reach_trans; [exact R1|]. eapply reach_trans; [exact R2|]. eapply reach_trans; [exact R3|]. exact R4.
Qed.
End Loops4.

(** ** The shape of the code *)
Section Shape.
Variable esize : Z.
Variable half : nat.
Notation stride s := (esize * Z.of_nat (lanes_of half s))%Z.
Definition advance2 (bytes : Z) : list instr := [AddQ bytes AX; AddQ bytes CX].
Definition bodyc_avx (op : bop) (n : nat) : list instr :=
  unroll n (fun j => Bin op Y true (Mem AX (stride Y * Z.of_nat j)) 1 (2 + j)) ++
  unroll n (fun j => Store Y (2 + j) CX (stride Y * Z.of_nat j)) ++
  advance2 (stride Y * Z.of_nat n) ++ [SubQ (Z.of_nat (lanes_of half Y * n)) DX].
Definition bodyc_sse (op : bop) (n : nat) : list instr :=
  unroll n (fun j => Load X false AX (stride X * Z.of_nat j) (1 + j)) ++
  unroll n (fun j => Bin op X false (Reg 0) (1 + j) (1 + j)) ++
  unroll n (fun j => Store X (1 + j) CX (stride X * Z.of_nat j)) ++
  advance2 (stride X * Z.of_nat n) ++ [SubQ (Z.of_nat (lanes_of half X * n)) DX].
Definition onec (op : bop) : list instr :=
  [LoadS false AX 0 1; BinS op false (Reg 0) 1 1; StoreS 1 CX 0] ++ advance2 esize ++ [DecQ DX].
Definition tailc (op : bop) : code := [("tailLoop", [CmpQ DX 0; Je "end"] ++ onec op ++ [Jmp "tailLoop"]); ("end", [Ret])].
Definition argsc : list instr := [ArgS "c" 0; Arg "x_base" AX; Arg "y_base" CX; Arg "x_len" DX].
Definition avxc (op : bop) : code :=
  ("entry", argsc ++ [Spread Y true 0 1]) :: loops4 DX (lanes_of half Y) (bodyc_avx op) "tailLoop" (tailc op).
Definition ssec (op : bop) : code :=
  ("entry", argsc ++ [Spread X false 0 0]) :: loops4 DX (lanes_of half X) (bodyc_sse op) "tailLoop" (tailc op).
End Shape.
Lemma add_const_avx32_shape : add_const_avx32 = avxc 4 4 Add. Proof. reflexivity. Qed.
Lemma add_const_avx64_shape : add_const_avx64 = avxc 8 2 Add. Proof. reflexivity. Qed.
Lemma add_const_sse32_shape : add_const_sse32 = ssec 4 4 Add. Proof. reflexivity. Qed.
Lemma add_const_sse64_shape : add_const_sse64 = ssec 8 2 Add. Proof. reflexivity. Qed.
Lemma mul_const_avx32_shape : mul_const_avx32 = avxc 4 4 Mul. Proof. reflexivity. Qed.
Lemma mul_const_avx64_shape : mul_const_avx64 = avxc 8 2 Mul. Proof. reflexivity. Qed.
Lemma mul_const_sse32_shape : mul_const_sse32 = ssec 4 4 Mul. Proof. reflexivity. Qed.
Lemma mul_const_sse64_shape : mul_const_sse64 = ssec 8 2 Mul. Proof. reflexivity. Qed.

Section Const.
Variable A : lanes.
Variable esize : Z.
Variable half : nat.
Notation L := (lane A).
Hypothesis esize_pos : (0 < esize)%Z.
Hypothesis half_pos : 0 < half.

Lemma map2_repeat_r f (c : L) l n : length l = n -> map2 A f l (repeat c n) = map (fun x => f x c) l.
Proof. intros <-. induction l as [| x l IH]; cbn; [reflexivity|]. now rewrite IH. Qed.
Lemma map2_repeat_l f (c : L) l n : length l = n -> map2 A f (repeat c n) l = map (fun x => f c x) l.
Proof. intros <-. induction l as [| x l IH]; cbn; [reflexivity|]. now rewrite IH. Qed.

Section Run.
Variable F : frame A.
Variable op : bop.
Variables (x y : Z) (c : L) (N : nat) (xs : list L) (m0 : Z -> option L).
Notation read := (read A esize).
Notation write := (write A esize).
Notation block := (block A esize half F).
Notation w_of := (lanes_of half).
Hypothesis R : read m0 x N = Some xs.
Hypothesis Cy : cells A esize m0 y N.
Hypothesis O : same_or_apart esize x y N.
Definition outc : list L := map (fun a => bin A op a c) xs.
Lemma xs_length : length xs = N. Proof. exact (read_length _ _ _ _ _ _ R). Qed.
Lemma outc_length : length outc = N. Proof. unfold outc. now rewrite map_length, xs_length. Qed.

(** n elements remain; P: what the registers hold *)
Definition invc (P : (nat -> list L) -> Prop) (n : nat) (st : state A) : Prop :=
  n <= N /\ gpr A st AX = (x + esize * Z.of_nat (N - n))%Z /\ gpr A st CX = (y + esize * Z.of_nat (N - n))%Z /\
  gpr A st DX = Z.of_nat n /\ write m0 y (firstn (N - n) outc) = Some (mem A st) /\ P (vec A st).
Lemma invc_same P n st st' : invc P n st -> same A st st' -> invc P n st'.
Proof. intros H (G & V & M & _). unfold invc in *. rewrite G, M, V. exact H. Qed.
Lemma invc_dx P n st : invc P n st -> gpr A st DX = Z.of_nat n.
Proof. intros (_ & _ & _ & H & _). exact H. Qed.
Lemma invc_weaken (P Q : (nat -> list L) -> Prop) n st : (forall v, P v -> Q v) -> invc P n st -> invc Q n st.
Proof. intros H (H1 & H2 & H3 & H4 & H5 & H6). repeat split; auto. Qed.
Lemma invc_reads P n st : invc P n st ->
  read (mem A st) (gpr A st AX) n = Some (skipn (N - n) xs) /\ cells A esize (mem A st) (gpr A st CX) n.
Proof.
  intros (Q & G1 & G2 & G3 & W & _). rewrite G1, G2.
  assert (Lf : length (firstn (N - n) outc) = N - n) by (rewrite firstn_length, outc_length; lia).
  split.
  - rewrite (read_ext A esize m0).
    + rewrite (read_sub A esize m0 x N xs (N - n) n R) by lia. f_equal. apply firstn_all2. rewrite skipn_length, xs_length. lia.
    + intros i Hi. apply (write_frame A esize _ _ _ _ _ W). intros j Hj E. rewrite Lf in Hj.
      enough (N - n + i = j) by lia. apply O; try lia.
  - apply (cells_sub A esize _ y N); [|lia]. apply (write_cells A esize _ _ _ _ _ _ W). exact Cy.
Qed.
Lemma invc_next P n k st st' m' : invc P n st -> k <= n ->
  write (mem A st) (gpr A st CX) (firstn k (skipn (N - n) outc)) = Some m' ->
  mem A st' = m' -> gpr A st' AX = (gpr A st AX + esize * Z.of_nat k)%Z -> gpr A st' CX = (gpr A st CX + esize * Z.of_nat k)%Z ->
  gpr A st' DX = (gpr A st DX - Z.of_nat k)%Z -> P (vec A st') -> invc P (n - k) st'.
Proof.
  intros (Q & G1 & G2 & G3 & W & _) Hk W' Hm H1 H2 H4 H5. unfold invc. rewrite Hm. rewrite H1, G1, H2, G2, H4, G3 in *.
  split; [lia|]. replace (N - (n - k)) with ((N - n) + k) by lia. rewrite Nat2Z.inj_add, Z.mul_add_distr_l. repeat split; try lia.
  - rewrite firstn_add, (write_app A esize _ _ _ _ _ W).
    rewrite firstn_length, outc_length. replace (Nat.min (N - n) N) with (N - n) by lia. exact W'.
  - exact H5.
Qed.
Lemma advance2_ok bytes i st : (i = DecQ DX \/ exists k, i = SubQ k DX) ->
  exists st', block (advance2 bytes ++ [i]) st = Some (st', Seq) /\ vec A st' = vec A st /\ mem A st' = mem A st /\
    gpr A st' AX = (gpr A st AX + bytes)%Z /\ gpr A st' CX = (gpr A st CX + bytes)%Z /\
    gpr A st' DX = (gpr A st DX - match i with SubQ k _ => k | _ => 1 end)%Z.
Proof. intros [-> | [k ->]]; (eexists; split; [reflexivity|]; repeat split). Qed.

(** the stores at the end of a body *)
Lemma stores_ok P s n r0 r st0 st : 0 < n -> w_of s * n <= r -> invc P r st0 ->
  gpr A st = gpr A st0 -> mem A st = mem A st0 -> P (vec A st) ->
  (forall j, j < n -> firstn (w_of s) (vec A st (r0 + j)) = firstn (w_of s) (skipn (w_of s * j) (skipn (N - r) outc))) ->
  exists st', block (unroll n (fun j => Store s (r0 + j) CX (esize * Z.of_nat (w_of s) * Z.of_nat j)) ++ advance2 (esize * Z.of_nat (w_of s) * Z.of_nat n) ++ [SubQ (Z.of_nat (w_of s * n)) DX]) st = Some (st', Seq) /\ invc P (r - w_of s * n) st'.
Proof.
  intros N0 Hr H G M HP HV. destruct (invc_reads P r st0 H) as (A1 & A3). set (w := w_of s) in *.
  assert (W : exists m', write (mem A st0) (gpr A st0 CX) (firstn (w * n) (skipn (N - r) outc)) = Some m').
  { apply write_some. rewrite firstn_length. intros i Hi. apply A3. lia. }
  destruct W as [m' W].
  assert (Ls : length (skipn (N - r) outc) = r) by (destruct H as (Hn & _); rewrite skipn_length, outc_length; lia).
  assert (B3 : block (unroll n (fun j => Store s (r0 + j) CX (esize * Z.of_nat w * Z.of_nat j))) st = Some (set_mem A st m', Seq)).
  { apply (store_phase A esize half F n s r0 CX (fun j => firstn w (skipn (w * j) (skipn (N - r) outc))) st).
    - intros j Hj. split; [exact (HV j Hj)|]. rewrite firstn_length, skipn_length, Ls. fold w. nia.
    - rewrite G, M. rewrite <- W. f_equal. rewrite <- (concat_unroll (firstn (w * n) (skipn (N - r) outc)) w n).
      + f_equal. unfold unroll. apply map_ext_in. intros j Hj. apply in_seq in Hj. rewrite skipn_firstn_comm, firstn_firstn. f_equal. nia.
      + rewrite firstn_length, Ls. nia. }
  rewrite block_app, B3.
  destruct (advance2_ok (esize * Z.of_nat w * Z.of_nat n) (SubQ (Z.of_nat (w * n)) DX) (set_mem A st m')) as (st3 & B4 & V3 & M3 & X1 & X2 & X4); [right; eauto|].
  rewrite B4. exists st3. split; [reflexivity|]. cbn [gpr mem vec set_mem] in *. rewrite G in *.
  apply (invc_next P r (w * n) st0 _ m' H Hr W); [exact M3 | lia | lia | exact X4 | now rewrite V3].
Qed.

(** AVX: the constant is in every lane of register 1 *)
Definition P_avx (v : nat -> list L) : Prop := firstn (w_of Y) (v 1) = repeat c (w_of Y) /\ hd_error (v 0) = Some c.
Definition P_sse (v : nat -> list L) : Prop := firstn (w_of X) (v 0) = repeat c (w_of X).
Definition P_tail (v : nat -> list L) : Prop := hd_error (v 0) = Some c.
Lemma bodyc_avx_ok n r st : (forall a b, bin A op a b = bin A op b a) -> 0 < n -> w_of Y * n <= r -> invc P_avx r st ->
  exists st', block (bodyc_avx esize half op n) st = Some (st', Seq) /\ invc P_avx (r - w_of Y * n) st'.
Proof.
  intros Comm N0 Hr H. destruct (invc_reads _ r st H) as (A1 & _). set (w := w_of Y) in *.
  set (c1 := fun j => firstn w (skipn (w * j) (skipn (N - r) xs))).
  assert (E1 : forall j, j < n -> read (mem A st) (gpr A st AX + esize * Z.of_nat w * Z.of_nat j) w = Some (c1 j)).
  { intros j Hj. replace (esize * Z.of_nat w * Z.of_nat j)%Z with (esize * Z.of_nat (w * j))%Z by lia.
    apply (read_sub A esize _ _ r); [exact A1 | nia]. }
  assert (Lc1 : forall j, j < n -> length (c1 j) = w) by (intros j Hj; exact (read_length _ _ _ _ _ _ (E1 j Hj))).
  unfold bodyc_avx. rewrite block_app. pose proof H as (_ & _ & _ & _ & _ & (V1 & V0)).
  destruct (phase A esize half F n (fun j => Bin op Y true (Mem AX (esize * Z.of_nat w * Z.of_nat j)) 1 (2 + j)) 2 (fun j v => firstn w v = map (fun a => bin A op a c) (c1 j)) st) as (st1 & B1 & (G1 & M1 & _ & Vk) & P1).
  { intros j st' Hj (G' & M' & _ & V'). cbn [AsmModel.step value negb andb]. fold w. rewrite M', G', (E1 j Hj). eexists; split; [reflexivity|].
    rewrite V' by lia. fold w in V1. rewrite V1. rewrite map2_repeat_l by auto. unfold extend. rewrite (map_ext _ _ (Comm c)).
    apply firstn_len_app. rewrite map_length. auto. }
  fold w. rewrite B1. apply (stores_ok P_avx Y n 2 r st st1 N0 Hr H G1 M1).
  - unfold P_avx. rewrite !Vk by lia. auto.
  - intros j Hj. fold w. rewrite (P1 j Hj). unfold c1, outc. now rewrite <- firstn_map, <- !skipn_map.
Qed.
Lemma bodyc_sse_ok n r st : 0 < n -> w_of X * n <= r -> invc P_sse r st ->
  exists st', block (bodyc_sse esize half op n) st = Some (st', Seq) /\ invc P_sse (r - w_of X * n) st'.
Proof.
  intros N0 Hr H. destruct (invc_reads _ r st H) as (A1 & _). set (w := w_of X) in *.
  set (c1 := fun j => firstn w (skipn (w * j) (skipn (N - r) xs))).
  assert (E1 : forall j, j < n -> read (mem A st) (gpr A st AX + esize * Z.of_nat w * Z.of_nat j) w = Some (c1 j)).
  { intros j Hj. replace (esize * Z.of_nat w * Z.of_nat j)%Z with (esize * Z.of_nat (w * j))%Z by lia.
    apply (read_sub A esize _ _ r); [exact A1 | nia]. }
  assert (Lc1 : forall j, j < n -> length (c1 j) = w) by (intros j Hj; exact (read_length _ _ _ _ _ _ (E1 j Hj))).
  unfold bodyc_sse. rewrite block_app. pose proof H as (_ & _ & _ & _ & _ & V0). unfold P_sse in V0. fold w in V0.
  destruct (phase A esize half F n (fun j => Load X false AX (esize * Z.of_nat w * Z.of_nat j) (1 + j)) 1 (fun j v => firstn w v = c1 j) st) as (st1 & B1 & (G1 & M1 & _ & Vk) & P1).
  { intros j st' Hj (G' & M' & _ & V'). cbn [AsmModel.step]. fold w. rewrite M', G', (E1 j Hj). eexists; split; [reflexivity|].
    unfold extend. apply firstn_len_app. auto. }
  fold w. rewrite B1, block_app.
  destruct (phase A esize half F n (fun j => Bin op X false (Reg 0) (1 + j) (1 + j)) 1 (fun j v => firstn w v = map (fun a => bin A op a c) (c1 j)) st1) as (st2 & B2 & (G2 & M2 & _ & Vk2) & P2).
  { intros j st' Hj (G' & M' & _ & V'). cbn [AsmModel.step value]. fold w. eexists; split; [reflexivity|].
    rewrite !V' by lia. rewrite (P1 j Hj), Vk by lia. rewrite V0, map2_repeat_r by auto. unfold extend.
    apply firstn_len_app. rewrite map_length. auto. }
  rewrite B2. apply (stores_ok P_sse X n 1 r st st2 N0 Hr H).
  - now rewrite G2.
  - now rewrite M2.
  - unfold P_sse. rewrite Vk2, Vk by lia. exact V0.
  - intros j Hj. fold w. rewrite (P2 j Hj). unfold c1, outc. now rewrite <- firstn_map, <- !skipn_map.
Qed.
Lemma onec_ok r st : invc P_tail (S r) st -> exists st', block (onec esize op) st = Some (st', Seq) /\ invc P_tail r st'.
Proof.
  intros H. destruct (invc_reads _ _ st H) as (A1 & A3). pose proof H as (_ & _ & _ & _ & _ & V0). unfold P_tail in V0.
  destruct (skipn (N - S r) xs) as [| a l1] eqn:S1; [apply read_length in A1; discriminate|].
  cbn [AsmModel.read] in A1. destruct (mem A st (gpr A st AX)) as [a'|] eqn:M1; [|discriminate].
  destruct (read (mem A st) (gpr A st AX + esize) r); [|discriminate]. injection A1 as -> ->.
  pose proof (A3 0 ltac:(lia)) as M3. change (Z.of_nat 0) with 0%Z in M3. rewrite Z.mul_0_r, Z.add_0_r in M3.
  destruct (mem A st (gpr A st CX)) as [d|] eqn:M3'; [clear M3 | contradiction].
  destruct (vec A st 0) as [| c0 v0] eqn:EV; [discriminate|]. injection V0 as ->.
  assert (W : write (mem A st) (gpr A st CX) (firstn 1 (skipn (N - S r) outc)) = Some (fun z => if Z.eqb z (gpr A st CX) then Some (bin A op a c) else mem A st z)).
  { unfold outc. rewrite skipn_map, S1. cbn. now rewrite M3'. }
  unfold onec. cbn [app].
  erewrite block_cons by (cbn [AsmModel.step]; rewrite Z.add_0_r, M1; reflexivity).
  erewrite block_cons by (cbn [AsmModel.step value vec set_vec Nat.eqb]; rewrite EV; reflexivity).
  erewrite block_cons by (cbn [AsmModel.step gpr mem vec set_vec Nat.eqb extend app map2 firstn AsmModel.write]; rewrite Z.add_0_r, M3'; reflexivity).
  match goal with |- context [set_mem A ?s ?m] => set (s1 := set_mem A s m) end.
  destruct (advance2_ok esize (DecQ DX) s1) as (st3 & B4 & V4 & M4 & X1 & X2 & X4); [left; reflexivity|].
  unfold s1 in X1, X2, X4, M4, V4. cbn [gpr mem vec set_mem set_vec] in *. fold s1 in B4.
  exists st3. split; [exact B4|]. replace r with (S r - 1) by lia. apply (invc_next P_tail (S r) 1 st _ _ H) with (2 := W); try lia; try assumption.
  unfold P_tail. rewrite V4. cbn [Nat.eqb]. now rewrite EV.
Qed.
End Run.

Lemma finishc F cd st st1 op x y c N xs : read A esize (mem A st) x N = Some xs ->
  reach A esize half F cd cd st [("end", [Ret])] st1 -> invc op x y c N xs (mem A st) (P_tail c) 0 st1 ->
  exists st', returns A esize half F cd st st' /\
    (forall i a, nth_error xs i = Some a -> mem A st' (y + esize * Z.of_nat i)%Z = Some (bin A op a c)) /\
    (forall p, ~ within esize y N p -> mem A st' p = mem A st p).
Proof.
  intros R1 R (_ & _ & _ & _ & W & _). exists st1. rewrite Nat.sub_0_r in W.
  pose proof (outc_length op x c N xs (mem A st) R1) as Ln. rewrite firstn_all2 in W by lia. split; [|split].
  - eapply reach_return; [exact R | reflexivity].
  - intros i a Ha. rewrite (write_get A esize esize_pos _ _ _ _ i W).
    + unfold outc. erewrite map_nth_error; eauto.
    + rewrite Ln. rewrite <- (read_length _ _ _ _ _ _ R1). apply nth_error_Some. congruence.
  - intros p Np. apply (write_frame A esize _ _ _ _ _ W). rewrite Ln. intros i Q E. apply Np. exists i. auto.
Qed.
Lemma tailc_ok F op x y c N xs m0 : read A esize m0 x N = Some xs -> cells A esize m0 y N -> same_or_apart esize x y N ->
  forall whole n st, from_label whole "tailLoop" = Some (tailc esize op) -> from_label whole "end" = Some [("end", [Ret])] ->
  invc op x y c N xs m0 (P_tail c) n st -> exists st', invc op x y c N xs m0 (P_tail c) 0 st' /\ reach A esize half F whole (tailc esize op) st [("end", [Ret])] st'.
Proof.
  intros R Cy O whole n st F1 F2 H.
  apply (tail_loop A esize half F whole "tailLoop" "end" DX (onec esize op) [("end", [Ret])] _ (invc op x y c N xs m0 (P_tail c)) F1 F2) with (n := n); auto.
  - intros k s. apply invc_dx.
  - intros k s s'. apply invc_same.
  - intros k s. apply onec_ok; auto.
Qed.

Theorem avxc_ok op : (forall a b, bin A op a b = bin A op b a) -> computes1 A esize half (avxc esize half op) (bin A op).
Proof.
  intros Comm F st x y k l ly E0 E1 E2 E3 Ly S1 Sy O. apply slice_read in S1, Sy. rewrite Ly in Sy. apply read_cells in Sy.
  set (whole := avxc esize half op).
  assert (B : exists st1, block A esize half F (argsc ++ [Spread Y true 0 1]) st = Some (st1, Seq) /\ invc op x y k (length l) l (mem A st) (P_avx k) (length l) st1).
  { eexists. split; [reflexivity|]. unfold invc. cbn [gpr mem vec set_gpr set_vec greg_eqb Nat.eqb]. rewrite Nat.sub_diag. cbn [firstn AsmModel.write]. change (Z.of_nat 0) with 0%Z.
    rewrite E1, E2, E3, !Z.mul_0_r, !Z.add_0_r. repeat split; auto.
    - cbn [Nat.eqb]. unfold extend at 1. cbn [hd extend app vec set_vec]. rewrite E0. apply firstn_len_app, repeat_length.
    - cbn. now rewrite E0. }
  destruct B as (st1 & B1 & I1).
  destruct (loops4_ok A esize half F whole DX (lanes_of half Y) (bodyc_avx esize half op) "tailLoop" (tailc esize op) (tailc esize op) (invc op x y k (length l) l (mem A st) (P_avx k))) with (n := length l) (st := st1) as (n2 & st2 & I2 & R2); try reflexivity; auto.
  { cbn; lia. } { intros n s. apply invc_dx. } { intros n s s'. apply invc_same. }
  { intros q n s Hq. apply bodyc_avx_ok; auto. lia. }
  apply (invc_weaken op x y k (length l) l (mem A st) _ (P_tail k)) in I2; [|intros v [_ V]; exact V].
  destruct (tailc_ok F op x y k (length l) l (mem A st) S1 Sy O whole n2 st2 eq_refl eq_refl I2) as (st3 & I3 & R3).
  apply (finishc F whole st st3 op x y k (length l) l S1); auto.
  eapply reach_trans; [apply reach_fall; exact B1|]. eapply reach_trans; [exact R2 | exact R3].
Qed.
Theorem ssec_ok op : computes1 A esize half (ssec esize half op) (bin A op).
Proof.
  intros F st x y k l ly E0 E1 E2 E3 Ly S1 Sy O. apply slice_read in S1, Sy. rewrite Ly in Sy. apply read_cells in Sy.
  set (whole := ssec esize half op).
  assert (B : exists st1, block A esize half F (argsc ++ [Spread X false 0 0]) st = Some (st1, Seq) /\ invc op x y k (length l) l (mem A st) (P_sse k) (length l) st1).
  { eexists. split; [reflexivity|]. unfold invc. cbn [gpr mem vec set_gpr set_vec greg_eqb Nat.eqb]. rewrite Nat.sub_diag. cbn [firstn AsmModel.write]. change (Z.of_nat 0) with 0%Z.
    rewrite E1, E2, E3, !Z.mul_0_r, !Z.add_0_r. repeat split; auto.
    unfold P_sse. cbn [Nat.eqb]. unfold extend at 1. cbn [hd extend app vec set_vec]. rewrite E0. apply firstn_len_app, repeat_length. }
  destruct B as (st1 & B1 & I1).
  destruct (loops4_ok A esize half F whole DX (lanes_of half X) (bodyc_sse esize half op) "tailLoop" (tailc esize op) (tailc esize op) (invc op x y k (length l) l (mem A st) (P_sse k))) with (n := length l) (st := st1) as (n2 & st2 & I2 & R2); try reflexivity; auto.
  { intros n s. apply invc_dx. } { intros n s s'. apply invc_same. }
  { intros q n s Hq. apply bodyc_sse_ok; auto. lia. }
  apply (invc_weaken op x y k (length l) l (mem A st) _ (P_tail k)) in I2.
  2:{ unfold P_sse, P_tail. cbn [lanes_of]. intros v V. destruct half as [| h]; [lia|]. destruct (v 0) as [| a0 v0]; cbn in V; [discriminate|]. injection V as -> _. reflexivity. }
  destruct (tailc_ok F op x y k (length l) l (mem A st) S1 Sy O whole n2 st2 eq_refl eq_refl I2) as (st3 & I3 & R3).
  apply (finishc F whole st st3 op x y k (length l) l S1); auto.
  eapply reach_trans; [apply reach_fall; exact B1|]. eapply reach_trans; [exact R2 | exact R3].
Qed.
End Const.
