(** * Proofs: sums and dot products *)
From Coq Require Import ZArith String Bool List Permutation Lia.
From Verif Require Import AsmModel AsmCode AsmSpec AsmLemmas AsmProofs AsmProofs2 AsmProofs3 AsmProofs4.
Import ListNotations.
Open Scope string_scope.
Open Scope list_scope.

(** ** The shape of the code *)
Section Shape.
Variable esize : Z.
Variable half : nat.
Notation stride s := (esize * Z.of_nat (lanes_of half s))%Z.
Definition args_sum : list instr := [Arg "x_base" AX; Arg "x_len" CX].
Definition body_sum (s : size) (vex : bool) (k : nat) : list instr :=
  unroll k (fun j => Bin Add s vex (Mem AX (stride s * Z.of_nat j)) (j mod 2) (j mod 2)) ++
  forth false (esize * Z.of_nat (lanes_of half s * k)) ++ [SubQ (Z.of_nat (lanes_of half s * k)) CX].
Definition next_sum : list instr := forth false (esize * Z.of_nat 1) ++ [DecQ CX].
Definition sum_avx : code := accum_avx half false args_sum (body_sum Y true) ([BinS Add true (Mem AX 0) 2 2] ++ next_sum) [Clear Y true 0; Clear Y true 1].
Definition one_sum_sse : list instr := [BinS Add false (Mem AX 0) 0 0] ++ next_sum.
Definition lone_sum_sse : list instr := [LoadS false AX 0 2; BinS Add false (Reg 2) 0 0] ++ next_sum.

Definition args_dot : list instr := [Arg "x1_base" AX; Arg "x2_base" CX; Arg "x1_len" DX].
Definition next_dot : list instr := forth true (esize * Z.of_nat 1) ++ [DecQ DX].
Definition body_dot_avx (k : nat) : list instr :=
  unroll k (fun j => Load Y true AX (stride Y * Z.of_nat j) (2 + j)) ++
  unroll k (fun j => Fma Y (Mem CX (stride Y * Z.of_nat j)) (2 + j) (j mod 2)) ++
  forth true (esize * Z.of_nat (lanes_of half Y * k)) ++ [SubQ (Z.of_nat (lanes_of half Y * k)) DX].
Definition body_dot_sse (k : nat) : list instr :=
  unroll k (fun j => Load X false AX (stride X * Z.of_nat j) (2 + j)) ++
  unroll k (fun j => Bin Mul X false (Mem CX (stride X * Z.of_nat j)) (2 + j) (2 + j)) ++
  unroll k (fun j => Bin Add X false (Reg (2 + j)) (j mod 2) (j mod 2)) ++
  forth true (esize * Z.of_nat (lanes_of half X * k)) ++ [SubQ (Z.of_nat (lanes_of half X * k)) DX].
Definition one_dot_avx : list instr := [LoadS true AX 0 3; FmaS (Mem CX 0) 3 2] ++ next_dot.
Definition one_dot_sse : list instr := [LoadS false AX 0 2; BinS Mul false (Mem CX 0) 2 2; BinS Add false (Reg 2) 0 0] ++ next_dot.
Definition dot_avx : code := accum_avx half true args_dot body_dot_avx one_dot_avx [ClearAll].
End Shape.
Lemma sum_avx32_shape : sum_avx32 = sum_avx 4 4. Proof. reflexivity. Qed.
Lemma sum_avx64_shape : sum_avx64 = sum_avx 8 2. Proof. reflexivity. Qed.
Lemma sum_sse32_shape : sum_sse32 = accum_sse32 4 false args_sum (body_sum 4 4 X false) (one_sum_sse 4) (lone_sum_sse 4). Proof. reflexivity. Qed.
Lemma sum_sse64_shape : sum_sse64 = accum_sse64 2 false args_sum (body_sum 8 2 X false) (one_sum_sse 8) (lone_sum_sse 8). Proof. reflexivity. Qed.
Lemma dot_prod_avx32_shape : dot_prod_avx32 = dot_avx 4 4. Proof. reflexivity. Qed.
Lemma dot_prod_avx64_shape : dot_prod_avx64 = dot_avx 8 2. Proof. reflexivity. Qed.
Lemma dot_prod_sse32_shape : dot_prod_sse32 = accum_sse32 4 true args_dot (body_dot_sse 4 4) (one_dot_sse 4) (one_dot_sse 4). Proof. reflexivity. Qed.
Lemma dot_prod_sse64_shape : dot_prod_sse64 = accum_sse64 2 true args_dot (body_dot_sse 8 2) (one_dot_sse 8) (one_dot_sse 8). Proof. reflexivity. Qed.

Lemma combine_skipn {S T} n (a : list S) (b : list T) : combine (skipn n a) (skipn n b) = skipn n (combine a b).
Proof. revert a b. induction n as [| n IH]; intros [| x a] [| y b]; cbn; try reflexivity; [destruct (skipn n a); reflexivity | apply IH]. Qed.

Section Kernels.
Variable A : lanes.
Variable esize : Z.
Variable half : nat.
Notation L := (lane A).
Hypothesis esize_pos : (0 < esize)%Z.
Hypothesis halves : half = 4 \/ half = 2.
Hypothesis width : (esize * Z.of_nat half = 16)%Z.
Let half_pos : 0 < half. Proof. lia. Qed.
Notation S_ := (sum_of A).
Notation D_ := (dot_of A).
Lemma sum_add' a b l k : S_ a l -> S_ b k -> S_ (bin A Add a b) (l ++ k).
Proof. intros H K. eapply sum_add; eauto. Qed.
Lemma sum_perm a l k : S_ a l -> Permutation l k -> S_ a k.
Proof.
  intros H P. destruct H.
  - apply Permutation_nil in P. subst. constructor.
  - apply Permutation_length_1_inv in P. subst. constructor.
  - eapply sum_add; eauto. etransitivity; eauto.
Qed.
Lemma dot_add' a b l k : D_ a l -> D_ b k -> D_ (bin A Add a b) (l ++ k).
Proof. intros H K. eapply dot_add; eauto. Qed.
Lemma dot_perm a l k : D_ a l -> Permutation l k -> D_ a k.
Proof.
  intros H P. destruct H.
  - apply Permutation_nil in P. subst. constructor.
  - apply Permutation_length_1_inv in P. subst. constructor.
  - eapply dot_add; eauto. etransitivity; eauto.
  - eapply dot_fma; eauto. etransitivity; eauto.
Qed.
Notation acc := (acc A).
Lemma accs_self l : accs A L S_ l l.
Proof. induction l as [| x l IH]; [constructor|]. eapply accs_cons; [apply sum_one | exact IH | reflexivity]. Qed.
Lemma accs_mul a b : length a = length b -> accs A (L * L) D_ (map2 A (bin A Mul) a b) (combine a b).
Proof. revert b. induction a as [| x a IH]; intros [| y b] E; try discriminate; cbn; [constructor|]. eapply accs_cons; [apply dot_one | apply IH; now inversion E | reflexivity]. Qed.
Lemma accs_fma a b vs m : length a = length vs -> length b = length vs -> accs A (L * L) D_ vs m -> accs A (L * L) D_ (map3 A (fma A) a b vs) (m ++ combine a b).
Proof.
  intros E1 E2 H. revert a b E1 E2. induction H as [| v vs l a0 m H1 H2 IH H3]; intros [| x a] [| y b] E1 E2; try discriminate; cbn [map3 combine].
  - constructor.
  - eapply accs_cons; [eapply dot_fma; [exact H1 | reflexivity] | apply IH; [now inversion E1 | now inversion E2] |].
    rewrite <- H3, <- !app_assoc. apply Permutation_app_head. cbn. rewrite Permutation_middle. reflexivity.
Qed.
Lemma map3_length f (a b c : list L) : length a = length c -> length b = length c -> length (map3 A f a b c) = length c.
Proof. revert b c. induction a as [| x a IH]; intros [| y b] [| z c] E1 E2; try discriminate; cbn; [reflexivity|]. f_equal. apply IH; [now inversion E1 | now inversion E2]. Qed.
Lemma map3_firstn f n (a b c : list L) : length a <= n -> map3 A f a b c = map3 A f a b (firstn n c).
Proof.
  revert b c n. induction a as [| x a IH]; intros b c n E; [reflexivity|]. destruct n as [| n]; [cbn in E; lia|].
  destruct b as [| y b]; [reflexivity|]. destruct c as [| z c]; [reflexivity|]. cbn. f_equal. apply IH. cbn in E. lia.
Qed.

Lemma map2_one f (z e : L) v : map2 A f (z :: v) [e] = [f z e].
Proof. cbn. now destruct v. Qed.

Lemma map3_one f (e y z : L) u v : map3 A f (e :: u) [y] (z :: v) = [f e y z].
Proof. cbn. now destruct u. Qed.

(** ** Sums *)
Section Sums.
Variable F : frame A.
Variables (x : Z) (N : nat) (xs : list L) (m0 : Z -> option L).
Hypothesis R : read A esize m0 x N = Some xs.
Notation inv := (inva A esize half L S_ false x 0 N xs m0).
Notation block := (block A esize half F).
Let LN : length xs = N. Proof. exact (read_length _ _ _ _ _ _ R). Qed.
Lemma reads_sum w tail al n st : inv w tail al n st -> read A esize (mem A st) (gpr A st AX) n = Some (skipn (N - n) xs).
Proof.
  intros (Q & (G & _) & _ & M & _). rewrite G, M. rewrite (read_sub A esize m0 x N xs (N - n) n R) by lia. f_equal. apply firstn_all2. rewrite skipn_length. lia.
Qed.
Lemma body_sum_ok s vex al : vex = true \/ (al = true /\ s = X) -> forall k n st, 0 < k -> lanes_of half s * k <= n -> inv (lanes_of half s) false al n st ->
  exists st', block (body_sum esize half s vex k) st = Some (st', Seq) /\ inv (lanes_of half s) false al (n - lanes_of half s * k) st'.
Proof.
  intros Hv k n st K0 Hk H. pose proof (reads_sum _ _ _ _ _ H) as A1. set (w := lanes_of half s) in *.
  set (c1 := fun j => firstn w (skipn (w * j) (skipn (N - n) xs))).
  assert (E1 : forall j, j < k -> read A esize (mem A st) (gpr A st AX + esize * Z.of_nat w * Z.of_nat j) w = Some (c1 j)).
  { intros j Hj. replace (esize * Z.of_nat w * Z.of_nat j)%Z with (esize * Z.of_nat (w * j))%Z by lia. apply (read_sub A esize _ _ n); [exact A1 | nia]. }
  assert (Lc1 : forall j, j < k -> length (c1 j) = w) by (intros j Hj; exact (read_length _ _ _ _ _ _ (E1 j Hj))).
  pose proof H as (Q & _ & _ & _ & Al & a0 & a1 & a2 & I0 & I1 & I2 & P). rewrite I2 in P.
  destruct (acc_phase A esize half half_pos L S_ F w k (fun j => Bin Add s vex (Mem AX (esize * Z.of_nat w * Z.of_nat j)) (j mod 2) (j mod 2)) c1 st a0 a1) as (st1 & b0 & b1 & B1 & (G1 & M1 & _ & _) & J0 & J1 & P1); auto.
  { intros j st' a Hj (G' & M' & _ & _) [Ha1 Ha2]. cbn [AsmModel.step value]. fold w. rewrite M', G'.
    assert (Al' : negb vex && negb (((gpr A st AX + esize * Z.of_nat w * Z.of_nat j) mod 16 =? 0)%Z) = false).
    { destruct Hv as [-> | [Ea Es]]; [reflexivity|]. apply andb_false_iff. right. apply negb_false_iff, Z.eqb_eq.
      unfold w. rewrite Es. cbn [lanes_of]. rewrite width, Z.mul_comm, Z.mod_add by lia. exact (Al Ea). }
    rewrite Al', (E1 j Hj). eexists; split; [reflexivity|]. unfold extend. apply acc_app.
    - rewrite map2_length; [exact Ha1 | rewrite Ha1; symmetry; auto].
    - apply (accs_add A L S_ sum_add'); [rewrite Ha1; symmetry; auto | exact Ha2 | apply accs_self]. }
  unfold body_sum. fold w. rewrite block_app, B1.
  destruct (inva_next A esize half esize_pos half_pos width L S_ false F x 0 N xs m0 LN w false al n (w * k) (SubQ (Z.of_nat (w * k)) CX) st st1) as (st2 & B2 & I3 & _); auto.
  - intros Ha. assert (Hs : exists q, (esize * Z.of_nat w = q * 16)%Z) by (unfold w; destruct s; cbn [lanes_of]; [exists 1%Z; lia | exists 2%Z; lia]).
    destruct Hs as [q Hq]. rewrite Nat2Z.inj_mul, Z.mul_assoc, Hq. replace (q * 16 * Z.of_nat k)%Z with (q * Z.of_nat k * 16)%Z by lia. apply Z.mod_mul. lia.
  - exists b0, b1, []. split; [exact J0|]. split; [exact J1|]. split; [reflexivity|]. rewrite app_nil_r in *. rewrite P1, app_assoc, P. apply Permutation_app_head.
    replace (concat (unroll k c1)) with (firstn (w * k) (skipn (N - n) xs)); [reflexivity|].
    rewrite <- (concat_unroll (firstn (w * k) (skipn (N - n) xs)) w k).
    + f_equal. unfold unroll. apply map_ext_in. intros j Hj. apply in_seq in Hj. unfold c1. rewrite skipn_firstn_comm, firstn_firstn. f_equal. nia.
    + rewrite firstn_length, skipn_length. lia.
  - exists st2. auto.
Qed.
(** the next element *)
Lemma next_elem w tail al n st : inv w tail al (S n) st -> exists a, mem A st (gpr A st AX) = Some a /\ firstn 1 (skipn (N - S n) xs) = [a].
Proof.
  intros H. pose proof (reads_sum _ _ _ _ _ H) as A1. destruct (skipn (N - S n) xs) as [| a l1] eqn:S1; [apply read_length in A1; discriminate|].
  cbn [AsmModel.read] in A1. destruct (mem A st (gpr A st AX)) as [a'|] eqn:M1; [|discriminate].
  destruct (read A esize (mem A st) (gpr A st AX + esize) n); [|discriminate]. injection A1 as -> _. exists a. auto.
Qed.
Lemma one_sum_avx_ok w n st : inv w true false (S n) st ->
  exists st', block ([BinS Add true (Mem AX 0) 2 2] ++ next_sum esize) st = Some (st', Seq) /\ inv w true false n st'.
Proof.
  intros H. destruct (next_elem _ _ _ _ _ H) as (e & Me & Fe). pose proof H as (_ & _ & _ & _ & _ & a0 & a1 & a2 & I0 & I1 & I2 & P).
  cbn [app]. erewrite block_cons by (cbn [AsmModel.step value AsmModel.read andb]; rewrite Z.add_0_r, Me; reflexivity).
  destruct (acc_nonempty A L S_ half _ _ half_pos I2) as (z & v & Ev).
  match goal with |- context [set_vec A st 2 ?v] => set (st1 := set_vec A st 2 v) end.
  destruct (inva_next A esize half esize_pos half_pos width L S_ false F x 0 N xs m0 LN w true false (S n) 1 (DecQ CX) st st1) as (st2 & B2 & I3 & _); auto; try lia; try discriminate.
  - exists a0, a1, (a2 ++ [e]). split; [exact I0|]. split; [exact I1|]. split.
    + unfold st1. cbn [vec set_vec Nat.eqb]. unfold extend. rewrite Ev, map2_one, <- Ev. cbn [app].
      apply (acc_lane0 A L S_); auto. rewrite Ev. intros q l [= <-] Sq. apply sum_add'; [exact Sq | apply sum_one].
    + rewrite Fe, <- P, <- !app_assoc. reflexivity.
  - exists st2. replace n with (S n - 1) by lia. auto.
Qed.
Lemma one_sum_sse_ok n st : inv half false false (S n) st -> exists st', block (one_sum_sse esize) st = Some (st', Seq) /\ inv half false false n st'.
Proof.
  intros H. destruct (next_elem _ _ _ _ _ H) as (e & Me & Fe). pose proof H as (_ & _ & _ & _ & _ & a0 & a1 & a2 & I0 & I1 & I2 & P). subst a2.
  unfold one_sum_sse. cbn [app]. erewrite block_cons by (cbn [AsmModel.step value AsmModel.read andb]; rewrite Z.add_0_r, Me; reflexivity).
  destruct (acc_nonempty A L S_ half _ _ half_pos I0) as (z & v & Ev).
  match goal with |- context [set_vec A st 0 ?v] => set (st1 := set_vec A st 0 v) end.
  destruct (inva_next A esize half esize_pos half_pos width L S_ false F x 0 N xs m0 LN half false false (S n) 1 (DecQ CX) st st1) as (st2 & B2 & I3 & _); auto; try lia; try discriminate.
  - exists (a0 ++ [e]), a1, []. split; [|split; [exact I1 | split; [reflexivity|]]].
    + unfold st1. cbn [vec set_vec Nat.eqb]. unfold extend. rewrite Ev, map2_one, <- Ev. cbn [app].
      apply (acc_lane0 A L S_); auto. rewrite Ev. intros q l [= <-] Sq. apply sum_add'; [exact Sq | apply sum_one].
    + rewrite Fe, <- P, !app_nil_r, <- !app_assoc. apply Permutation_app_head, Permutation_app_comm.
  - exists st2. replace n with (S n - 1) by lia. auto.
Qed.
Lemma lone_sum_sse_ok n st : inv half false false (S n) st -> exists st', block (lone_sum_sse esize) st = Some (st', Seq) /\ inv half false false n st' /\
  gpr A st' AX = (gpr A st AX + esize)%Z /\ gpr A st' DX = gpr A st DX /\ zf A st' = Nat.eqb n 0.
Proof.
  intros H. destruct (next_elem _ _ _ _ _ H) as (e & Me & Fe). pose proof H as (_ & _ & _ & _ & _ & a0 & a1 & a2 & I0 & I1 & I2 & P). subst a2.
  destruct (acc_nonempty A L S_ half _ _ half_pos I0) as (z & v & Ev).
  unfold lone_sum_sse. cbn [app]. erewrite block_cons by (cbn [AsmModel.step]; rewrite Z.add_0_r, Me; reflexivity).
  erewrite block_cons by (cbn [AsmModel.step value vec set_vec Nat.eqb]; reflexivity).
  match goal with |- context [set_vec A (set_vec A st 2 ?u) 0 ?v] => set (st1 := set_vec A (set_vec A st 2 u) 0 v) end.
  destruct (inva_next A esize half esize_pos half_pos width L S_ false F x 0 N xs m0 LN half false false (S n) 1 (DecQ CX) st st1) as (st2 & B2 & I3 & C3 & D3 & Z3); auto; try lia; try discriminate.
  - exists (a0 ++ [e]), a1, []. split; [|split; [exact I1 | split; [reflexivity|]]].
    + unfold st1. cbn [vec set_vec Nat.eqb]. unfold extend. cbn [app firstn]. rewrite Ev, map2_one, <- Ev. cbn [app].
      apply (acc_lane0 A L S_); auto. rewrite Ev. intros q l [= <-] Sq. apply sum_add'; [exact Sq | apply sum_one].
    + rewrite Fe, <- P, !app_nil_r, <- !app_assoc. apply Permutation_app_head, Permutation_app_comm.
  - exists st2. replace (S n - 1) with n in * by lia. cbn [ra rs] in C3, D3. change (Z.of_nat 1) with 1%Z in C3. rewrite Z.mul_1_r in C3. auto.
Qed.
End Sums.
Theorem sum_avx_ok : computes_sum A esize half (sum_avx esize half).
Proof.
  intros F st x l E1 E2 S1 _. apply slice_read in S1.
  apply (accum_avx_ok A esize half esize_pos half_pos width L S_ (sum_zero A) sum_add' sum_perm false args_sum (body_sum esize half Y true) _ F x 0 (length l) l (mem A st) eq_refl halves).
  - intros k n s Hk. apply body_sum_ok; auto. lia.
  - intros n s. apply one_sum_avx_ok; auto.
  - eexists. split; [reflexivity|]. cbn [gpr mem vec set_gpr set_vec greg_eqb Nat.eqb rc]. rewrite E1, E2. repeat split; auto; try discriminate.
    + cbn. lia.
    + unfold extend. rewrite repeat_length. cbn [lanes_of]. rewrite Nat.sub_diag. apply app_nil_r.
    + unfold extend. rewrite repeat_length. cbn [lanes_of]. rewrite Nat.sub_diag. apply app_nil_r.
Qed.
Lemma starts_sum F st x (l : list L) : iarg A F "x_base" = x -> iarg A F "x_len" = Z.of_nat (length l) -> starts A esize half false F x 0 (length l) (mem A st) args_sum st.
Proof.
  intros E1 E2. eexists. split; [reflexivity|]. cbn [gpr mem set_gpr greg_eqb rc]. repeat split; auto; try discriminate. cbn [gpr set_gpr greg_eqb]. rewrite E1. lia.
Qed.
Theorem sum_sse32_ok : esize = 4%Z -> computes_sum A esize half (accum_sse32 half false args_sum (body_sum esize half X false) (one_sum_sse esize) (lone_sum_sse esize)).
Proof.
  intros E4 F st x l E1 E2 S1 Al. apply slice_read in S1.
  apply (accum_sse32_ok A esize half half_pos width L S_ (sum_zero A) sum_add' sum_perm false args_sum _ _ _ F x 0 (length l) l (mem A st) eq_refl halves); auto.
  - intros k n s Hk. apply (body_sum_ok F x (length l) l (mem A st) S1 X false true); auto. lia.
  - intros n s. apply one_sum_sse_ok; auto.
  - intros n s. apply lone_sum_sse_ok; auto.
  - now apply starts_sum.
Qed.
Theorem sum_sse64_ok : esize = 8%Z -> computes_sum A esize half (accum_sse64 half false args_sum (body_sum esize half X false) (one_sum_sse esize) (lone_sum_sse esize)).
Proof.
  intros E4 F st x l E1 E2 S1 Al. apply slice_read in S1.
  apply (accum_sse64_ok A esize half half_pos width L S_ (sum_zero A) sum_add' sum_perm false args_sum _ _ _ F x 0 (length l) l (mem A st) eq_refl halves); auto.
  - intros k n s Hk. apply (body_sum_ok F x (length l) l (mem A st) S1 X false true); auto. lia.
  - intros n s. apply one_sum_sse_ok; auto.
  - intros n s. apply lone_sum_sse_ok; auto.
  - now apply starts_sum.
Qed.

(** ** Dot products *)
Section Dots.
Variable F : frame A.
Variables (x1 x2 : Z) (N : nat) (xs1 xs2 : list L) (m0 : Z -> option L).
Hypothesis R1 : read A esize m0 x1 N = Some xs1.
Hypothesis R2 : read A esize m0 x2 N = Some xs2.
Notation inv := (inva A esize half (L * L) D_ true x1 x2 N (combine xs1 xs2) m0).
Notation block := (block A esize half F).
Let L1 : length xs1 = N. Proof. exact (read_length _ _ _ _ _ _ R1). Qed.
Let L2 : length xs2 = N. Proof. exact (read_length _ _ _ _ _ _ R2). Qed.
Let LN : length (combine xs1 xs2) = N. Proof. rewrite combine_length, L1, L2. apply Nat.min_id. Qed.
Lemma reads_dot w tail al n st : inv w tail al n st -> read A esize (mem A st) (gpr A st AX) n = Some (skipn (N - n) xs1) /\ read A esize (mem A st) (gpr A st CX) n = Some (skipn (N - n) xs2).
Proof.
  intros (Q & (G & G') & _ & M & _). rewrite G, (G' eq_refl), M. split.
  - rewrite (read_sub A esize m0 x1 N xs1 (N - n) n R1) by lia. f_equal. apply firstn_all2. rewrite skipn_length. lia.
  - rewrite (read_sub A esize m0 x2 N xs2 (N - n) n R2) by lia. f_equal. apply firstn_all2. rewrite skipn_length. lia.
Qed.
Lemma next_pair w tail al n st : inv w tail al (S n) st -> exists a b, mem A st (gpr A st AX) = Some a /\ mem A st (gpr A st CX) = Some b /\ firstn 1 (skipn (N - S n) (combine xs1 xs2)) = [(a, b)].
Proof.
  intros H. destruct (reads_dot _ _ _ _ _ H) as [A1 A2]. rewrite <- combine_skipn.
  destruct (skipn (N - S n) xs1) as [| a l1] eqn:S1; [apply read_length in A1; discriminate|].
  destruct (skipn (N - S n) xs2) as [| b l2] eqn:S2; [apply read_length in A2; discriminate|].
  cbn [AsmModel.read] in A1, A2. destruct (mem A st (gpr A st AX)) as [a'|] eqn:M1; [|discriminate].
  destruct (read A esize (mem A st) (gpr A st AX + esize) n); [|discriminate]. injection A1 as -> _.
  destruct (mem A st (gpr A st CX)) as [b'|] eqn:M2; [|discriminate].
  destruct (read A esize (mem A st) (gpr A st CX + esize) n); [|discriminate]. injection A2 as -> _. exists a, b. auto.
Qed.
Section Body.
Variables (s : size) (al : bool) (k n : nat) (st : state A).
Hypothesis Hk : lanes_of half s * k <= n.
Hypothesis H : inv (lanes_of half s) false al n st.
Notation w := (lanes_of half s).
Let c1 := fun j => firstn w (skipn (w * j) (skipn (N - n) xs1)).
Let c2 := fun j => firstn w (skipn (w * j) (skipn (N - n) xs2)).
Lemma chunk1 j : j < k -> read A esize (mem A st) (gpr A st AX + esize * Z.of_nat w * Z.of_nat j) w = Some (c1 j).
Proof. intros Hj. replace (esize * Z.of_nat w * Z.of_nat j)%Z with (esize * Z.of_nat (w * j))%Z by lia. apply (read_sub A esize _ _ n); [apply (reads_dot _ _ _ _ _ H) | nia]. Qed.
Lemma chunk2 j : j < k -> read A esize (mem A st) (gpr A st CX + esize * Z.of_nat w * Z.of_nat j) w = Some (c2 j).
Proof. intros Hj. replace (esize * Z.of_nat w * Z.of_nat j)%Z with (esize * Z.of_nat (w * j))%Z by lia. apply (read_sub A esize _ _ n); [apply (reads_dot _ _ _ _ _ H) | nia]. Qed.
Lemma chunks : concat (unroll k (fun j => combine (c1 j) (c2 j))) = firstn (w * k) (skipn (N - n) (combine xs1 xs2)).
Proof.
  rewrite <- (concat_unroll (firstn (w * k) (skipn (N - n) (combine xs1 xs2))) w k).
  - f_equal. unfold unroll. apply map_ext_in. intros j Hj. apply in_seq in Hj. unfold c1, c2.
    rewrite <- combine_firstn, !combine_skipn. rewrite skipn_firstn_comm, firstn_firstn. f_equal. nia.
  - destruct H as (Q & _). rewrite firstn_length, skipn_length. lia.
Qed.
Lemma body_end st1 b0 b1 a0 a1 : gpr A st1 = gpr A st -> mem A st1 = mem A st -> acc (L * L) D_ w (vec A st1 0) b0 -> acc (L * L) D_ w (vec A st1 1) b1 ->
  Permutation (a0 ++ a1) (firstn (N - n) (combine xs1 xs2)) -> Permutation (b0 ++ b1) (a0 ++ a1 ++ concat (unroll k (fun j => combine (c1 j) (c2 j)))) ->
  exists st', block (forth true (esize * Z.of_nat (w * k)) ++ [SubQ (Z.of_nat (w * k)) DX]) st1 = Some (st', Seq) /\ inv w false al (n - w * k) st'.
Proof.
  intros G1 M1 J0 J1 P P1.
  destruct (inva_next A esize half esize_pos half_pos width (L * L) D_ true F x1 x2 N (combine xs1 xs2) m0 LN w false al n (w * k) (SubQ (Z.of_nat (w * k)) DX) st st1) as (st2 & B2 & I3 & _); auto.
  - intros Ha. assert (Hs : exists q, (esize * Z.of_nat w = q * 16)%Z) by (destruct s; cbn [lanes_of]; [exists 1%Z; lia | exists 2%Z; lia]).
    destruct Hs as [q Hq]. rewrite Nat2Z.inj_mul, Z.mul_assoc, Hq. replace (q * 16 * Z.of_nat k)%Z with (q * Z.of_nat k * 16)%Z by lia. apply Z.mod_mul. lia.
  - exists b0, b1, []. split; [exact J0|]. split; [exact J1|]. split; [reflexivity|]. rewrite app_nil_r in *. rewrite P1, app_assoc, P. apply Permutation_app_head.
    rewrite chunks. reflexivity.
  - exists st2. auto.
Qed.
End Body.
Lemma body_dot_avx_ok k n st : 0 < k -> lanes_of half Y * k <= n -> inv (lanes_of half Y) false false n st ->
  exists st', block (body_dot_avx esize half k) st = Some (st', Seq) /\ inv (lanes_of half Y) false false (n - lanes_of half Y * k) st'.
Proof.
  intros K0 Hk H. pose proof (chunk1 Y false k n st Hk H) as E1. pose proof (chunk2 Y false k n st Hk H) as E2. pose proof (body_end Y false k n st Hk H) as En. cbv zeta in *.
  set (w := lanes_of half Y) in *. set (c1 := fun j => firstn w (skipn (w * j) (skipn (N - n) xs1))). set (c2 := fun j => firstn w (skipn (w * j) (skipn (N - n) xs2))).
  assert (Lc1 : forall j, j < k -> length (c1 j) = w) by (intros j Hj; exact (read_length _ _ _ _ _ _ (E1 j Hj))).
  assert (Lc2 : forall j, j < k -> length (c2 j) = w) by (intros j Hj; exact (read_length _ _ _ _ _ _ (E2 j Hj))).
  pose proof H as (Q & _ & _ & _ & Al & a0 & a1 & a2 & I0 & I1 & I2 & P). rewrite I2, app_nil_r in P.
  unfold body_dot_avx. fold w. rewrite block_app.
  destruct (phase A esize half F k (fun j => Load Y true AX (esize * Z.of_nat w * Z.of_nat j) (2 + j)) 2 (fun j v => firstn w v = c1 j) st) as (st1 & B1 & (G1 & M1 & _ & Vk) & P1).
  { intros j st' Hj (G' & M' & _ & V'). cbn [AsmModel.step]. fold w. rewrite M', G', (E1 j Hj). eexists; split; [reflexivity|].
    unfold extend. apply firstn_len_app. apply (Lc1 j Hj). }
  rewrite B1, block_app.
  destruct (acc_phase A esize half half_pos (L * L) D_ F w k (fun j => Fma Y (Mem CX (esize * Z.of_nat w * Z.of_nat j)) (2 + j) (j mod 2)) (fun j => combine (c1 j) (c2 j)) st1 a0 a1) as (st2 & b0 & b1 & B2 & (G2 & M2 & _ & V2) & J0 & J1 & P2); auto.
  { intros j st' a Hj (G' & M' & _ & V') [Ha1 Ha2]. cbn [AsmModel.step value andb]. fold w. rewrite M', M1, G', G1, (E2 j Hj). eexists; split; [reflexivity|].
    rewrite V' by lia. rewrite (P1 j Hj). fold (c2 j). rewrite (map3_firstn _ w) by (rewrite (Lc1 j Hj); lia). unfold extend. apply acc_app.
    - rewrite map3_length; rewrite Ha1; auto.
    - apply accs_fma; rewrite ?Ha1; auto. }
  { rewrite Vk by lia. exact I0. } { rewrite Vk by lia. exact I1. }
  rewrite B2. apply (En st2 b0 b1 a0 a1); auto; [now rewrite G2 | now rewrite M2].
Qed.
Lemma body_dot_sse_ok k n st : 0 < k -> lanes_of half X * k <= n -> inv (lanes_of half X) false true n st ->
  exists st', block (body_dot_sse esize half k) st = Some (st', Seq) /\ inv (lanes_of half X) false true (n - lanes_of half X * k) st'.
Proof.
  intros K0 Hk H. pose proof (chunk1 X true k n st Hk H) as E1. pose proof (chunk2 X true k n st Hk H) as E2. pose proof (body_end X true k n st Hk H) as En. cbv zeta in *.
  set (w := lanes_of half X) in *. set (c1 := fun j => firstn w (skipn (w * j) (skipn (N - n) xs1))). set (c2 := fun j => firstn w (skipn (w * j) (skipn (N - n) xs2))).
  assert (Lc1 : forall j, j < k -> length (c1 j) = w) by (intros j Hj; exact (read_length _ _ _ _ _ _ (E1 j Hj))).
  assert (Lc2 : forall j, j < k -> length (c2 j) = w) by (intros j Hj; exact (read_length _ _ _ _ _ _ (E2 j Hj))).
  pose proof H as (Q & _ & _ & _ & Al & a0 & a1 & a2 & I0 & I1 & I2 & P). rewrite I2, app_nil_r in P.
  unfold body_dot_sse. fold w. rewrite block_app.
  destruct (phase A esize half F k (fun j => Load X false AX (esize * Z.of_nat w * Z.of_nat j) (2 + j)) 2 (fun j v => firstn w v = c1 j) st) as (st1 & B1 & (G1 & M1 & _ & Vk) & P1).
  { intros j st' Hj (G' & M' & _ & V'). cbn [AsmModel.step]. fold w. rewrite M', G', (E1 j Hj). eexists; split; [reflexivity|].
    unfold extend. apply firstn_len_app. apply (Lc1 j Hj). }
  rewrite B1, block_app.
  destruct (phase A esize half F k (fun j => Bin Mul X false (Mem CX (esize * Z.of_nat w * Z.of_nat j)) (2 + j) (2 + j)) 2 (fun j v => firstn w v = map2 A (bin A Mul) (c1 j) (c2 j)) st1) as (st2 & B2 & (G2 & M2 & _ & Vk2) & P2).
  { intros j st' Hj (G' & M' & _ & V'). cbn [AsmModel.step value]. fold w. rewrite M', M1, G', G1.
    assert (Al' : ((gpr A st CX + esize * Z.of_nat w * Z.of_nat j) mod 16 =? 0)%Z = true).
    { apply Z.eqb_eq. unfold w. cbn [lanes_of]. rewrite width, Z.mul_comm, Z.mod_add by lia. exact (Al eq_refl). }
    rewrite Al'. cbn [negb andb]. rewrite (E2 j Hj). eexists; split; [reflexivity|]. rewrite V' by lia. rewrite (P1 j Hj). unfold extend.
    apply firstn_len_app. rewrite map2_length; [apply (Lc1 j Hj) | rewrite (Lc1 j Hj); symmetry; apply (Lc2 j Hj)]. }
  rewrite B2, block_app.
  destruct (acc_phase A esize half half_pos (L * L) D_ F w k (fun j => Bin Add X false (Reg (2 + j)) (j mod 2) (j mod 2)) (fun j => combine (c1 j) (c2 j)) st2 a0 a1) as (st3 & b0 & b1 & B3 & (G3 & M3 & _ & V3) & J0 & J1 & P3); auto.
  { intros j st' a Hj (G' & M' & _ & V') [Ha1 Ha2]. cbn [AsmModel.step value]. fold w. eexists; split; [reflexivity|].
    rewrite (V' (2 + j)) by lia. rewrite (P2 j Hj). unfold extend.
    assert (Lm : length (map2 A (bin A Mul) (c1 j) (c2 j)) = w) by (rewrite map2_length; [apply (Lc1 j Hj) | rewrite (Lc1 j Hj); symmetry; apply (Lc2 j Hj)]).
    apply acc_app.
    - rewrite map2_length; [exact Ha1 | rewrite Ha1, Lm; reflexivity].
    - apply (accs_add A (L * L) D_ dot_add'); [rewrite Ha1, Lm; reflexivity | exact Ha2 | apply accs_mul; rewrite (Lc1 j Hj); symmetry; apply (Lc2 j Hj)]. }
  { rewrite Vk2, Vk by lia. exact I0. } { rewrite Vk2, Vk by lia. exact I1. }
  rewrite B3. apply (En st3 b0 b1 a0 a1); auto; [now rewrite G3, G2 | now rewrite M3, M2].
Qed.
Lemma one_dot_avx_ok w n st : inv w true false (S n) st -> exists st', block (one_dot_avx esize) st = Some (st', Seq) /\ inv w true false n st'.
Proof.
  intros H. destruct (next_pair _ _ _ _ _ H) as (e & f & Me & Mf & Fe). pose proof H as (_ & _ & _ & _ & _ & a0 & a1 & a2 & I0 & I1 & I2 & P).
  destruct (acc_nonempty A (L * L) D_ half _ _ half_pos I2) as (z & v & Ev).
  unfold one_dot_avx. cbn [app]. erewrite block_cons by (cbn [AsmModel.step]; rewrite Z.add_0_r, Me; reflexivity).
  erewrite block_cons by (cbn [AsmModel.step value AsmModel.read andb gpr mem set_vec]; rewrite Z.add_0_r, Mf; cbn [vec set_vec Nat.eqb]; reflexivity).
  match goal with |- context [set_vec A (set_vec A st 3 ?u) 2 ?v] => set (st1 := set_vec A (set_vec A st 3 u) 2 v) end.
  destruct (inva_next A esize half esize_pos half_pos width (L * L) D_ true F x1 x2 N (combine xs1 xs2) m0 LN w true false (S n) 1 (DecQ DX) st st1) as (st2 & B2 & I3 & _); auto; try lia; try discriminate.
  - exists a0, a1, (a2 ++ [(e, f)]). split; [exact I0|]. split; [exact I1|]. split.
    + unfold st1. cbn [vec set_vec Nat.eqb]. unfold extend. cbn [app]. rewrite Ev, map3_one, <- Ev. cbn [app].
      apply (acc_lane0 A (L * L) D_); auto. rewrite Ev. intros q l [= <-] Sq. eapply dot_fma; [exact Sq | reflexivity].
    + rewrite Fe, <- P, <- !app_assoc. reflexivity.
  - exists st2. replace n with (S n - 1) by lia. auto.
Qed.
Lemma one_dot_sse_ok n st : inv half false false (S n) st -> exists st', block (one_dot_sse esize) st = Some (st', Seq) /\ inv half false false n st' /\
  gpr A st' CX = (gpr A st CX + esize)%Z /\ gpr A st' BX = gpr A st BX /\ zf A st' = Nat.eqb n 0.
Proof.
  intros H. destruct (next_pair _ _ _ _ _ H) as (e & f & Me & Mf & Fe). pose proof H as (_ & _ & _ & _ & _ & a0 & a1 & a2 & I0 & I1 & I2 & P). subst a2.
  destruct (acc_nonempty A (L * L) D_ half _ _ half_pos I0) as (z & v & Ev).
  unfold one_dot_sse. cbn [app]. erewrite block_cons by (cbn [AsmModel.step]; rewrite Z.add_0_r, Me; reflexivity).
  erewrite block_cons by (cbn [AsmModel.step value AsmModel.read andb gpr mem set_vec]; rewrite Z.add_0_r, Mf; reflexivity).
  erewrite block_cons by (cbn [AsmModel.step value vec set_vec Nat.eqb]; reflexivity).
  match goal with |- context [set_vec A (set_vec A (set_vec A st 2 ?t) 2 ?u) 0 ?v] => set (st1 := set_vec A (set_vec A (set_vec A st 2 t) 2 u) 0 v) end.
  destruct (inva_next A esize half esize_pos half_pos width (L * L) D_ true F x1 x2 N (combine xs1 xs2) m0 LN half false false (S n) 1 (DecQ DX) st st1) as (st2 & B2 & I3 & C3 & D3 & Z3); auto; try lia; try discriminate.
  - exists (a0 ++ [(e, f)]), a1, []. split; [|split; [exact I1 | split; [reflexivity|]]].
    + unfold st1. cbn [vec set_vec Nat.eqb]. unfold extend. cbn [vec set_vec Nat.eqb app]. rewrite map2_one. cbn [app firstn]. rewrite Ev, map2_one, <- Ev. cbn [app].
      apply (acc_lane0 A (L * L) D_); auto. rewrite Ev. intros q l [= <-] Sq. apply dot_add'; [exact Sq | apply dot_one].
    + rewrite Fe, <- P, !app_nil_r, <- !app_assoc. apply Permutation_app_head, Permutation_app_comm.
  - exists st2. replace (S n - 1) with n in * by lia. cbn [ra rs] in C3, D3. change (Z.of_nat 1) with 1%Z in C3. rewrite Z.mul_1_r in C3. auto.
Qed.
End Dots.
Theorem dot_avx_ok : computes_dot A esize half (dot_avx esize half).
Proof.
  intros F st x1 x2 l1 l2 E1 E2 E3 L2 S1 S2 _. apply slice_read in S1, S2. rewrite L2 in S2.
  apply (accum_avx_ok A esize half esize_pos half_pos width (L * L) D_ (dot_zero A) dot_add' dot_perm true args_dot (body_dot_avx esize half) _ F x1 x2 (length l1) (combine l1 l2) (mem A st)); auto.
  - rewrite combine_length, L2. apply Nat.min_id.
  - intros k n s Hk. apply body_dot_avx_ok; auto. lia.
  - intros n s. apply one_dot_avx_ok; auto.
  - eexists. split; [reflexivity|]. cbn [gpr mem vec set_gpr set_vec greg_eqb Nat.eqb rc]. rewrite E1, E2, E3. repeat split; auto; cbn; lia.
Qed.
Lemma starts_dot F st x1 x2 (l1 : list L) : iarg A F "x1_base" = x1 -> iarg A F "x2_base" = x2 -> iarg A F "x1_len" = Z.of_nat (length l1) -> starts A esize half true F x1 x2 (length l1) (mem A st) args_dot st.
Proof.
  intros E1 E2 E3. eexists. split; [reflexivity|]. cbn [gpr mem set_gpr greg_eqb rc]. repeat split; auto; cbn [gpr set_gpr greg_eqb]; lia.
Qed.
Theorem dot_sse32_ok : esize = 4%Z -> computes_dot A esize half (accum_sse32 half true args_dot (body_dot_sse esize half) (one_dot_sse esize) (one_dot_sse esize)).
Proof.
  intros E4 F st x1 x2 l1 l2 E1 E2 E3 L2 S1 S2 Al. apply slice_read in S1, S2. rewrite L2 in S2.
  apply (accum_sse32_ok A esize half half_pos width (L * L) D_ (dot_zero A) dot_add' dot_perm true args_dot _ _ _ F x1 x2 (length l1) (combine l1 l2) (mem A st)); auto.
  - rewrite combine_length, L2. apply Nat.min_id.
  - intros k n s Hk. apply (body_dot_sse_ok F x1 x2 (length l1) l1 l2 (mem A st) S1 S2); auto. lia.
  - intros n s I. destruct (one_dot_sse_ok F x1 x2 (length l1) l1 l2 (mem A st) S1 S2 n s I) as (s' & B & I' & _). eauto.
  - intros n s. apply one_dot_sse_ok; auto.
  - now apply starts_dot.
Qed.
Theorem dot_sse64_ok : esize = 8%Z -> computes_dot A esize half (accum_sse64 half true args_dot (body_dot_sse esize half) (one_dot_sse esize) (one_dot_sse esize)).
Proof.
  intros E4 F st x1 x2 l1 l2 E1 E2 E3 L2 S1 S2 Al. apply slice_read in S1, S2. rewrite L2 in S2.
  apply (accum_sse64_ok A esize half half_pos width (L * L) D_ (dot_zero A) dot_add' dot_perm true args_dot _ _ _ F x1 x2 (length l1) (combine l1 l2) (mem A st)); auto.
  - rewrite combine_length, L2. apply Nat.min_id.
  - intros k n s Hk. apply (body_dot_sse_ok F x1 x2 (length l1) l1 l2 (mem A st) S1 S2); auto. lia.
  - intros n s I. destruct (one_dot_sse_ok F x1 x2 (length l1) l1 l2 (mem A st) S1 S2 n s I) as (s' & B & I' & _). eauto.
  - intros n s. apply one_dot_sse_ok; auto.
  - now apply starts_dot.
Qed.
End Kernels.
