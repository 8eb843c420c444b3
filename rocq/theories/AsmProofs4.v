(** * Proofs: kernels that accumulate *)
From Coq Require Import ZArith String Bool List Permutation Lia.
From Verif Require Import AsmModel AsmCode AsmSpec AsmLemmas AsmProofs AsmProofs2 AsmProofs3.
Import ListNotations.
Open Scope string_scope.
Open Scope list_scope.

(** ** Lanes that hold partial sums *)
Section Acc.
Variable A : lanes.
Notation L := (lane A).
Variable T : Type.
Variable S : L -> list T -> Prop.
Hypothesis S_zero : S (zero A) [].
Hypothesis S_add : forall a b l k, S a l -> S b k -> S (bin A Add a b) (l ++ k).
Hypothesis S_perm : forall a l k, S a l -> Permutation l k -> S a k.
Inductive accs : list L -> list T -> Prop :=
| accs_nil : accs [] []
| accs_cons v vs l a m : S v l -> accs vs a -> Permutation (l ++ a) m -> accs (v :: vs) m.
Lemma accs_perm vs a b : accs vs a -> Permutation a b -> accs vs b.
Proof.
  intros H. destruct H as [| v vs l a m H1 H2 H3]; intros P.
  - apply Permutation_nil in P. subst. constructor.
  - econstructor; eauto. etransitivity; eauto.
Qed.
Lemma accs_zero n : accs (repeat (zero A) n) [].
Proof. induction n; cbn; econstructor; eauto. Qed.
Lemma accs_add vs ws a b : length vs = length ws -> accs vs a -> accs ws b -> accs (map2 A (bin A Add) vs ws) (a ++ b).
Proof.
  intros E H. revert ws b E. induction H as [| v vs l a m H1 H2 IH H3]; intros [| w ws] b E K; inversion K; subst; try discriminate; cbn [map2 app].
  - constructor.
  - eapply accs_cons; [apply S_add; eassumption | apply IH; [now inversion E | eassumption] |].
    rewrite <- H3. match goal with H : Permutation _ b |- _ => rewrite <- H end.
    rewrite <- !app_assoc. apply Permutation_app_head. rewrite !app_assoc. apply Permutation_app_tail. apply Permutation_app_comm.
Qed.
Lemma accs_add' vs ws a b : accs vs a -> accs ws b -> length vs = length ws -> accs (map2 A (bin A Add) vs ws) (a ++ b).
Proof. intros H K E. now apply accs_add. Qed.
Lemma accs_app vs ws m : accs (vs ++ ws) m -> exists a b, accs vs a /\ accs ws b /\ Permutation (a ++ b) m.
Proof.
  revert m. induction vs as [| v vs IH]; intros m H; cbn in H.
  - exists [], m. split; [constructor | split; [exact H | reflexivity]].
  - inversion H as [| v' vs' l a m' H1 H2 H3]; subst. destruct (IH _ H2) as (b & c & K1 & K2 & K3).
    exists (l ++ b), c. split; [econstructor; eauto|]. split; [exact K2|]. rewrite <- H3, <- K3, app_assoc. reflexivity.
Qed.
Lemma accs_join a b vs m : accs (a :: b :: vs) m -> accs (bin A Add a b :: vs) m.
Proof.
  intros H. inversion H as [| v' vs' l k m' H1 H2 H3]; subst. inversion H2 as [| v' vs' l' k' m' H4 H5 H6]; subst.
  eapply accs_cons; [apply S_add; eassumption | eassumption |]. rewrite <- H3, <- H6, app_assoc. reflexivity.
Qed.
Lemma accs_tail v vs ws : (forall m, accs vs m -> accs ws m) -> forall m, accs (v :: vs) m -> accs (v :: ws) m.
Proof. intros H m K. inversion K; subst. econstructor; eauto. Qed.
Lemma accs_single v m : accs [v] m -> S v m.
Proof. intros H. inversion H as [| v' vs' l k m' H1 H2 H3]; subst. inversion H2; subst. rewrite app_nil_r in H3. eauto. Qed.
Lemma accs_four a b c d m : accs [a; b; c; d] m -> S (bin A Add (bin A Add a b) (bin A Add c d)) m.
Proof. intros H. apply accs_single, accs_join. revert m H. intros m H. apply accs_join in H. revert m H. apply accs_tail. intros m. apply accs_join. Qed.
Lemma accs_two a b m : accs [a; b] m -> S (bin A Add a b) m.
Proof. intros H. now apply accs_single, accs_join. Qed.

(** the first w lanes of v *)
Definition acc (w : nat) (v : list L) (a : list T) : Prop := length (firstn w v) = w /\ accs (firstn w v) a.
Lemma acc_perm w v a b : acc w v a -> Permutation a b -> acc w v b.
Proof. intros [H K] P. split; [exact H | eapply accs_perm; eauto]. Qed.
Lemma acc_app w v r a : length v = w -> accs v a -> acc w (v ++ r) a.
Proof. intros H K. unfold acc. rewrite firstn_len_app by exact H. auto. Qed.
(** the lowest lane *)
Lemma acc_lane0 w v a t (e : L) rest : 0 < w -> acc w v a -> (forall x l, hd_error v = Some x -> S x l -> S e (l ++ t)) ->
  acc w ((e :: skipn 1 (firstn w v)) ++ rest) (a ++ t).
Proof.
  intros W [H K] Q. destruct v as [| x v]; [destruct w; cbn in H; lia|]. destruct w as [| w]; [lia|]. cbn [firstn skipn] in *.
  inversion K as [| v' vs' l k m' H1 H2 H3]; subst. apply acc_app; [exact H|].
  eapply accs_cons; [apply (Q x l eq_refl H1) | eassumption |]. rewrite <- H3, <- !app_assoc. apply Permutation_app_head, Permutation_app_comm.
Qed.
Lemma acc_nonempty w v a : 0 < w -> acc w v a -> exists x v', v = x :: v'.
Proof. intros W [H _]. destruct v as [| x v]; [destruct w; cbn in H; lia | eauto]. Qed.
End Acc.

Section Kernels.
Variable A : lanes.
Variable esize : Z.
Variable half : nat.
Notation L := (lane A).
Hypothesis esize_pos : (0 < esize)%Z.
Hypothesis half_pos : 0 < half.
Hypothesis width : (esize * Z.of_nat half = 16)%Z.
Variable T : Type.
Variable S : L -> list T -> Prop.
Hypothesis S_zero : S (zero A) [].
Hypothesis S_add : forall a b l k, S a l -> S b k -> S (bin A Add a b) (l ++ k).
Hypothesis S_perm : forall a l k, S a l -> Permutation l k -> S a k.
Notation acc := (acc A T S).

(** ** A run of instructions that add to the registers 0 and 1 in turn *)
Section Phase.
Variable F : frame A.
Notation block := (block A esize half F).
Notation step := (step A esize half F).
Lemma acc_phase w n (f : nat -> instr) (chunk : nat -> list T) st a0 a1 :
  (forall j st' a, j < n -> same_but A 0 2 st st' -> acc w (vec A st' (j mod 2)) a ->
     exists v, step (f j) st' = Some (set_vec A st' (j mod 2) v, Seq) /\ acc w v (a ++ chunk j)) ->
  acc w (vec A st 0) a0 -> acc w (vec A st 1) a1 ->
  exists st' b0 b1, block (unroll n f) st = Some (st', Seq) /\ same_but A 0 2 st st' /\ acc w (vec A st' 0) b0 /\ acc w (vec A st' 1) b1 /\
    Permutation (b0 ++ b1) (a0 ++ a1 ++ concat (unroll n chunk)).
Proof.
  intros H H0 H1. induction n as [| n IH].
  - exists st, a0, a1. repeat split; auto; try apply H0; try apply H1. cbn. now rewrite app_nil_r.
  - destruct IH as (st1 & b0 & b1 & B1 & S1 & K0 & K1 & P); [intros j st' a Q; apply H; lia|].
    assert (Ku : block (unroll (Datatypes.S n) f) st = match step (f n) st1 with Some (s, Seq) => Some (s, Seq) | Some (s, k) => Some (s, k) | None => None end).
    { unfold unroll in *. rewrite seq_S, map_app, block_app, B1. cbn [map Nat.add AsmModel.block]. destruct (step (f n) st1) as [[s [| |]]|]; reflexivity. }
    assert (Cu : concat (unroll (Datatypes.S n) chunk) = concat (unroll n chunk) ++ chunk n).
    { unfold unroll. rewrite seq_S, map_app, concat_app. cbn [map Nat.add concat]. now rewrite app_nil_r. }
    pose proof (Nat.mod_upper_bound n 2 ltac:(lia)) as Q.
    destruct (n mod 2) as [| [| k]] eqn:E; [| |lia].
    + destruct (H n st1 b0 ltac:(lia) S1) as (v & Sv & Pv); [rewrite E; exact K0|]. rewrite E in Sv.
      exists (set_vec A st1 0 v), (b0 ++ chunk n), b1. rewrite Ku, Sv. split; [reflexivity|]. destruct S1 as (G1 & M1 & R1 & V1). split; [|split; [|split]].
      * repeat split; auto. intros r Hr. cbn [vec set_vec]. destruct (Nat.eqb_spec r 0); [lia|]. apply V1. lia.
      * exact Pv.
      * exact K1.
      * rewrite Cu, !app_assoc. rewrite !app_assoc in P. rewrite <- P. rewrite <- !app_assoc. apply Permutation_app_head, Permutation_app_comm.
    + destruct (H n st1 b1 ltac:(lia) S1) as (v & Sv & Pv); [rewrite E; exact K1|]. rewrite E in Sv.
      exists (set_vec A st1 1 v), b0, (b1 ++ chunk n). rewrite Ku, Sv. split; [reflexivity|]. destruct S1 as (G1 & M1 & R1 & V1). split; [|split; [|split]].
      * repeat split; auto. intros r Hr. cbn [vec set_vec]. destruct (Nat.eqb_spec r 1); [lia|]. apply V1. lia.
      * exact K0.
      * exact Pv.
      * rewrite Cu, !app_assoc. rewrite !app_assoc in P. now rewrite <- P.
Qed.
End Phase.

(** ** The shape of the code, for one slice (sums) or two (dot products) *)
Variable two : bool.
Definition rc : greg := if two then DX else CX.  (* elements that remain *)
Definition ra : greg := if two then CX else AX.  (* the address that must be aligned *)
Definition rs : greg := if two then BX else DX.  (* elements up to the next aligned one *)
Definition forth (bytes : Z) : list instr := AddQ bytes AX :: if two then [AddQ bytes CX] else [].
Variables (args : list instr) (body : nat -> list instr) (one lone : list instr).
Definition finish_avx : list instr :=
  [Bin Add Y true (Reg 0) 1 0; Extract 0 1; Bin Add X true (Reg 0) 1 0; Bin Add X true (Reg 0) 2 0] ++ repeat (Hadd true 0 0 0) (if Nat.eqb half 4 then 2 else 1) ++ [Result 0; Ret].
Definition finish_sse : list instr :=
  [Bin Add X false (Reg 1) 0 0] ++ repeat (Hadd false 0 0 0) (if Nat.eqb half 4 then 2 else 1) ++ [Result 0; Ret].
Definition ends (last : list instr) : code := [("tailLoop", [CmpQ rc 0; Je "reduce"] ++ one ++ [Jmp "tailLoop"]); ("reduce", last)].
Definition accum_avx (clear : list instr) : code :=
  ("entry", args ++ clear) :: loops4 rc (lanes_of half Y) body "tail" (("tail", [Clear X true 2]) :: ends finish_avx).
Definition loops_sse : code := ("unrolledLoops", []) :: loops4 rc (lanes_of half X) body "tailLoop" (ends finish_sse).
Definition start_sse : list instr := [Clear X false 0; Clear X false 1; CmpQ rc 0; Je "reduce"; MovQ ra rs; AndQ 15 rs; Je "unrolledLoops"].
Definition accum_sse32 : code :=
  ("entry", args ++ start_sse ++ [XorQ 15 rs; IncQ rs; ShrQ 2 rs]) ::
  ("alignmentLoop", lone ++ [Je "reduce"; DecQ rs; Jne "alignmentLoop"]) :: loops_sse.
Definition accum_sse64 : code := ("entry", args ++ start_sse ++ lone) :: loops_sse.

Variable F : frame A.
Variables (x1 x2 : Z) (N : nat) (ts : list T) (m0 : Z -> option L).
Hypothesis ts_length : length ts = N.
Notation block := (block A esize half F).
Notation reach := (reach A esize half F).
Definition at_ (k : nat) (g : greg -> Z) : Prop :=
  g AX = (x1 + esize * Z.of_nat k)%Z /\ (two = true -> g CX = (x2 + esize * Z.of_nat k)%Z).
(** n elements remain; the sums of the others are in the first w lanes of the registers 0 and 1, and in the tail of 2 *)
Definition inva (w : nat) (tail al : bool) (n : nat) (st : state A) : Prop :=
  n <= N /\ at_ (N - n) (gpr A st) /\ gpr A st rc = Z.of_nat n /\ mem A st = m0 /\ (al = true -> (gpr A st ra mod 16 = 0)%Z) /\
  exists a0 a1 a2, acc w (vec A st 0) a0 /\ acc w (vec A st 1) a1 /\ (if tail then acc half (vec A st 2) a2 else a2 = []) /\
    Permutation (a0 ++ a1 ++ a2) (firstn (N - n) ts).
Lemma inva_same w tail al n st st' : inva w tail al n st -> same A st st' -> inva w tail al n st'.
Proof. intros H (G & V & M & _). unfold inva in *. rewrite G, M, V. exact H. Qed.
Lemma inva_rc w tail al n st : inva w tail al n st -> gpr A st rc = Z.of_nat n.
Proof. intros (_ & _ & H & _). exact H. Qed.
Lemma inva_weaken w tail al n st : inva w tail al n st -> inva w tail false n st.
Proof. intros (H1 & H2 & H3 & H4 & _ & H5). repeat split; auto; try apply H2. discriminate. Qed.
Lemma forth_ok bytes c st : (c = DecQ rc \/ exists k, c = SubQ k rc) ->
  exists st', block (forth bytes ++ [c]) st = Some (st', Seq) /\ vec A st' = vec A st /\ mem A st' = mem A st /\
    gpr A st' AX = (gpr A st AX + bytes)%Z /\ (two = true -> gpr A st' CX = gpr A st CX + bytes)%Z /\
    gpr A st' rs = gpr A st rs /\ gpr A st' rc = (gpr A st rc - match c with SubQ k _ => k | _ => 1 end)%Z /\ zf A st' = (gpr A st' rc =? 0)%Z.
Proof.
  unfold forth, rc, rs. destruct two; intros [-> | [k ->]]; (eexists; split; [reflexivity|]; repeat split); discriminate.
Qed.
(** the end of a body: k more elements are added *)
Lemma inva_next w tail al n k c st0 st : (c = DecQ rc /\ k = 1 \/ c = SubQ (Z.of_nat k) rc) -> inva w tail al n st0 -> k <= n ->
  gpr A st = gpr A st0 -> mem A st = mem A st0 -> (al = true -> (esize * Z.of_nat k) mod 16 = 0)%Z ->
  (exists a0 a1 a2, acc w (vec A st 0) a0 /\ acc w (vec A st 1) a1 /\ (if tail then acc half (vec A st 2) a2 else a2 = []) /\
    Permutation (a0 ++ a1 ++ a2) (firstn (N - n) ts ++ firstn k (skipn (N - n) ts))) ->
  exists st', block (forth (esize * Z.of_nat k) ++ [c]) st = Some (st', Seq) /\ inva w tail al (n - k) st' /\
    gpr A st' ra = (gpr A st0 ra + esize * Z.of_nat k)%Z /\ gpr A st' rs = gpr A st0 rs /\ zf A st' = Nat.eqb (n - k) 0.
Proof.
  intros Hc (Q & (G1 & G2) & G3 & M & Al & _) Hk G M' Ak (a0 & a1 & a2 & K0 & K1 & K2 & P).
  destruct (forth_ok (esize * Z.of_nat k) c st) as (st' & B & V & M2 & X1 & X2 & X3 & X4 & X5); [destruct Hc as [[-> _] | ->]; eauto|].
  assert (X4' : gpr A st' rc = Z.of_nat (n - k)) by (rewrite X4, G, G3; destruct Hc as [[-> ->] | ->]; lia).
  assert (X6 : gpr A st' ra = (gpr A st0 ra + esize * Z.of_nat k)%Z) by (rewrite <- G; unfold ra in *; destruct two; [apply X2; reflexivity | exact X1]).
  exists st'. split; [exact B|]. split; [|split; [exact X6 | split; [now rewrite X3, G | rewrite X5, X4']]].
  - split; [lia|]. replace (N - (n - k)) with ((N - n) + k) by lia. split; [|split; [exact X4' | split; [now rewrite M2, M'|]]].
    + split; [rewrite X1, G, G1; lia|]. intros E. rewrite X2, G, G2 by exact E. lia.
    + split.
      * intros E. rewrite X6. rewrite Z.add_mod, (Al E), (Ak E) by lia. reflexivity.
      * exists a0, a1, a2. rewrite V, firstn_add. auto.
  - destruct (n - k); [reflexivity|]. cbn [Nat.eqb]. apply Z.eqb_neq. lia.
Qed.

(** ** The last steps *)
Lemma finish_avx_ok st a0 a1 a2 : half = 4 \/ half = 2 -> acc (half + half) (vec A st 0) a0 -> acc (half + half) (vec A st 1) a1 -> acc half (vec A st 2) a2 ->
  exists st' v, block finish_avx st = Some (st', Return) /\ ret A st' = Some v /\ S v (a0 ++ a1 ++ a2) /\ mem A st' = mem A st.
Proof.
  intros Hh [L0 H0] [L1 H1] [L2 H2].
  destruct (vec A st 0) as [| p0 v0] eqn:E0; [destruct half; cbn in L0; lia|].
  pose proof (accs_add A T S S_add _ _ _ _ (eq_trans L1 (eq_sym L0)) H1 H0) as H3.
  unfold finish_avx. destruct Hh as [Hh | Hh]; rewrite Hh in *.
  - rewrite <- E0 in *.
    destruct (vec A st 0) as [| p0' [| p1 [| p2 [| p3 [| p4 [| p5 [| p6 [| p7 v0']]]]]]]] eqn:E0'; cbn in L0; try lia.
    destruct (vec A st 1) as [| q0 [| q1 [| q2 [| q3 [| q4 [| q5 [| q6 [| q7 v1']]]]]]]] eqn:E1; cbn in L1; try lia.
    destruct (vec A st 2) as [| r0 [| r1 [| r2 [| r3 v2']]]] eqn:E2; cbn in L2; try lia.
    cbn [firstn map2 Nat.add] in H0, H1, H2, H3.
    eexists. eexists. split; [cbn [Nat.eqb repeat app AsmModel.block AsmModel.step value vec set_vec lanes_of Nat.add]; rewrite E0', E1; cbn [Nat.eqb firstn map2 extend app skipn length Nat.sub Nat.add repeat vec set_vec]; rewrite E2; cbn [firstn map2 app pairs]; reflexivity|].
    split; [reflexivity|]. split; [|reflexivity].
    match type of H3 with accs _ _ _ ([?a; ?b; ?c; ?d; ?e; ?f; ?g; ?h]) _ => apply (accs_app A T S [a; b; c; d] [e; f; g; h]) in H3 end.
    destruct H3 as (b0 & b1 & K0 & K1 & P).
    pose proof (accs_add' A T S S_add _ _ _ _ H2 (accs_add' A T S S_add _ _ _ _ K1 K0 eq_refl) eq_refl) as H4.
    cbn [map2] in H4. apply (S_perm _ (a2 ++ b1 ++ b0)); [now apply (accs_four A T S S_add S_perm)|].
    rewrite (Permutation_app_comm b1 b0), P, Permutation_app_comm, (Permutation_app_comm a1 a0), app_assoc. reflexivity.
  - rewrite <- E0 in *.
    destruct (vec A st 0) as [| p0' [| p1 [| p2 [| p3 v0']]]] eqn:E0'; cbn in L0; try lia.
    destruct (vec A st 1) as [| q0 [| q1 [| q2 [| q3 v1']]]] eqn:E1; cbn in L1; try lia.
    destruct (vec A st 2) as [| r0 [| r1 v2']] eqn:E2; cbn in L2; try lia.
    cbn [firstn map2 Nat.add] in H0, H1, H2, H3.
    eexists. eexists. split; [cbn [Nat.eqb repeat app AsmModel.block AsmModel.step value vec set_vec lanes_of Nat.add]; rewrite E0', E1; cbn [Nat.eqb firstn map2 extend app skipn length Nat.sub Nat.add repeat vec set_vec]; rewrite E2; cbn [firstn map2 app pairs]; reflexivity|].
    split; [reflexivity|]. split; [|reflexivity].
    match type of H3 with accs _ _ _ ([?a; ?b; ?c; ?d]) _ => apply (accs_app A T S [a; b] [c; d]) in H3 end.
    destruct H3 as (b0 & b1 & K0 & K1 & P).
    pose proof (accs_add' A T S S_add _ _ _ _ H2 (accs_add' A T S S_add _ _ _ _ K1 K0 eq_refl) eq_refl) as H4.
    cbn [map2] in H4. apply (S_perm _ (a2 ++ b1 ++ b0)); [now apply (accs_two A T S S_add S_perm)|].
    rewrite (Permutation_app_comm b1 b0), P, Permutation_app_comm, (Permutation_app_comm a1 a0), app_assoc. reflexivity.
Qed.
Lemma finish_sse_ok st a0 a1 : half = 4 \/ half = 2 -> acc half (vec A st 0) a0 -> acc half (vec A st 1) a1 ->
  exists st' v, block finish_sse st = Some (st', Return) /\ ret A st' = Some v /\ S v (a0 ++ a1) /\ mem A st' = mem A st.
Proof.
  intros Hh [L0 H0] [L1 H1].
  pose proof (accs_add A T S S_add _ _ _ _ (eq_trans L0 (eq_sym L1)) H0 H1) as H3.
  unfold finish_sse. destruct Hh as [Hh | Hh]; rewrite Hh in *.
  - destruct (vec A st 0) as [| p0 [| p1 [| p2 [| p3 v0]]]] eqn:E0; cbn in L0; try lia.
    destruct (vec A st 1) as [| q0 [| q1 [| q2 [| q3 v1]]]] eqn:E1; cbn in L1; try lia.
    eexists. eexists. split; [cbn [Nat.eqb repeat app AsmModel.block AsmModel.step value vec set_vec lanes_of Nat.add]; rewrite E0, E1; cbn [Nat.eqb firstn map2 extend app skipn length Nat.sub Nat.add repeat vec set_vec pairs]; reflexivity|].
    split; [reflexivity|]. split; [|reflexivity]. now apply (accs_four A T S S_add S_perm).
  - destruct (vec A st 0) as [| p0 [| p1 v0]] eqn:E0; cbn in L0; try lia.
    destruct (vec A st 1) as [| q0 [| q1 v1]] eqn:E1; cbn in L1; try lia.
    eexists. eexists. split; [cbn [Nat.eqb repeat app AsmModel.block AsmModel.step value vec set_vec lanes_of Nat.add]; rewrite E0, E1; cbn [Nat.eqb firstn map2 extend app skipn length Nat.sub Nat.add repeat vec set_vec pairs]; reflexivity|].
    split; [reflexivity|]. split; [|reflexivity]. now apply (accs_two A T S S_add S_perm).
Qed.

(** ** Whole functions *)
Hypothesis halves : half = 4 \/ half = 2.
Definition starts (l : list instr) (st : state A) : Prop := exists st', block l st = Some (st', Seq) /\ at_ 0 (gpr A st') /\ gpr A st' rc = Z.of_nat N /\ mem A st' = m0.
Definition sums (c : code) (st : state A) : Prop :=
  exists st' v, returns A esize half F c st st' /\ ret A st' = Some v /\ S v ts /\ mem A st' = m0.

Theorem accum_avx_ok clear st :
  (forall k n st, k = 14 \/ k = 8 \/ k = 4 \/ k = 1 -> lanes_of half Y * k <= n -> inva (lanes_of half Y) false false n st ->
     exists st', block (body k) st = Some (st', Seq) /\ inva (lanes_of half Y) false false (n - lanes_of half Y * k) st') ->
  (forall n st, inva (lanes_of half Y) true false (Datatypes.S n) st -> exists st', block one st = Some (st', Seq) /\ inva (lanes_of half Y) true false n st') ->
  (exists st1, block (args ++ clear) st = Some (st1, Seq) /\ at_ 0 (gpr A st1) /\ gpr A st1 rc = Z.of_nat N /\ mem A st1 = m0 /\
     vec A st1 0 = repeat (zero A) (half + half) /\ vec A st1 1 = repeat (zero A) (half + half)) ->
  sums (accum_avx clear) st.
Proof.
  intros Hb Ho (st1 & B1 & At & Rc & M1 & V0 & V1). set (whole := accum_avx clear).
  assert (I1 : inva (lanes_of half Y) false false N st1).
  { split; [lia|]. rewrite Nat.sub_diag. split; [exact At|]. split; [exact Rc|]. split; [exact M1|]. split; [discriminate|].
    exists [], [], []. rewrite V0, V1. assert (Z0 : acc (half + half) (repeat (zero A) (half + half)) []).
    { split; rewrite firstn_all2 by (rewrite repeat_length; lia); [apply repeat_length | now apply accs_zero]. }
    repeat split; try apply Z0; cbn; reflexivity. }
  destruct (loops4_ok A esize half F whole rc (lanes_of half Y) body "tail" (("tail", [Clear X true 2]) :: ends finish_avx) (("tail", [Clear X true 2]) :: ends finish_avx) (inva (lanes_of half Y) false false)) with (n := N) (st := st1) as (n2 & st2 & I2 & R2); try reflexivity; auto.
  { cbn; lia. } { intros n s. apply inva_rc. } { intros n s s'. apply inva_same. }
  assert (I3 : exists st3, block [Clear X true 2] st2 = Some (st3, Seq) /\ inva (lanes_of half Y) true false n2 st3).
  { eexists. split; [reflexivity|]. destruct I2 as (K1 & K2 & K3 & K4 & K5 & a0 & a1 & a2 & K6 & K7 & -> & K8). repeat split; auto; try apply K2.
    exists a0, a1, []. cbn [vec set_vec Nat.eqb]. repeat split; auto; try apply K6; try apply K7.
    - unfold extend. rewrite firstn_len_app; apply repeat_length.
    - unfold extend. rewrite firstn_len_app by apply repeat_length. now apply accs_zero. }
  destruct I3 as (st3 & B3 & I3).
  destruct (tail_loop A esize half F whole "tailLoop" "reduce" rc one [("reduce", finish_avx)] [("reduce", finish_avx)] (inva (lanes_of half Y) true false)) with (n := n2) (st := st3) as (st4 & I4 & R4); try reflexivity; auto.
  { intros n s. apply inva_rc. } { intros n s s'. apply inva_same. }
  destruct I4 as (_ & _ & _ & K4 & _ & a0 & a1 & a2 & K6 & K7 & K8 & K9).
  destruct (finish_avx_ok st4 a0 a1 a2 halves K6 K7 K8) as (st5 & v & B5 & Rv & Sv & M5).
  exists st5, v. split; [|split; [exact Rv | split; [|now rewrite M5]]].
  - eapply reach_return; [|exact B5]. eapply reach_trans; [apply reach_fall; exact B1|]. eapply reach_trans; [exact R2|]. eapply reach_trans; [apply reach_fall; exact B3 | exact R4].
  - eapply S_perm; [exact Sv|]. rewrite K9, Nat.sub_0_r, firstn_all2 by lia. reflexivity.
Qed.

(** SSE: from the loops on *)
Hypothesis sse_body : forall k n st, k = 14 \/ k = 8 \/ k = 4 \/ k = 1 -> lanes_of half X * k <= n -> inva half false true n st ->
  exists st', block (body k) st = Some (st', Seq) /\ inva half false true (n - lanes_of half X * k) st'.
Hypothesis sse_one : forall n st, inva half false false (Datatypes.S n) st -> exists st', block one st = Some (st', Seq) /\ inva half false false n st'.
Hypothesis sse_lone : forall n st, inva half false false (Datatypes.S n) st -> exists st', block lone st = Some (st', Seq) /\ inva half false false n st' /\
  gpr A st' ra = (gpr A st ra + esize)%Z /\ gpr A st' rs = gpr A st rs /\ zf A st' = Nat.eqb n 0.
Lemma reduce_sse whole c st st1 : reach whole c st [("reduce", finish_sse)] st1 -> inva half false false 0 st1 ->
  exists fuel st' v, run A esize half F fuel whole c st = Some (Some st') /\ ret A st' = Some v /\ S v ts /\ mem A st' = m0.
Proof.
  intros R (_ & _ & _ & K4 & _ & a0 & a1 & a2 & K6 & K7 & -> & K9).
  destruct (finish_sse_ok st1 a0 a1 halves K6 K7) as (st5 & v & B5 & Rv & Sv & M5).
  destruct (reach_return A esize half F whole _ _ _ _ _ _ _ R B5) as [fuel E]. exists fuel, st5, v. split; [exact E|]. split; [exact Rv|]. split; [|now rewrite M5].
  eapply S_perm; [exact Sv|]. rewrite app_nil_r in K9. rewrite K9, Nat.sub_0_r, firstn_all2 by lia. reflexivity.
Qed.
Lemma loops_sse_ok whole n st : from_label whole "unrolledLoop14" = Some (skipn 1 loops_sse) -> from_label whole "unrolledLoop8" = Some (skipn 2 loops_sse) ->
  from_label whole "unrolledLoop4" = Some (skipn 3 loops_sse) -> from_label whole "unrolledLoop1" = Some (skipn 4 loops_sse) ->
  from_label whole "tailLoop" = Some (skipn 5 loops_sse) -> from_label whole "reduce" = Some [("reduce", finish_sse)] ->
  inva half false true n st -> exists st', inva half false false 0 st' /\ reach whole loops_sse st [("reduce", finish_sse)] st'.
Proof.
  intros F1 F2 F3 F4 F5 F6 I1.
  destruct (loops4_ok A esize half F whole rc (lanes_of half X) body "tailLoop" (ends finish_sse) (ends finish_sse) (inva half false true)) with (n := n) (st := st) as (n2 & st2 & I2 & R2); eauto.
  { intros k s. apply inva_rc. } { intros k s s'. apply inva_same. }
  apply inva_weaken in I2.
  destruct (tail_loop A esize half F whole "tailLoop" "reduce" rc one [("reduce", finish_sse)] [("reduce", finish_sse)] (inva half false false)) with (n := n2) (st := st2) as (st4 & I4 & R4); eauto.
  { intros k s. apply inva_rc. } { intros k s s'. apply inva_same. }
  exists st4. split; [exact I4|]. eapply reach_trans; [apply reach_fall; reflexivity|]. eapply reach_trans; [exact R2 | exact R4].
Qed.
Lemma rs_rc : greg_eqb rc rs = false. Proof. unfold rc, rs. destruct two; reflexivity. Qed.
Lemma rs_ra : greg_eqb ra rs = false. Proof. unfold ra, rs. destruct two; reflexivity. Qed.
Lemma rs_rs : greg_eqb rs rs = true. Proof. unfold rs. destruct two; reflexivity. Qed.
Lemma inva_rs w tail al n st st' : inva w tail al n st -> vec A st' = vec A st -> mem A st' = mem A st ->
  (forall r, greg_eqb r rs = false -> gpr A st' r = gpr A st r) -> inva w tail al n st'.
Proof.
  intros (K1 & (K2 & K2') & K3 & K4 & K5 & K6) V M G. unfold inva. rewrite V, M, (G rc rs_rc), (G ra rs_ra). repeat split; auto.
  - rewrite G by (unfold rs; destruct two; reflexivity). exact K2.
  - intros E. rewrite G by (unfold rs; rewrite E; reflexivity). auto.
Qed.
(** the entry, up to the test of the alignment *)
Lemma start_ok st rest : starts args st ->
  exists st1, (N = 0 /\ block (args ++ start_sse ++ rest) st = Some (st1, Goto "reduce") /\ inva half false false 0 st1) \/
    (0 < N /\ ((if two then x2 else x1) mod 16 = 0)%Z /\ block (args ++ start_sse ++ rest) st = Some (st1, Goto "unrolledLoops") /\ inva half false true N st1) \/
    (0 < N /\ ((if two then x2 else x1) mod 16 <> 0)%Z /\ block (args ++ start_sse ++ rest) st = block rest st1 /\ inva half false false N st1 /\
       gpr A st1 ra = (if two then x2 else x1) /\ gpr A st1 rs = ((if two then x2 else x1) mod 16)%Z).
Proof.
  intros (st0 & B0 & At & Rc & M0). unfold start_sse. set (xa := (if two then x2 else x1)).
  assert (Ra : gpr A st0 ra = xa).
  { unfold ra, xa. destruct At as [At1 At2]. change (Z.of_nat 0) with 0%Z in *. rewrite Z.mul_0_r, Z.add_0_r in *. destruct two; auto. }
  set (v1 := set_vec A (set_vec A st0 0 (extend A half st0 false 0 (repeat (zero A) half))) 1 (extend A half (set_vec A st0 0 (extend A half st0 false 0 (repeat (zero A) half))) false 1 (repeat (zero A) half))).
  set (st1 := mkState A (gpr A v1) (vec A v1) (mem A v1) (gpr A v1 rc =? 0)%Z (gpr A v1 rc <? 0)%Z (ret A v1)).
  assert (I1 : inva half false false N st1).
  { split; [lia|]. rewrite Nat.sub_diag. split; [exact At|]. split; [exact Rc|]. split; [exact M0|]. split; [discriminate|].
    exists [], [], []. repeat split; try reflexivity; unfold st1, v1; cbn [vec set_vec Nat.eqb]; unfold extend; rewrite firstn_len_app; try apply repeat_length; now apply accs_zero. }
  destruct (Nat.eq_dec N 0) as [E | E].
  - exists st1. left. split; [exact E|]. split; [|rewrite <- E; exact I1].
    rewrite block_app, B0. cbn [app AsmModel.block AsmModel.step lanes_of]. fold v1. fold st1. replace (zf A st1) with true; [reflexivity|].
    unfold st1, v1. cbn [zf gpr set_vec]. rewrite Rc, E. reflexivity.
  - set (st2 := set_zf A (set_gpr A (set_gpr A st1 rs (gpr A st1 ra)) rs (Z.land (gpr A st1 ra) 15)) (Z.land (gpr A st1 ra) 15 =? 0)%Z).
    assert (I2 : inva half false false N st2).
    { apply (inva_rs _ _ _ _ st1); auto. intros r Hr. unfold st2. cbn [gpr set_zf set_gpr]. now rewrite Hr. }
    assert (R1 : gpr A st1 ra = xa) by exact Ra.
    assert (B2 : block (args ++ [Clear X false 0; Clear X false 1; CmpQ rc 0; Je "reduce"; MovQ ra rs; AndQ 15 rs; Je "unrolledLoops"] ++ rest) st =
                 if zf A st2 then Some (st2, Goto "unrolledLoops") else block rest st2).
    { rewrite block_app, B0. cbn [app AsmModel.block AsmModel.step lanes_of]. fold v1. fold st1. replace (zf A st1) with false.
      2:{ unfold st1, v1. cbn [zf gpr set_vec]. symmetry. rewrite Rc. apply Z.eqb_neq. lia. }
      cbn [gpr set_gpr]. rewrite rs_rs. fold st2. destruct (zf A st2); reflexivity. }
    assert (Zf : zf A st2 = (xa mod 16 =? 0)%Z) by (unfold st2; cbn [zf set_zf]; rewrite R1, land15; reflexivity).
    assert (R2 : gpr A st2 ra = xa) by (unfold st2; cbn [gpr set_zf set_gpr]; rewrite rs_ra; exact R1).
    rewrite Zf in B2. exists st2. right. destruct (Z.eqb_spec (xa mod 16) 0) as [Q | Q]; [left | right].
    + split; [lia|]. split; [exact Q|]. split; [exact B2|]. destruct I2 as (K1 & K2 & K3 & K4 & _ & K6). repeat split; auto; try apply K2.
      intros _. rewrite R2. exact Q.
    + split; [lia|]. split; [exact Q|]. split; [exact B2|]. split; [exact I2|]. split; [exact R2|].
      unfold st2. cbn [gpr set_zf set_gpr]. rewrite rs_rs, R1, land15. reflexivity.
Qed.
Lemma lone_loop whole : from_label whole "reduce" = Some [("reduce", finish_sse)] ->
  let me := ("alignmentLoop", lone ++ [Je "reduce"; DecQ rs; Jne "alignmentLoop"]) :: loops_sse in
  from_label whole "alignmentLoop" = Some me ->
  forall t r st, inva half false false (Datatypes.S r) st -> gpr A st rs = Z.of_nat (Datatypes.S t) -> ((gpr A st ra + esize * Z.of_nat (Datatypes.S t)) mod 16 = 0)%Z ->
    exists r' st', (inva half false false 0 st' /\ reach whole me st [("reduce", finish_sse)] st') \/ (inva half false true r' st' /\ reach whole me st loops_sse st').
Proof.
  intros Fe me Fm. induction t as [| t IH]; intros r st I Si Al; destruct (sse_lone r st I) as (st1 & B1 & I1 & C1 & S1 & Z1).
  - destruct r as [| r].
    + exists 0, st1. left. split; [exact I1|]. apply (reach_goto A esize half F whole _ _ loops_sse st st1 "reduce"); [|exact Fe].
      rewrite block_app, B1. cbn [AsmModel.block AsmModel.step]. now rewrite Z1.
    + set (st2 := set_zf A (set_gpr A st1 rs (gpr A st1 rs - 1)) (gpr A st1 rs - 1 =? 0)%Z).
      assert (I2 : inva half false false (Datatypes.S r) st2) by (apply (inva_rs _ _ _ _ st1); auto; intros q Hq; unfold st2; cbn [gpr set_zf set_gpr]; now rewrite Hq).
      exists (Datatypes.S r), st2. right. split.
      * destruct I2 as (K1 & K2 & K3 & K4 & _ & K6). repeat split; auto; try apply K2. intros _. unfold st2. cbn [gpr set_zf set_gpr]. rewrite rs_ra, C1.
        change (Z.of_nat 1) with 1%Z in Al. rewrite Z.mul_1_r in Al. exact Al.
      * apply reach_fall. rewrite block_app, B1. cbn [AsmModel.block AsmModel.step]. rewrite Z1. cbn [Nat.eqb]. fold st2. replace (zf A st2) with true; [reflexivity|].
        unfold st2. cbn [zf set_zf]. now rewrite S1, Si.
  - destruct r as [| r].
    + exists 0, st1. left. split; [exact I1|]. apply (reach_goto A esize half F whole _ _ loops_sse st st1 "reduce"); [|exact Fe].
      rewrite block_app, B1. cbn [AsmModel.block AsmModel.step]. now rewrite Z1.
    + set (st2 := set_zf A (set_gpr A st1 rs (gpr A st1 rs - 1)) (gpr A st1 rs - 1 =? 0)%Z).
      assert (I2 : inva half false false (Datatypes.S r) st2) by (apply (inva_rs _ _ _ _ st1); auto; intros q Hq; unfold st2; cbn [gpr set_zf set_gpr]; now rewrite Hq).
      destruct (IH r st2 I2) as (r' & st' & K).
      * unfold st2. cbn [gpr set_zf set_gpr]. rewrite rs_rs, S1, Si. lia.
      * unfold st2. cbn [gpr set_zf set_gpr]. rewrite rs_ra, C1. rewrite <- Al. f_equal. lia.
      * assert (Re : reach whole me st me st2).
        { apply (reach_goto A esize half F whole _ _ loops_sse st st2 "alignmentLoop"); [|exact Fm].
          rewrite block_app, B1. cbn [AsmModel.block AsmModel.step]. rewrite Z1. cbn [Nat.eqb]. fold st2. replace (zf A st2) with false; [reflexivity|].
          unfold st2. cbn [zf set_zf]. symmetry. apply Z.eqb_neq. rewrite S1, Si. lia. }
        exists r', st'. destruct K as [[K1 K2] | [K1 K2]]; [left | right]; (split; [exact K1|]); eapply reach_trans; eauto.
Qed.
Lemma conclude whole st st1 : reach whole whole st [("reduce", finish_sse)] st1 -> inva half false false 0 st1 -> sums whole st.
Proof. intros R I. destruct (reduce_sse whole whole st st1 R I) as (fuel & st' & v & E & K). exists st', v. split; [exists fuel; exact E | exact K]. Qed.
Theorem accum_sse32_ok st : esize = 4%Z -> starts args st -> ((if two then x2 else x1) mod esize = 0)%Z -> sums accum_sse32 st.
Proof.
  intros E4 St Al. destruct (start_ok st [XorQ 15 rs; IncQ rs; ShrQ 2 rs] St) as (st1 & [(E & B & I) | [(E & Q & B & I) | (E & Q & B & I & Ra & Rs)]]).
  - apply (conclude _ st st1); [|exact I]. apply (reach_goto A esize half F _ _ _ _ _ _ "reduce"); [exact B | reflexivity].
  - destruct (loops_sse_ok accum_sse32 N st1) as (st2 & I2 & R2); try reflexivity; auto. apply (conclude _ st st2); [|exact I2].
    eapply reach_trans; [|exact R2]. apply (reach_goto A esize half F _ _ _ _ _ _ "unrolledLoops"); [exact B | reflexivity].
  - set (xa := (if two then x2 else x1)) in *. rewrite E4 in Al.
    assert (M4 : (xa mod 16 mod 4 = 0)%Z) by (rewrite (Znumtheory.Zmod_div_mod 4 16 xa) in Al; [exact Al | lia | lia | exists 4%Z; reflexivity]).
    pose proof (Z.mod_pos_bound xa 16 ltac:(lia)) as Bd. destruct (si_32 (xa mod 16) ltac:(lia) M4) as (t & T1 & T2).
    assert (B2 : exists st2, block [XorQ 15 rs; IncQ rs; ShrQ 2 rs] st1 = Some (st2, Seq) /\ inva half false false N st2 /\ gpr A st2 ra = xa /\ gpr A st2 rs = Z.of_nat (Datatypes.S t)).
    { eexists. split; [reflexivity|]. split; [|split].
      - apply (inva_rs _ _ _ _ st1); auto. intros q Hq. cbn [gpr set_zf set_gpr]. now rewrite !Hq.
      - cbn [gpr set_zf set_gpr]. now rewrite !rs_ra.
      - cbn [gpr set_zf set_gpr]. rewrite !rs_rs, Rs. exact T1. }
    destruct B2 as (st2 & B2 & I2 & Ra2 & Rs2). rewrite B2 in B. assert (EN : exists r, N = Datatypes.S r) by (exists (N - 1); lia). destruct EN as [r EN]. assert (I2r : inva half false false (Datatypes.S r) st2) by (rewrite <- EN; exact I2).
    destruct (lone_loop accum_sse32 eq_refl eq_refl t r st2 I2r Rs2) as (r' & st3 & [[I3 R3] | [I3 R3]]).
    { rewrite Ra2, E4. rewrite (Z.div_mod xa 16) by lia.
      replace (16 * (xa / 16) + xa mod 16 + 4 * Z.of_nat (Datatypes.S t))%Z with (0 + (xa / 16 + 1) * 16)%Z by lia. rewrite Z.mod_add by lia. reflexivity. }
    + apply (conclude _ st st3); [|exact I3]. eapply reach_trans; [|exact R3]. apply reach_fall. exact B.
    + destruct (loops_sse_ok accum_sse32 r' st3) as (st4 & I4 & R4); try reflexivity; auto. apply (conclude _ st st4); [|exact I4].
      eapply reach_trans; [|exact R4]. eapply reach_trans; [|exact R3]. apply reach_fall. exact B.
Qed.
Theorem accum_sse64_ok st : esize = 8%Z -> starts args st -> ((if two then x2 else x1) mod esize = 0)%Z -> sums accum_sse64 st.
Proof.
  intros E8 St Al. destruct (start_ok st lone St) as (st1 & [(E & B & I) | [(E & Q & B & I) | (E & Q & B & I & Ra & Rs)]]).
  - apply (conclude _ st st1); [|exact I]. apply (reach_goto A esize half F _ _ _ _ _ _ "reduce"); [exact B | reflexivity].
  - destruct (loops_sse_ok accum_sse64 N st1) as (st2 & I2 & R2); try reflexivity; auto. apply (conclude _ st st2); [|exact I2].
    eapply reach_trans; [|exact R2]. apply (reach_goto A esize half F _ _ _ _ _ _ "unrolledLoops"); [exact B | reflexivity].
  - set (xa := (if two then x2 else x1)) in *. rewrite E8 in Al.
    assert (M8 : (xa mod 16 mod 8 = 0)%Z) by (rewrite (Znumtheory.Zmod_div_mod 8 16 xa) in Al; [exact Al | lia | lia | exists 2%Z; reflexivity]).
    pose proof (Z.mod_pos_bound xa 16 ltac:(lia)) as Bd. assert (EN : exists r, N = Datatypes.S r) by (exists (N - 1); lia). destruct EN as [r EN]. assert (Ir : inva half false false (Datatypes.S r) st1) by (rewrite <- EN; exact I).
    destruct (sse_lone r st1 Ir) as (st2 & B2 & I2 & C2 & _).
    assert (I2' : inva half false true r st2).
    { destruct I2 as (K1 & K2 & K3 & K4 & _ & K6). repeat split; auto; try apply K2. intros _. rewrite C2, Ra, E8.
      assert (xa mod 16 = 8)%Z by (pose proof (Z.div_mod (xa mod 16) 8 ltac:(lia)); assert (xa mod 16 / 8 < 2)%Z by (apply Z.div_lt_upper_bound; lia); assert (0 <= xa mod 16 / 8)%Z by (apply Z.div_pos; lia); lia).
      rewrite (Z.div_mod xa 16) by lia. replace (16 * (xa / 16) + xa mod 16 + 8)%Z with (0 + (xa / 16 + 1) * 16)%Z by lia. rewrite Z.mod_add by lia. reflexivity. }
    destruct (loops_sse_ok accum_sse64 r st2) as (st4 & I4 & R4); try reflexivity; auto. apply (conclude _ st st4); [|exact I4].
    eapply reach_trans; [|exact R4]. apply reach_fall. rewrite B. exact B2.
Qed.
End Kernels.
