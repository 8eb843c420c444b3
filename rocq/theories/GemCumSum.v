(** * Proofs: the cumulative sum *)
From Coq Require Import ZArith String Bool List Lia Permutation.
From Verif Require Import AsmModel AsmLemmas AsmSpec.
From Verif Require Import GemModel GemCode GemSpec GemLemmas GemAxpy2 GemAxpy4.
Import ListNotations.
Open Scope string_scope.
Open Scope list_scope.
Open Scope nat_scope.

Lemma land_3 k : Z.land (Z.of_nat k) 3 = Z.of_nat (k mod 4).
Proof. change 3%Z with (Z.ones 2). rewrite Z.land_ones by lia. rewrite Nat2Z.inj_mod. reflexivity. Qed.

Section CumSum.
Variable A : lanes.
Variable equal : lane A -> lane A -> bool.
Variable farg : string -> lane A.
Notation L := (lane A).
Notation state := (state A).
Notation memory := (Z -> option L).
Notation read := (read A 8).
Notation write := (write A 8).
Notation block := (block A 8 2 equal farg).
Notation reach := (reach A 8 2 equal farg cum_sum64).
Notation within := (within 8).
Variables (s dst : Z) (N : nat) (ls : list L) (m0 : memory).
Hypothesis Ls : length ls = N.
Hypothesis Ov : same_or_apart 8 s dst N.

Definition csmem (i : nat) (mm : memory) : Prop :=
  (forall p, ~ within dst N p -> mm p = m0 p) /\
  (forall k, k < i -> exists v, sum_of A v (firstn (S k) ls) /\ mm (dst + 8 * Z.of_nat k)%Z = Some v) /\
  (forall k, i <= k -> k < N -> mm (s + 8 * Z.of_nat k)%Z = nth_error ls k) /\
  (forall k, k < N -> mm (dst + 8 * Z.of_nat k)%Z <> None).
Lemma cs_write i mm vs p : csmem i mm -> i + length vs <= N -> (forall t v, nth_error vs t = Some v -> sum_of A v (firstn (S (i + t)) ls)) -> p = (dst + 8 * Z.of_nat i)%Z ->
  exists mm', write mm p vs = Some mm' /\ csmem (i + length vs) mm'.
Proof.
  intros (F & D & S & C) H V ->. destruct (write_some A 8 mm (dst + 8 * Z.of_nat i)%Z vs) as [mm' W].
  { intros j Hj. replace (dst + 8 * Z.of_nat i + 8 * Z.of_nat j)%Z with (dst + 8 * Z.of_nat (i + j))%Z by lia. apply C. lia. }
  assert (In_ : forall k, i <= k -> k < i + length vs -> mm' (dst + 8 * Z.of_nat k)%Z = nth_error vs (k - i)).
  { intros k Q1 Q2. replace (dst + 8 * Z.of_nat k)%Z with (dst + 8 * Z.of_nat i + 8 * Z.of_nat (k - i))%Z by lia. apply (write_get A 8 ltac:(lia) _ _ _ _ (k - i) W). lia. }
  assert (Out : forall k, k < i \/ i + length vs <= k -> mm' (dst + 8 * Z.of_nat k)%Z = mm (dst + 8 * Z.of_nat k)%Z).
  { intros k Q. apply (write_frame A 8 _ _ _ _ _ W). intros j Hj E'. lia. }
  exists mm'. split; [exact W|]. split; [|split; [|split]].
  - intros p Hp. rewrite (write_frame A 8 _ _ _ _ _ W); [now apply F|]. intros j Hj ->. apply Hp. exists (i + j). split; lia.
  - intros k Hk. destruct (Nat.lt_ge_cases k i) as [Q|Q]; [rewrite Out by lia; now apply D|].
    rewrite In_ by lia. destruct (nth_error vs (k - i)) as [v|] eqn:E; [|apply nth_error_None in E; lia]. exists v. split; [|reflexivity].
    replace k with (i + (k - i)) by lia. now apply V.
  - intros k Q1 Q2. rewrite (write_frame A 8 _ _ _ _ _ W); [apply S; lia|]. intros j Hj E. pose proof (Ov k (i + j) ltac:(lia) ltac:(lia) ltac:(lia)). lia.
  - intros k Hk. destruct (Nat.lt_ge_cases k i) as [Q|Q]; [rewrite Out by lia; now apply C|]. destruct (Nat.lt_ge_cases k (i + length vs)) as [Q'|Q'].
    + rewrite In_ by lia. apply nth_error_Some. lia.
    + rewrite Out by lia. now apply C.
Qed.
Lemma cs_two i mm j p : csmem i mm -> i <= j -> j + 2 <= N -> p = (s + 8 * Z.of_nat j)%Z -> exists u v, read mm p 2 = Some [u; v] /\ nth_error ls j = Some u /\ nth_error ls (j + 1) = Some v.
Proof.
  intros (_ & _ & S & _) Hi Hj ->. destruct (nth_error ls j) as [u|] eqn:E1; [|apply nth_error_None in E1; lia]. destruct (nth_error ls (j + 1)) as [v|] eqn:E2; [|apply nth_error_None in E2; lia].
  exists u, v. split; [|split; reflexivity]. cbn [AsmModel.read]. rewrite (S j) by lia. rewrite E1. replace (s + 8 * Z.of_nat j + 8)%Z with (s + 8 * Z.of_nat (j + 1))%Z by lia.
  rewrite (S (j + 1)) by lia. now rewrite E2.
Qed.
Lemma firstn_snoc {T} (l : list T) k x : nth_error l k = Some x -> firstn (S k) l = firstn k l ++ [x].
Proof. revert l. induction k as [|k IH]; intros [|a l] H; cbn in *; try discriminate; [now injection H as ->|]. now rewrite <- (IH l H). Qed.
(** the sums of a prefix and one or two further elements *)
Lemma sum_next i p x : sum_of A p (firstn i ls) -> nth_error ls i = Some x -> sum_of A (bin A Add p x) (firstn (S i) ls).
Proof. intros H E. rewrite (firstn_snoc _ _ _ E). eapply sum_add; [exact H|apply sum_one|reflexivity]. Qed.
Lemma sum_next' i p x : sum_of A p (firstn i ls) -> nth_error ls i = Some x -> sum_of A (bin A Add x p) (firstn (S i) ls).
Proof. intros H E. rewrite (firstn_snoc _ _ _ E). eapply sum_add; [apply sum_one|exact H|apply Permutation_app_comm]. Qed.
Lemma sum_pair i x y : nth_error ls i = Some x -> nth_error ls (S i) = Some y -> sum_of A (bin A Add x y) [x; y].
Proof. intros _ _. eapply sum_add; [apply sum_one|apply sum_one|reflexivity]. Qed.
Lemma two_more i x y : nth_error ls i = Some x -> nth_error ls (S i) = Some y -> firstn (S (S i)) ls = firstn i ls ++ [x; y].
Proof. intros E1 E2. rewrite (firstn_snoc _ _ _ E2), (firstn_snoc _ _ _ E1), <- app_assoc. reflexivity. Qed.
Lemma sum_two i p x y : sum_of A p (firstn i ls) -> nth_error ls i = Some x -> nth_error ls (S i) = Some y -> sum_of A (bin A Add p (bin A Add x y)) (firstn (S (S i)) ls).
Proof. intros H E1 E2. rewrite (two_more _ _ _ E1 E2). eapply sum_add; [exact H|exact (sum_pair _ _ _ E1 E2)|reflexivity]. Qed.
Lemma sum_two' i p x y : sum_of A p (firstn i ls) -> nth_error ls i = Some x -> nth_error ls (S i) = Some y -> sum_of A (bin A Add (bin A Add x y) p) (firstn (S (S i)) ls).
Proof. intros H E1 E2. rewrite (two_more _ _ _ E1 E2). eapply sum_add; [exact (sum_pair _ _ _ E1 E2)|exact H|apply Permutation_app_comm]. Qed.

Definition cs (i : nat) (st : state) : Prop :=
  gpr A st AX = Z.of_nat i /\ gpr A st SI = s /\ gpr A st DI = dst /\ csmem i (mem A st) /\ exists p q, vec A st 5 = [p; q] /\ sum_of A p (firstn i ls) /\ sum_of A q (firstn i ls).
Definition from' (l : string) : code := match from_label cum_sum64 l with Some c => c | None => [] end.
Definition body : list instr := firstn 19 (snd (hd ("", []) (from' "cs_loop"))).
Ltac go := cbn [GemModel.step]; unfold value, address; cbn [base index disp gpr vec mem args set_vec set_mem Nat.eqb].
Lemma body_ok i st : cs i st -> i + 4 <= N -> exists st', block body st = Some (st', Seq) /\ cs (i + 4) st' /\ gpr A st' CX = gpr A st CX /\ gpr A st' BX = gpr A st BX.
Proof.
  intros (GA & GS & GD & M & p & q & V5 & Sp & Sq) H.
  destruct (cs_two i _ i (s + Z.of_nat i * 8 + 0)%Z M ltac:(lia) ltac:(lia) ltac:(lia)) as (x0 & x1 & R0 & E0 & E1).
  destruct (cs_two i _ (i + 2) (s + Z.of_nat i * 8 + 16)%Z M ltac:(lia) ltac:(lia) ltac:(lia)) as (x2 & x3 & R2 & E2 & E3).
  rewrite Nat.add_1_r in E1. replace (i + 2 + 1) with (S (S (S i))) in E3 by lia. replace (i + 2) with (S (S i)) in E2 by lia.
  pose proof (sum_two _ _ _ _ Sp E0 E1) as P2. pose proof (sum_two _ _ _ _ Sq E0 E1) as Q2.
  destruct (cs_write i (mem A st) [bin A Add x0 p; bin A Add (bin A Add x0 x1) q] (dst + Z.of_nat i * 8 + 0)%Z M ltac:(cbn; lia)) as (m1 & W1 & C1); [|lia|].
  { intros [|[|t]] v E; [injection E as <-; rewrite Nat.add_0_r; now apply sum_next'|injection E as <-; rewrite Nat.add_1_r; now apply sum_two'|now destruct t]. }
  cbn [length] in C1.
  destruct (cs_write (i + 2) m1 [bin A Add x2 (bin A Add p (bin A Add x0 x1)); bin A Add (bin A Add x2 x3) (bin A Add q (bin A Add x0 x1))] (dst + Z.of_nat i * 8 + 16)%Z C1 ltac:(cbn; lia)) as (m2 & W2 & C2); [|lia|].
  { intros [|[|t]] v E; [injection E as <-; replace (i + 2 + 0) with (S (S i)) by lia; now apply sum_next'|injection E as <-; replace (i + 2 + 1) with (S (S (S i))) by lia; now apply sum_two'|now destruct t]. }
  cbn [length] in C2.
  let b := eval vm_compute in body in change body with b.
  eexists. split; [|split].
  - eapply block_cons; [go; rewrite GS, GA, R0; reflexivity|]. eapply block_cons; [go; rewrite GS, GA, R2; reflexivity|].
    do 4 (eapply block_cons; [go; cbn [lane_of nth]; reflexivity|]).
    do 2 (eapply block_cons; [go; cbn [lane_of nth map2 firstn]; reflexivity|]).
    do 4 (eapply block_cons; [go; cbn [lane_of nth]; reflexivity|]).
    do 3 (eapply block_cons; [go; rewrite ?V5; cbn [lane_of nth map2 firstn]; reflexivity|]).
    eapply block_cons; [go; rewrite GD, GA; unfold lane_of; cbn [nth]; rewrite W1; reflexivity|]. eapply block_cons; [go; rewrite GD, GA; unfold lane_of; cbn [nth]; rewrite W2; reflexivity|].
    eapply block_cons; [go; cbn [lane_of nth map2 firstn]; reflexivity|]. eapply block_cons; [reflexivity|]. reflexivity.
  - split; [change (gpr A st AX + 4 = Z.of_nat (i + 4))%Z; lia|]. split; [exact GS|]. split; [exact GD|]. split; [replace (i + 4) with (i + 2 + 2) by lia; exact C2|].
    eexists _, _. split; [reflexivity|]. replace (i + 4) with (S (S (S (S i)))) by lia. split; apply sum_two; assumption.
  - split; reflexivity.
Qed.
Definition tail_body : list instr := firstn 3 (snd (hd ("", []) (from' "cs_tail"))).
Definition cst (i : nat) (st : state) : Prop :=
  gpr A st AX = Z.of_nat i /\ gpr A st SI = s /\ gpr A st DI = dst /\ csmem i (mem A st) /\ exists p q, vec A st 5 = [p; q] /\ sum_of A p (firstn i ls).
Lemma tail_ok i st : cst i st -> i + 1 <= N -> exists st', block tail_body st = Some (st', Seq) /\ cst (i + 1) st' /\ gpr A st' CX = gpr A st CX.
Proof.
  intros (GA & GS & GD & M & p & q & V5 & Sp) H.
  destruct (nth_error ls i) as [x|] eqn:E; [|apply nth_error_None in E; lia]. pose proof M as (_ & _ & S & _).
  pose proof (S i ltac:(lia) ltac:(lia)) as R0. rewrite E in R0. pose proof (sum_next _ _ _ Sp E) as Sn.
  destruct (cs_write i (mem A st) [bin A Add p x] (dst + Z.of_nat i * 8 + 0)%Z M ltac:(cbn; lia)) as (m1 & W1 & C1); [|lia|].
  { intros [|t] v E'; [injection E' as <-; now rewrite Nat.add_0_r|now destruct t]. }
  cbn [length] in C1. let b := eval vm_compute in tail_body in change tail_body with b.
  eexists. split; [|split].
  - eapply block_cons. { go. cbn [Nat.ltb Nat.leb andb AsmModel.read]. rewrite GS, GA. replace (s + Z.of_nat i * 8 + 0)%Z with (s + 8 * Z.of_nat i)%Z by lia. rewrite R0, V5. cbn [map2 skipn app]. reflexivity. }
    eapply block_cons; [go; rewrite GD, GA; cbn [firstn]; rewrite W1; reflexivity|]. eapply block_cons; [reflexivity|]. reflexivity.
  - split; [change (gpr A st AX + 1 = Z.of_nat (i + 1))%Z; lia|]. split; [exact GS|]. split; [exact GD|]. split; [exact C1|].
    eexists _, _. split; [reflexivity|]. rewrite Nat.add_1_r. exact Sn.
  - reflexivity.
Qed.
Lemma cs_cst i st : cs i st -> cst i st.
Proof. intros (GA & GS & GD & M & p & q & V5 & Sp & Sq). split; [exact GA|]. split; [exact GS|]. split; [exact GD|]. split; [exact M|]. now exists p, q. Qed.
Ltac ex b next := let c := eval vm_compute in (snd (hd ("", []) (from' b))) in change (from' b) with ((b, c) :: from' next).
Lemma from_some' l : existsb (String.eqb l) (map fst cum_sum64) = true -> from_label cum_sum64 l = Some (from' l).
Proof.
  intros H. unfold from'. destruct (from_label cum_sum64 l) as [c|] eqn:E; [reflexivity|exfalso]. revert H E. generalize cum_sum64. induction c as [|[k is] c IH]; [discriminate|].
  cbn [map fst existsb from_label]. rewrite (String.eqb_sym l k). destruct (String.eqb k l); [discriminate|]. exact IH.
Qed.
Lemma tail_all c st : cst (N - S c) st -> S c <= N -> gpr A st BX = Z.of_nat (S c) -> exists st', csmem N (mem A st') /\ reach (from' "cs_tail_start") st (from' "cs_end") st'.
Proof.
  intros H Hc HB. pose proof (loop A 8 2 equal farg cum_sum64 "cs_tail" "cs_tail" tail_body [] (from' "cs_end") (fun k st => cst (N - k) st /\ k <= N /\ gpr A st CX = Z.of_nat k)) as Lp.
  destruct (Lp ltac:(reflexivity)) with (n := c) (st := set_gpr A st CX (gpr A st BX)) as (st' & (I' & _) & R').
  - intros k s1 (I1 & Hk & G1). destruct (tail_ok _ _ I1 ltac:(lia)) as (s2 & B2 & I2 & G2). exists s2. split; [exact B2|]. split; [congruence|].
    split; [|split; [lia|reflexivity]]. replace (N - k) with (N - S k + 1) by lia. exact I2.
  - split; [exact H|]. split; [exact Hc|exact HB].
  - exists st'. split; [rewrite Nat.sub_0_r in I'; apply I'|]. ex "cs_tail_start" "cs_tail". eapply reach_step; [reflexivity|]. apply reach_next.
    eapply reach_trans; [exact R'|]. apply reach_next, reach_refl.
Qed.
Lemma loop_all c st : cs 0 st -> N / 4 = S c -> gpr A st CX = Z.of_nat (S c) -> gpr A st BX = Z.of_nat (N mod 4) -> exists st', csmem N (mem A st') /\ reach (from' "cs_loop") st (from' "cs_end") st'.
Proof.
  intros H Hc HC HB. pose proof (Nat.div_mod N 4 ltac:(lia)) as Q. rewrite Hc in Q.
  pose proof (loop A 8 2 equal farg cum_sum64 "cs_loop" "cs_loop" body [CmpQ (R BX) (GemModel.N 0); Je "cs_end"] (from' "cs_tail_start")
    (fun k st => cs (4 * (S c - k)) st /\ k <= S c /\ gpr A st CX = Z.of_nat k /\ gpr A st BX = Z.of_nat (N mod 4))) as Lp.
  destruct (Lp ltac:(reflexivity)) with (n := c) (st := st) as (st' & (I' & _ & _ & B') & R').
  - intros k s1 (I1 & Hk & G1 & B1). destruct (body_ok _ _ I1 ltac:(lia)) as (s2 & B2 & I2 & G2 & G3). exists s2. split; [exact B2|]. split; [congruence|].
    replace (4 * (S c - k)) with (4 * (S c - S k) + 4) by lia. split; [exact I2|]. split; [lia|]. split; [reflexivity|]. change (gpr A s2 BX = Z.of_nat (N mod 4)). congruence.
  - replace (4 * (S c - S c)) with 0 by lia. split; [exact H|]. split; [lia|]. split; [exact HC|exact HB].
  - rewrite Nat.sub_0_r in I'. destruct (N mod 4) as [|r] eqn:E.
    + eexists. split; [|eapply reach_trans; [exact R'|]; eapply reach_step; [cbn [GemModel.step get]; rewrite B'; reflexivity|]; eapply reach_goto; [reflexivity|apply from_some'; reflexivity|apply reach_refl]].
      destruct I' as (_ & _ & _ & M & _). rewrite Q at 1. rewrite Nat.add_0_r. exact M.
    + destruct (tail_all r (set_flags A st' (Z.of_nat (S r) =? 0)%Z (Z.of_nat (S r) <? 0)%Z)) as (s2 & M2 & R2).
      * replace (N - S r) with (4 * S c) by lia. exact (cs_cst _ _ I').
      * lia.
      * exact B'.
      * exists s2. split; [exact M2|]. eapply reach_trans; [exact R'|]. eapply reach_step; [cbn [GemModel.step get]; rewrite B'; reflexivity|]. eapply reach_step; [reflexivity|]. apply reach_next. exact R2.
Qed.
End CumSum.
Ltac ex b next := let c := eval vm_compute in (snd (hd ("", []) (from' b))) in change (from' b) with ((b, c) :: from' next).

Theorem cumsum_ok A equal : computes_cumsum A 8 2 equal cum_sum64.
Proof.
  intros farg st dst s ld ls n Hd Hs Hdl Hsl Sd Ss Ov.
  set (s1 := set_gpr A (set_gpr A (set_gpr A st DI (args A st "dst_base")) CX (args A st "dst_len")) SI (args A st "s_base")).
  destruct (min_block A 8 2 equal farg "s_len" CX s1) as (s2 & B2 & G2 & Q2 & V2 & M2 & A2).
  assert (C2 : gpr A s2 CX = Z.of_nat n). { rewrite G2. change (Z.min (args A st "dst_len") (args A st "s_len") = Z.of_nat n). rewrite Hdl, Hsl. unfold n. lia. }
  set (s3 := put A s2 (FP "ret_len") (gpr A s2 CX)).
  assert (T : reach A 8 2 equal farg cum_sum64 cum_sum64 st (("", skipn 6 (snd (hd ("", []) (from' "entry")))) :: from' "cs_loop") s3).
  { change cum_sum64 with (from' "entry") at 2. ex "entry" "cs_loop". do 3 (eapply reach_step; [reflexivity|]).
    eapply (reach_block _ _ _ _ _ _ _ [CmpQ (FP "s_len") (R CX); CmovLE (FP "s_len") (R CX)]); [exact B2|]. eapply reach_step; [reflexivity|]. apply reach_refl. }
  assert (D3 : gpr A s3 DI = dst /\ gpr A s3 SI = s /\ gpr A s3 CX = Z.of_nat n /\ mem A s3 = mem A st).
  { split; [change (gpr A s2 DI = dst); rewrite (Q2 DI eq_refl); exact Hd|]. split; [change (gpr A s2 SI = s); rewrite (Q2 SI eq_refl); exact Hs|]. split; [exact C2|]. change (mem A s2 = mem A st). rewrite M2. reflexivity. }
  destruct D3 as (GD & GS & GC & Me). clearbody s3. clear s1 s2 B2 G2 Q2 V2 M2 A2 C2.
  assert (E : exists st', csmem A s dst n (firstn n ls) (mem A st) n (mem A st') /\ reach A 8 2 equal farg cum_sum64 (("", skipn 6 (snd (hd ("", []) (from' "entry")))) :: from' "cs_loop") s3 (from' "cs_end") st').
  { let c := eval vm_compute in (skipn 6 (snd (hd ("", []) (from' "entry")))) in change (skipn 6 (snd (hd ("", []) (from' "entry")))) with c.
    assert (Ll : length (firstn n ls) = n) by (rewrite firstn_length; unfold n; lia).
    assert (M0 : csmem A s dst n (firstn n ls) (mem A st) 0 (mem A st)).
    { split; [reflexivity|]. split; [lia|]. split.
      - intros k _ Hk. destruct (nth_error ls k) as [v|] eqn:Ek; [|apply nth_error_None in Ek; unfold n in *; lia]. rewrite (Ss k v Ek). symmetry.
        rewrite <- (firstn_skipn n ls) in Ek. rewrite nth_error_app1 in Ek by lia. exact Ek.
      - intros k Hk. destruct (nth_error ld k) as [v|] eqn:Ek; [|apply nth_error_None in Ek; unfold n in *; lia]. rewrite (Sd k v Ek). discriminate. }
    destruct (Nat.eq_dec n 0) as [Z|Z].
    { eexists. split; [|eapply reach_step; [cbn [step get]; rewrite GC, Z; reflexivity|]; eapply reach_goto; [reflexivity|apply from_some'; reflexivity|apply reach_refl]].
      change (csmem A s dst n (firstn n ls) (mem A st) n (mem A s3)). rewrite Me. now rewrite Z in *. }
    set (s4 := set_flags A s3 false (Z.of_nat n <? 0)%Z).
    set (s5 := set_gpr A (set_vec A (set_zf A (set_gpr A s4 AX 0) true) 5 [zero A; zero A]) BX (Z.of_nat n)).
    set (s6 := set_zf A (set_gpr A s5 BX (Z.of_nat (n mod 4))) (Z.of_nat (n mod 4) =? 0)%Z).
    set (s7 := set_zf A (set_gpr A s6 CX (Z.of_nat (n / 4))) (Z.of_nat (n / 4) =? 0)%Z).
    assert (R : reach A 8 2 equal farg cum_sum64 (("", skipn 6 (snd (hd ("", []) (from' "entry")))) :: from' "cs_loop") s3 (("", [Je "cs_tail_start"]) :: from' "cs_loop") s7).
    { let c := eval vm_compute in (skipn 6 (snd (hd ("", []) (from' "entry")))) in change (skipn 6 (snd (hd ("", []) (from' "entry")))) with c.
      eapply reach_step; [cbn [step get]; rewrite GC; replace (Z.of_nat n =? 0)%Z with false by (symmetry; apply Z.eqb_neq; lia); reflexivity|].
      eapply reach_step; [reflexivity|].
      eapply reach_step. { cbn [step]. unfold arith. cbn [get put]. rewrite Z.lxor_nilpotent. reflexivity. }
      eapply reach_step; [reflexivity|].
      eapply (reach_step _ _ _ _ _ _ _ _ _ _ _ s5). { cbn [step put]. match goal with |- context [get A ?S (R CX)] => change (get A S (R CX)) with (gpr A s3 CX) end. rewrite GC. reflexivity. }
      eapply (reach_step _ _ _ _ _ _ _ _ _ _ _ s6). { cbn [step]. unfold arith. cbn [put]. change (get A s5 (R BX)) with (Z.of_nat n). cbn [get]. rewrite land_3. reflexivity. }
      eapply (reach_step _ _ _ _ _ _ _ _ _ _ _ s7). { cbn [step]. unfold arith. cbn [put]. change (get A s6 (R CX)) with (gpr A s3 CX). cbn [get]. rewrite GC. change 2%Z with (Z.of_nat 2). rewrite (nat_shiftr n 2). change (2 ^ 2) with 4. reflexivity. }
      apply reach_refl. }
    assert (Mod : n mod 4 < 4) by (apply Nat.mod_upper_bound; lia). pose proof (Nat.div_mod n 4 ltac:(lia)) as Q.
    assert (K : cs A s dst n (firstn n ls) (mem A st) 0 s7).
    { split; [reflexivity|]. split; [exact GS|]. split; [exact GD|]. split; [change (csmem A s dst n (firstn n ls) (mem A st) 0 (mem A s3)); rewrite Me; exact M0|].
      exists (zero A), (zero A). split; [reflexivity|]. split; apply sum_zero. }
    destruct (n / 4) as [|c] eqn:Ec.
    - destruct (n mod 4) as [|r] eqn:Er; [lia|].
      destruct (tail_all A equal farg s dst n (firstn n ls) (mem A st) Ll Ov r s7) as (st' & M' & R').
      + replace (n - S r) with 0 by lia. exact (cs_cst _ _ _ _ _ _ _ _ K).
      + lia.
      + reflexivity.
      + exists st'. split; [exact M'|]. eapply reach_trans; [exact R|]. eapply reach_goto; [reflexivity|apply from_some'; reflexivity|exact R'].
    - destruct (loop_all A equal farg s dst n (firstn n ls) (mem A st) Ll Ov c s7 K Ec) as (st' & M' & R'); [reflexivity..|].
      exists st'. split; [exact M'|]. eapply reach_trans; [exact R|]. eapply reach_step; [reflexivity|]. apply reach_next. exact R'. }
  destruct E as (s4 & (F4 & D4 & _) & R4). eexists. split; [|split].
  - eapply (reach_return _ _ _ _ _ _ "" []). eapply reach_trans; [exact T|]. eapply reach_trans; [exact R4|]. change (from' "cs_end") with [("cs_end", [MovQ (R DI) (FP "ret_base"); MovQ (FP "dst_cap") (R SI); MovQ (R SI) (FP "ret_cap"); Ret])].
    do 3 (eapply reach_step; [reflexivity|]). apply reach_refl.
  - intros i Hi. destruct (D4 i Hi) as (v & Sv & Ev). exists v. split; [|exact Ev]. rewrite firstn_firstn in Sv. replace (Nat.min (S i) n) with (S i) in Sv by lia. exact Sv.
  - exact F4.
Qed.
