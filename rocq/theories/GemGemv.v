(** * Proofs: GemvN *)
From Coq Require Import ZArith String Bool List Lia Permutation.
From Verif Require Import AsmModel AsmLemmas AsmSpec AsmProofs2.
From Verif Require Import GemModel GemCode GemLemmas GemSpec GemAxpy2.
From Verif Require DenseModel.
Import ListNotations.
Open Scope string_scope.
Open Scope list_scope.
Open Scope nat_scope.

Lemma land_small (k : nat) (b : Z) : (Z.land 7 b = b)%Z -> Z.land b (Z.of_nat k) = Z.land (Z.of_nat (k mod 8)) b.
Proof.
  intros H. rewrite Z.land_comm, <- H at 1. rewrite Z.land_assoc. f_equal. exact (nat_land k 3).
Qed.
Lemma bits_small k : k = 8 * (k / 8) + 4 * ((k / 4) mod 2) + 2 * ((k / 2) mod 2) + k mod 2.
Proof.
  pose proof (Nat.div_mod k 2 ltac:(lia)). pose proof (Nat.div_mod (k / 2) 2 ltac:(lia)). pose proof (Nat.div_mod (k / 4) 2 ltac:(lia)).
  pose proof (Nat.div_div k 2 2 ltac:(lia) ltac:(lia)) as E1. pose proof (Nat.div_div k 4 2 ltac:(lia) ltac:(lia)) as E2. change (2 * 2) with 4 in E1. change (4 * 2) with 8 in E2. lia.
Qed.
Lemma bit_1 k : Z.land 1 (Z.of_nat k) = Z.of_nat (k mod 2).
Proof. rewrite Z.land_comm. exact (nat_land k 1). Qed.
Lemma bit_2 k : Z.land 2 (Z.of_nat k) = Z.of_nat (2 * ((k / 2) mod 2)).
Proof.
  rewrite land_small by reflexivity. pose proof (bits_small k) as E. pose proof (Nat.div_mod k 8 ltac:(lia)) as D. pose proof (Nat.mod_upper_bound k 8 ltac:(lia)) as U.
  pose proof (Nat.mod_upper_bound k 2 ltac:(lia)). pose proof (Nat.mod_upper_bound (k / 2) 2 ltac:(lia)). pose proof (Nat.mod_upper_bound (k / 4) 2 ltac:(lia)).
  assert (E2 : k mod 8 = 4 * ((k / 4) mod 2) + 2 * ((k / 2) mod 2) + k mod 2) by lia. rewrite E2.
  destruct ((k / 4) mod 2) as [|[|]], ((k / 2) mod 2) as [|[|]], (k mod 2) as [|[|]]; try lia; reflexivity.
Qed.
Lemma bit_4 k : Z.land 4 (Z.of_nat k) = Z.of_nat (4 * ((k / 4) mod 2)).
Proof.
  rewrite land_small by reflexivity. pose proof (bits_small k) as E. pose proof (Nat.div_mod k 8 ltac:(lia)) as D. pose proof (Nat.mod_upper_bound k 8 ltac:(lia)) as U.
  pose proof (Nat.mod_upper_bound k 2 ltac:(lia)). pose proof (Nat.mod_upper_bound (k / 2) 2 ltac:(lia)). pose proof (Nat.mod_upper_bound (k / 4) 2 ltac:(lia)).
  assert (E2 : k mod 8 = 4 * ((k / 4) mod 2) + 2 * ((k / 2) mod 2) + k mod 2) by lia. rewrite E2.
  destruct ((k / 4) mod 2) as [|[|]], ((k / 2) mod 2) as [|[|]], (k mod 2) as [|[|]]; try lia; reflexivity.
Qed.
Definition from (l : string) : code := match from_label gemv_n64 l with Some c => c | None => [] end.

Section Gemv.
Variable A : lanes.
Variable equal : lane A -> lane A -> bool.
Variable farg : string -> lane A.
Notation L := (lane A).
Notation state := (state A).
Notation memory := (Z -> option L).
Notation read := (read A 8).
Notation write := (write A 8).
Notation block := (block A 8 2 equal farg).
Notation step := (step A 8 2 equal farg).
Notation reach := (reach A 8 2 equal farg gemv_n64).
Notation within := (within 8).
Notation apart := (apart 8).
Notation slice := (AsmSpec.slice A 8).
Notation alpha := (farg "alpha").
Notation beta := (farg "beta").
Variables (m n : nat) (a x y : Z) (la lx : list L) (m0 : memory).
Hypothesis n_pos : 0 < n.
Hypothesis La : length la = m * n.
Hypothesis Lx : length lx = n.
Hypothesis Sa : slice m0 a la.
Hypothesis Sx : slice m0 x lx.
Hypothesis Da : apart a (m * n) y m.
Hypothesis Dx : apart x n y m.
Definition row (k : nat) : list L := firstn n (skipn (k * n) la).
Definition fin (v : L) : L := bin A Add (bin A Mul (zero A) beta) (bin A Mul v alpha).
(** the first i entries of the result are there, the others are zero *)
Definition memok (i : nat) (mm : memory) : Prop :=
  (forall p, ~ within y m p -> mm p = m0 p) /\
  (forall k, k < i -> exists v, dot_of A v (combine (row k) lx) /\ mm (y + 8 * Z.of_nat k)%Z = Some (fin v)) /\
  (forall k, i <= k -> k < m -> mm (y + 8 * Z.of_nat k)%Z = Some (zero A)).
Lemma row_length k : k < m -> length (row k) = n.
Proof. intros H. unfold row. rewrite firstn_length, skipn_length. nia. Qed.
Lemma read_a i mm k j e p : memok i mm -> k < m -> j + e <= n -> p = (a + 8 * Z.of_nat (k * n + j))%Z -> read mm p e = Some (firstn e (skipn j (row k))).
Proof.
  intros (F & _) Hk Hj ->. rewrite (read_ext A 8 m0).
  - rewrite (read_sub A 8 m0 a (m * n) la (k * n + j) e).
    + f_equal. unfold row. rewrite skipn_add. rewrite <- (firstn_skipn j (skipn (k * n) la)) at 1. rewrite skipn_firstn_comm. 
      rewrite firstn_firstn. replace (Nat.min e (n - j)) with e by lia.
      rewrite firstn_skipn. reflexivity.
    + rewrite <- La. apply slice_read; exact Sa.
    + nia.
  - intros i0 Hi0. apply F. intros W. apply (Da (a + 8 * Z.of_nat (k * n + j) + 8 * Z.of_nat i0)%Z); [|exact W]. exists (k * n + j + i0). split; nia.
Qed.
Lemma read_x i mm j e p : memok i mm -> j + e <= n -> p = (x + 8 * Z.of_nat j)%Z -> read mm p e = Some (firstn e (skipn j lx)).
Proof.
  intros (F & _) Hj ->. rewrite (read_ext A 8 m0).
  - apply (read_sub A 8 m0 x n lx j e); [|lia]. rewrite <- Lx. apply slice_read; exact Sx.
  - intros i0 Hi0. apply F. intros W. apply (Dx (x + 8 * Z.of_nat j + 8 * Z.of_nat i0)%Z); [|exact W]. exists (j + i0). split; nia.
Qed.
Lemma read_y i mm k e p : memok i mm -> i <= k -> k + e <= m -> p = (y + 8 * Z.of_nat k)%Z -> read mm p e = Some (repeat (zero A) e).
Proof.
  intros (_ & _ & Z) Hk He ->. revert k Hk He. induction e as [|e IH]; intros k Hk He; [reflexivity|]. cbn [AsmModel.read repeat].
  rewrite Z by lia. replace (y + 8 * Z.of_nat k + 8)%Z with (y + 8 * Z.of_nat (S k))%Z by lia. rewrite IH by lia. reflexivity.
Qed.
Lemma memok_write i mm vs p : memok i mm -> i + length vs <= m -> (forall t v, nth_error vs t = Some v -> dot_of A v (combine (row (i + t)) lx)) -> p = (y + 8 * Z.of_nat i)%Z ->
  exists mm', write mm p (map fin vs) = Some mm' /\ memok (i + length vs) mm'.
Proof.
  intros (F & D & Z) H V ->. destruct (write_some A 8 mm (y + 8 * Z.of_nat i)%Z (map fin vs)) as [mm' W].
  { rewrite map_length. intros j Hj. replace (y + 8 * Z.of_nat i + 8 * Z.of_nat j)%Z with (y + 8 * Z.of_nat (i + j))%Z by lia. rewrite Z by lia. discriminate. }
  exists mm'. split; [exact W|]. split; [|split].
  - intros p Hp. rewrite (write_frame A 8 _ _ _ _ _ W); [now apply F|]. intros j Hj ->. apply Hp. rewrite map_length in Hj. exists (i + j). split; lia.
  - intros k Hk. destruct (Nat.lt_ge_cases k i) as [Q|Q].
    + destruct (D k Q) as (v & Dv & E). exists v. split; [exact Dv|]. rewrite (write_frame A 8 _ _ _ _ _ W); [exact E|]. intros j Hj E'. lia.
    + destruct (nth_error vs (k - i)) as [v|] eqn:Ev; [|apply nth_error_None in Ev; lia]. exists v. split; [replace k with (i + (k - i)) by lia; now apply V|].
      replace (y + 8 * Z.of_nat k)%Z with (y + 8 * Z.of_nat i + 8 * Z.of_nat (k - i))%Z by lia. rewrite (write_get A 8 ltac:(lia) _ _ _ _ (k - i) W) by (rewrite map_length; lia).
      now apply map_nth_error.
  - intros k Hk Hm. rewrite (write_frame A 8 _ _ _ _ _ W); [apply Z; lia|]. rewrite map_length. intros j Hj. lia.
Qed.

(** ** Partial sums in the two lanes of a register *)
Definition part (k j : nat) (acc : list L) : Prop := exists u v l1 l2, acc = [u; v] /\ dot_of A u l1 /\ dot_of A v l2 /\ Permutation (l1 ++ l2) (firstn j (combine (row k) lx)).
Lemma part_zero k : part k 0 [zero A; zero A].
Proof. exists (zero A), (zero A), [], []. repeat split; try constructor. Qed.
Lemma two_of {T} (l : list T) j : j + 2 <= length l -> exists p q, firstn 2 (skipn j l) = [p; q] /\ firstn (j + 2) l = firstn j l ++ [p; q] /\ nth_error l j = Some p /\ nth_error l (j + 1) = Some q.
Proof.
  revert l. induction j as [|j IH]; intros [|p l] H; cbn [length] in H; try lia.
  - destruct l as [|q l]; cbn [length] in H; [lia|]. exists p, q. auto.
  - destruct (IH l ltac:(lia)) as (u & v & E1 & E2 & E3 & E4). exists u, v. cbn. rewrite E2. auto.
Qed.
Lemma one_of {T} (l : list T) j : j + 1 <= length l -> exists p, firstn 1 (skipn j l) = [p] /\ firstn (j + 1) l = firstn j l ++ [p].
Proof.
  revert l. induction j as [|j IH]; intros [|p l] H; cbn [length] in H; try lia.
  - exists p. auto.
  - destruct (IH l ltac:(lia)) as (u & E1 & E2). exists u. cbn. rewrite E2. auto.
Qed.
Lemma combine_two j (l k : list L) p q u v : length l = length k -> j + 2 <= length l -> firstn 2 (skipn j l) = [p; q] -> firstn 2 (skipn j k) = [u; v] ->
  firstn (j + 2) (combine l k) = firstn j (combine l k) ++ [(p, u); (q, v)].
Proof.
  intros E H H1 H2. destruct (two_of (combine l k) j) as (pu & qv & E1 & E2 & _); [rewrite combine_length; lia|]. rewrite E2. f_equal. rewrite <- E1.
  clear E1 E2. revert l k E H H1 H2. induction j as [|j IH]; intros [|p' l] [|u' k] E H H1 H2; cbn [length] in *; try lia.
  - destruct l as [|q' l], k as [|v' k]; cbn in *; try lia. congruence.
  - cbn [skipn combine] in *. apply IH; auto; lia.
Qed.
Lemma combine_one j (l k : list L) p u : length l = length k -> j + 1 <= length l -> firstn 1 (skipn j l) = [p] -> firstn 1 (skipn j k) = [u] ->
  firstn (j + 1) (combine l k) = firstn j (combine l k) ++ [(p, u)].
Proof.
  intros E H H1 H2. destruct (one_of (combine l k) j) as (pu & E1 & E2); [rewrite combine_length; lia|]. rewrite E2. f_equal. rewrite <- E1.
  clear E1 E2. revert l k E H H1 H2. induction j as [|j IH]; intros [|p' l] [|u' k] E H H1 H2; cbn [length] in *; try lia.
  - cbn in *. congruence.
  - cbn [skipn combine] in *. apply IH; auto; lia.
Qed.
Lemma part_two k j u v p q p' q' : part k j [u; v] -> k < m -> j + 2 <= n -> firstn 2 (skipn j (row k)) = [p; q] -> firstn 2 (skipn j lx) = [p'; q'] ->
  part k (j + 2) [bin A Add u (bin A Mul p p'); bin A Add v (bin A Mul q q')].
Proof.
  intros (u' & v' & l1 & l2 & E & U & V & P) Hk Hj E1 E2. injection E as <- <-. pose proof (row_length k Hk) as Lr.
  exists (bin A Add u (bin A Mul p p')), (bin A Add v (bin A Mul q q')), (l1 ++ [(p, p')]), (l2 ++ [(q, q')]). split; [reflexivity|].
  split; [econstructor; [exact U|constructor|reflexivity]|]. split; [econstructor; [exact V|constructor|reflexivity]|].
  rewrite (combine_two j (row k) lx p q p' q') by (auto; lia). rewrite <- P. rewrite <- !app_assoc. cbn [app].
  apply Permutation_app_head. rewrite (Permutation_app_comm l2 [(q, q')]). rewrite (Permutation_app_comm l2 [(p, p'); (q, q')]). reflexivity.
Qed.
Lemma part_pair k j acc : part k j acc -> exists u v, acc = [u; v].
Proof. intros (u & v & _ & _ & E & _). now exists u, v. Qed.
Lemma two_a i mm k j : memok i mm -> k < m -> j + 2 <= n -> exists p q, (forall b, b = (a + 8 * Z.of_nat (k * n + j))%Z -> read mm b 2 = Some [p; q]) /\ firstn 2 (skipn j (row k)) = [p; q].
Proof.
  intros M Hk Hj. destruct (two_of (row k) j) as (p & q & E & _); [rewrite row_length by exact Hk; lia|]. exists p, q. split; [|exact E].
  intros b Hb. rewrite <- E. now apply (read_a i).
Qed.
Lemma two_x i mm j : memok i mm -> j + 2 <= n -> exists p q, (forall b, b = (x + 8 * Z.of_nat j)%Z -> read mm b 2 = Some [p; q]) /\ firstn 2 (skipn j lx) = [p; q].
Proof.
  intros M Hj. destruct (two_of lx j) as (p & q & E & _); [lia|]. exists p, q. split; [|exact E].
  intros b Hb. rewrite <- E. now apply (read_x i).
Qed.
Lemma one_a i mm k j : memok i mm -> k < m -> j + 1 <= n -> exists p, (forall b, b = (a + 8 * Z.of_nat (k * n + j))%Z -> mm b = Some p) /\ firstn 1 (skipn j (row k)) = [p].
Proof.
  intros M Hk Hj. destruct (one_of (row k) j) as (p & E & _); [rewrite row_length by exact Hk; lia|]. exists p. split; [|exact E].
  intros b Hb. pose proof (read_a i mm k j 1 b M Hk Hj Hb) as Q. rewrite E in Q. cbn in Q. destruct (mm b); congruence.
Qed.
Lemma one_x i mm j : memok i mm -> j + 1 <= n -> exists p, (forall b, b = (x + 8 * Z.of_nat j)%Z -> mm b = Some p) /\ firstn 1 (skipn j lx) = [p].
Proof.
  intros M Hj. destruct (one_of lx j) as (p & E & _); [lia|]. exists p. split; [|exact E].
  intros b Hb. pose proof (read_x i mm j 1 b M Hj Hb) as Q. rewrite E in Q. cbn in Q. destruct (mm b); congruence.
Qed.
(** the lowest lane only *)
Lemma part_one k j u v p q : part k j [u; v] -> k < m -> j + 1 <= n -> firstn 1 (skipn j (row k)) = [p] -> firstn 1 (skipn j lx) = [q] -> part k (j + 1) [bin A Add u (bin A Mul p q); v].
Proof.
  intros (u' & v' & l1 & l2 & E & U & V & P) Hk Hj E1 E2. injection E as <- <-. pose proof (row_length k Hk) as Lr.
  exists (bin A Add u (bin A Mul p q)), v, (l1 ++ [(p, q)]), l2. split; [reflexivity|]. split; [econstructor; [exact U|constructor|reflexivity]|]. split; [exact V|].
  rewrite (combine_one j (row k) lx p q) by (auto; lia). rewrite <- P, <- !app_assoc. apply Permutation_app_head. apply Permutation_app_comm.
Qed.
Lemma part_sum k j u v : part k j [u; v] -> dot_of A (bin A Add u v) (firstn j (combine (row k) lx)).
Proof. intros (u' & v' & l1 & l2 & E & U & V & P). injection E as <- <-. econstructor; eauto. Qed.
Lemma dot_one_more k j u p q : dot_of A u (firstn j (combine (row k) lx)) -> k < m -> j + 1 <= n -> firstn 1 (skipn j (row k)) = [p] -> firstn 1 (skipn j lx) = [q] ->
  dot_of A (bin A Add u (bin A Mul p q)) (firstn (j + 1) (combine (row k) lx)).
Proof.
  intros U Hk Hj E1 E2. pose proof (row_length k Hk) as Lr. rewrite (combine_one j (row k) lx p q) by (auto; lia). econstructor; [exact U|constructor|reflexivity].
Qed.
Lemma dot_all k u : k < m -> dot_of A u (firstn n (combine (row k) lx)) -> dot_of A u (combine (row k) lx).
Proof. intros Hk. rewrite firstn_all2; [auto|]. rewrite combine_length, row_length, Lx by exact Hk. lia. Qed.

(** ** The columns of a group of rows *)
Definition same (st0 st : state) : Prop :=
  (forall r, In r [AX; CX; DX; R10; R12; R13] -> gpr A st r = gpr A st0 r) /\ vec A st 14 = vec A st0 14 /\ vec A st 15 = vec A st0 15 /\ args A st = args A st0 /\ mem A st = mem A st0.
(** the registers at the start of the group that begins at row i *)
Definition regs (i : nat) (st : state) : Prop :=
  gpr A st AX = (a + 8 * Z.of_nat (i * n))%Z /\ gpr A st DI = gpr A st AX /\ gpr A st SI = x /\ gpr A st DX = (y + 8 * Z.of_nat i)%Z /\
  gpr A st R10 = 8%Z /\ gpr A st R12 = (8 * Z.of_nat n)%Z /\ gpr A st R13 = (24 * Z.of_nat n)%Z /\
  vec A st 15 = [alpha; alpha] /\ vec A st 14 = [beta; beta] /\
  args A st "x_base" = x /\ args A st "m" = Z.of_nat m /\ args A st "n" = Z.of_nat n /\ memok i (mem A st).
Definition cols (rows i j : nat) (st0 st : state) : Prop :=
  same st0 st /\ j <= n /\ gpr A st SI = (x + 8 * Z.of_nat j)%Z /\ gpr A st DI = (a + 8 * Z.of_nat (i * n + j))%Z /\ forall t, t < rows -> part (i + t) j (vec A st t).

Ltac go := cbn [GemModel.step]; unfold value, address; cbn [base index disp gpr vec mem args set_vec set_mem Nat.eqb].
Definition body4_4 : list instr := firstn 28 (snd (hd ("", []) (from "r4c4"))).
Definition body4_2 : list instr := firstn 16 (snd (hd ("", []) (from "r2c4"))).
Definition body4_1 : list instr := firstn 10 (snd (hd ("", []) (from "r1c4"))).
Definition body2_4 : list instr := skipn 2 (snd (hd ("", []) (from "r4c2"))).
Definition body2_2 : list instr := skipn 2 (snd (hd ("", []) (from "r2c2"))).
Definition body2_1 : list instr := skipn 2 (snd (hd ("", []) (from "r1c2"))).

Lemma cols_step rows i st0 st st' j e : cols rows i j st0 st -> j + e <= n -> same st st' -> gpr A st' SI = (gpr A st SI + 8 * Z.of_nat e)%Z -> gpr A st' DI = (gpr A st DI + 8 * Z.of_nat e)%Z ->
  (forall t, t < rows -> part (i + t) (j + e) (vec A st' t)) -> cols rows i (j + e) st0 st'.
Proof.
  intros ((G & V14 & V15 & Ar & Me) & Hj & HS & HD & P) He (G' & V14' & V15' & Ar' & Me') HS' HD' P'.
  split; [|split; [exact He|split; [rewrite HS', HS; lia|split; [rewrite HD', HD; lia|exact P']]]].
  split; [intros r Hr; rewrite G', G by exact Hr; reflexivity|]. repeat split; congruence.
Qed.
Ltac sm := split; [let r := fresh in let Q := fresh in intros r Q; cbn [In] in Q; repeat destruct Q as [<-|Q]; [reflexivity..|destruct Q]|repeat split; reflexivity].
Ltac start Hr H Mo G12 G13 HS HD P :=
  let G := fresh in let Me := fresh in
  pose proof Hr as (_ & _ & _ & _ & _ & G12 & G13 & _ & _ & _ & _ & _ & Mo); pose proof H as ((G & _ & _ & _ & Me) & _ & HS & HD & P);
  rewrite <- Me in Mo; rewrite <- (G R12 ltac:(cbn; tauto)) in G12; rewrite <- (G R13 ltac:(cbn; tauto)) in G13; clear G Me.
Ltac rd Q := eapply block_cons; [go; rewrite Q by (match goal with HS : gpr A _ SI = _ |- _ => try rewrite HS end; match goal with HD : gpr A _ DI = _ |- _ => try rewrite HD end;
  match goal with HD : gpr A _ R12 = _ |- _ => try rewrite HD end; match goal with HD : gpr A _ R13 = _ |- _ => try rewrite HD end; lia); reflexivity|].
Lemma body4_4_ok i j st0 st : regs i st0 -> i + 4 <= m -> cols 4 i j st0 st -> j + 4 <= n -> exists st', block body4_4 st = Some (st', Seq) /\ cols 4 i (j + 4) st0 st' /\ gpr A st' BX = gpr A st BX.
Proof.
  intros Hr Hi H Hj. start Hr H Mo G12 G13 HS HD P.
  destruct (two_x i _ j Mo ltac:(lia)) as (x0 & x1 & X01 & EX01).
  destruct (two_x i _ (j + 2) Mo ltac:(lia)) as (x2 & x3 & X23 & EX23).
  destruct (two_a i _ i j Mo ltac:(lia) ltac:(lia)) as (a0 & a1 & A01 & EA01).
  destruct (two_a i _ i (j + 2) Mo ltac:(lia) ltac:(lia)) as (a2 & a3 & A23 & EA23).
  destruct (two_a i _ (i + 1) j Mo ltac:(lia) ltac:(lia)) as (b0 & b1 & B01 & EB01).
  destruct (two_a i _ (i + 1) (j + 2) Mo ltac:(lia) ltac:(lia)) as (b2 & b3 & B23 & EB23).
  destruct (two_a i _ (i + 2) j Mo ltac:(lia) ltac:(lia)) as (c0 & c1 & C01 & EC01).
  destruct (two_a i _ (i + 2) (j + 2) Mo ltac:(lia) ltac:(lia)) as (c2 & c3 & C23 & EC23).
  destruct (two_a i _ (i + 3) j Mo ltac:(lia) ltac:(lia)) as (d0 & d1 & D01 & ED01).
  destruct (two_a i _ (i + 3) (j + 2) Mo ltac:(lia) ltac:(lia)) as (d2 & d3 & D23 & ED23).
  pose proof (P 0 ltac:(lia)) as P0. rewrite Nat.add_0_r in P0. destruct (part_pair _ _ _ P0) as (u0 & v0 & E0). rewrite E0 in P0.
  pose proof (P 1 ltac:(lia)) as P1. destruct (part_pair _ _ _ P1) as (u1 & v1 & E1). rewrite E1 in P1.
  pose proof (P 2 ltac:(lia)) as P2. destruct (part_pair _ _ _ P2) as (u2 & v2 & E2). rewrite E2 in P2.
  pose proof (P 3 ltac:(lia)) as P3. destruct (part_pair _ _ _ P3) as (u3 & v3 & E3). rewrite E3 in P3.
  let b := eval vm_compute in body4_4 in change body4_4 with b.
  eexists. split; [|split; [eapply cols_step; [exact H|lia|..]|]].
  - rd X01. rd X23. rd A01. rd A23. rd B01. rd B23. rd C01. rd C23. rd D01. rd D23.
    do 8 (eapply block_cons; [go; cbn [firstn map2]; reflexivity|]).
    do 8 (eapply block_cons; [go; rewrite ?E0, ?E1, ?E2, ?E3; cbn [firstn map2]; reflexivity|]).
    do 2 (eapply block_cons; [cbn [GemModel.step]; reflexivity|]). reflexivity.
  - sm.
  - reflexivity.
  - reflexivity.
  - intros t Ht. replace (j + 4) with (j + 2 + 2) by lia. destruct t as [|[|[|[|t]]]]; [rewrite Nat.add_0_r| | | |lia]; unfold arith; cbn [vec set_zf set_flags set_gpr put set_vec Nat.eqb]; (apply part_two; [apply part_two; [assumption|lia|lia|assumption..]|lia|lia|assumption..]).
  - reflexivity.
Qed.
Lemma body4_2_ok i j st0 st : regs i st0 -> i + 2 <= m -> cols 2 i j st0 st -> j + 4 <= n -> exists st', block body4_2 st = Some (st', Seq) /\ cols 2 i (j + 4) st0 st' /\ gpr A st' BX = gpr A st BX.
Proof.
  intros Hr Hi H Hj. start Hr H Mo G12 G13 HS HD P.
  destruct (two_x i _ j Mo ltac:(lia)) as (x0 & x1 & X01 & EX01).
  destruct (two_x i _ (j + 2) Mo ltac:(lia)) as (x2 & x3 & X23 & EX23).
  destruct (two_a i _ i j Mo ltac:(lia) ltac:(lia)) as (a0 & a1 & A01 & EA01).
  destruct (two_a i _ i (j + 2) Mo ltac:(lia) ltac:(lia)) as (a2 & a3 & A23 & EA23).
  destruct (two_a i _ (i + 1) j Mo ltac:(lia) ltac:(lia)) as (b0 & b1 & B01 & EB01).
  destruct (two_a i _ (i + 1) (j + 2) Mo ltac:(lia) ltac:(lia)) as (b2 & b3 & B23 & EB23).
  pose proof (P 0 ltac:(lia)) as P0. rewrite Nat.add_0_r in P0. destruct (part_pair _ _ _ P0) as (u0 & v0 & E0). rewrite E0 in P0.
  pose proof (P 1 ltac:(lia)) as P1. destruct (part_pair _ _ _ P1) as (u1 & v1 & E1). rewrite E1 in P1.
  let b := eval vm_compute in body4_2 in change body4_2 with b.
  eexists. split; [|split; [eapply cols_step; [exact H|lia|..]|]].
  - rd X01. rd X23. rd A01. rd A23. rd B01. rd B23.
    do 4 (eapply block_cons; [go; cbn [firstn map2]; reflexivity|]).
    do 4 (eapply block_cons; [go; rewrite ?E0, ?E1; cbn [firstn map2]; reflexivity|]).
    do 2 (eapply block_cons; [cbn [GemModel.step]; reflexivity|]). reflexivity.
  - sm.
  - reflexivity.
  - reflexivity.
  - intros t Ht. replace (j + 4) with (j + 2 + 2) by lia. destruct t as [|[|t]]; [rewrite Nat.add_0_r| |lia]; unfold arith; cbn [vec set_zf set_flags set_gpr put set_vec Nat.eqb]; (apply part_two; [apply part_two; [assumption|lia|lia|assumption..]|lia|lia|assumption..]).
  - reflexivity.
Qed.
Lemma body4_1_ok i j st0 st : regs i st0 -> i + 1 <= m -> cols 1 i j st0 st -> j + 4 <= n -> exists st', block body4_1 st = Some (st', Seq) /\ cols 1 i (j + 4) st0 st' /\ gpr A st' BX = gpr A st BX.
Proof.
  intros Hr Hi H Hj. start Hr H Mo G12 G13 HS HD P.
  destruct (two_x i _ j Mo ltac:(lia)) as (x0 & x1 & X01 & EX01).
  destruct (two_x i _ (j + 2) Mo ltac:(lia)) as (x2 & x3 & X23 & EX23).
  destruct (two_a i _ i j Mo ltac:(lia) ltac:(lia)) as (a0 & a1 & A01 & EA01).
  destruct (two_a i _ i (j + 2) Mo ltac:(lia) ltac:(lia)) as (a2 & a3 & A23 & EA23).
  pose proof (P 0 ltac:(lia)) as P0. rewrite Nat.add_0_r in P0. destruct (part_pair _ _ _ P0) as (u0 & v0 & E0). rewrite E0 in P0.
  let b := eval vm_compute in body4_1 in change body4_1 with b.
  eexists. split; [|split; [eapply cols_step; [exact H|lia|..]|]].
  - rd X01. rd X23. rd A01. rd A23.
    do 2 (eapply block_cons; [go; cbn [firstn map2]; reflexivity|]).
    do 2 (eapply block_cons; [go; rewrite ?E0; cbn [firstn map2]; reflexivity|]).
    do 2 (eapply block_cons; [cbn [GemModel.step]; reflexivity|]). reflexivity.
  - sm.
  - reflexivity.
  - reflexivity.
  - intros t Ht. replace (j + 4) with (j + 2 + 2) by lia. destruct t as [|t]; [rewrite Nat.add_0_r|lia]; unfold arith; cbn [vec set_zf set_flags set_gpr put set_vec Nat.eqb]; (apply part_two; [apply part_two; [assumption|lia|lia|assumption..]|lia|lia|assumption..]).
  - reflexivity.
Qed.
Lemma body2_4_ok i j st0 st : regs i st0 -> i + 4 <= m -> cols 4 i j st0 st -> j + 2 <= n -> exists st', block body2_4 st = Some (st', Seq) /\ cols 4 i (j + 2) st0 st' /\ gpr A st' BX = gpr A st BX.
Proof.
  intros Hr Hi H Hj. start Hr H Mo G12 G13 HS HD P.
  destruct (two_x i _ j Mo ltac:(lia)) as (x0 & x1 & X01 & EX01).
  destruct (two_a i _ i j Mo ltac:(lia) ltac:(lia)) as (a0 & a1 & A01 & EA01).
  destruct (two_a i _ (i + 1) j Mo ltac:(lia) ltac:(lia)) as (b0 & b1 & B01 & EB01).
  destruct (two_a i _ (i + 2) j Mo ltac:(lia) ltac:(lia)) as (c0 & c1 & C01 & EC01).
  destruct (two_a i _ (i + 3) j Mo ltac:(lia) ltac:(lia)) as (d0 & d1 & D01 & ED01).
  pose proof (P 0 ltac:(lia)) as P0. rewrite Nat.add_0_r in P0. destruct (part_pair _ _ _ P0) as (u0 & v0 & E0). rewrite E0 in P0.
  pose proof (P 1 ltac:(lia)) as P1. destruct (part_pair _ _ _ P1) as (u1 & v1 & E1). rewrite E1 in P1.
  pose proof (P 2 ltac:(lia)) as P2. destruct (part_pair _ _ _ P2) as (u2 & v2 & E2). rewrite E2 in P2.
  pose proof (P 3 ltac:(lia)) as P3. destruct (part_pair _ _ _ P3) as (u3 & v3 & E3). rewrite E3 in P3.
  let b := eval vm_compute in body2_4 in change body2_4 with b.
  eexists. split; [|split; [eapply cols_step; [exact H|lia|..]|]].
  - rd X01. rd A01. rd B01. rd C01. rd D01.
    do 4 (eapply block_cons; [go; cbn [firstn map2]; reflexivity|]).
    do 4 (eapply block_cons; [go; rewrite ?E0, ?E1, ?E2, ?E3; cbn [firstn map2]; reflexivity|]).
    do 2 (eapply block_cons; [cbn [GemModel.step]; reflexivity|]). reflexivity.
  - sm.
  - reflexivity.
  - reflexivity.
  - intros t Ht. destruct t as [|[|[|[|t]]]]; [rewrite Nat.add_0_r| | | |lia]; unfold arith; cbn [vec set_zf set_flags set_gpr put set_vec Nat.eqb]; (apply part_two; [assumption|lia|lia|assumption..]).
  - reflexivity.
Qed.
Lemma body2_2_ok i j st0 st : regs i st0 -> i + 2 <= m -> cols 2 i j st0 st -> j + 2 <= n -> exists st', block body2_2 st = Some (st', Seq) /\ cols 2 i (j + 2) st0 st' /\ gpr A st' BX = gpr A st BX.
Proof.
  intros Hr Hi H Hj. start Hr H Mo G12 G13 HS HD P.
  destruct (two_x i _ j Mo ltac:(lia)) as (x0 & x1 & X01 & EX01).
  destruct (two_a i _ i j Mo ltac:(lia) ltac:(lia)) as (a0 & a1 & A01 & EA01).
  destruct (two_a i _ (i + 1) j Mo ltac:(lia) ltac:(lia)) as (b0 & b1 & B01 & EB01).
  pose proof (P 0 ltac:(lia)) as P0. rewrite Nat.add_0_r in P0. destruct (part_pair _ _ _ P0) as (u0 & v0 & E0). rewrite E0 in P0.
  pose proof (P 1 ltac:(lia)) as P1. destruct (part_pair _ _ _ P1) as (u1 & v1 & E1). rewrite E1 in P1.
  let b := eval vm_compute in body2_2 in change body2_2 with b.
  eexists. split; [|split; [eapply cols_step; [exact H|lia|..]|]].
  - rd X01. rd A01. rd B01.
    do 2 (eapply block_cons; [go; cbn [firstn map2]; reflexivity|]).
    do 2 (eapply block_cons; [go; rewrite ?E0, ?E1; cbn [firstn map2]; reflexivity|]).
    do 2 (eapply block_cons; [cbn [GemModel.step]; reflexivity|]). reflexivity.
  - sm.
  - reflexivity.
  - reflexivity.
  - intros t Ht. destruct t as [|[|t]]; [rewrite Nat.add_0_r| |lia]; unfold arith; cbn [vec set_zf set_flags set_gpr put set_vec Nat.eqb]; (apply part_two; [assumption|lia|lia|assumption..]).
  - reflexivity.
Qed.
Lemma body2_1_ok i j st0 st : regs i st0 -> i + 1 <= m -> cols 1 i j st0 st -> j + 2 <= n -> exists st', block body2_1 st = Some (st', Seq) /\ cols 1 i (j + 2) st0 st' /\ gpr A st' BX = gpr A st BX.
Proof.
  intros Hr Hi H Hj. start Hr H Mo G12 G13 HS HD P.
  destruct (two_x i _ j Mo ltac:(lia)) as (x0 & x1 & X01 & EX01).
  destruct (two_a i _ i j Mo ltac:(lia) ltac:(lia)) as (a0 & a1 & A01 & EA01).
  pose proof (P 0 ltac:(lia)) as P0. rewrite Nat.add_0_r in P0. destruct (part_pair _ _ _ P0) as (u0 & v0 & E0). rewrite E0 in P0.
  let b := eval vm_compute in body2_1 in change body2_1 with b.
  eexists. split; [|split; [eapply cols_step; [exact H|lia|..]|]].
  - rd X01. rd A01.
    do 1 (eapply block_cons; [go; cbn [firstn map2]; reflexivity|]).
    do 1 (eapply block_cons; [go; rewrite ?E0; cbn [firstn map2]; reflexivity|]).
    do 2 (eapply block_cons; [cbn [GemModel.step]; reflexivity|]). reflexivity.
  - sm.
  - reflexivity.
  - reflexivity.
  - intros t Ht. destruct t as [|t]; [rewrite Nat.add_0_r|lia]; unfold arith; cbn [vec set_zf set_flags set_gpr put set_vec Nat.eqb]; (apply part_two; [assumption|lia|lia|assumption..]).
  - reflexivity.
Qed.

(** the loop over columns, whatever the number of rows in the group *)
Lemma columns rows i lab lc4 lc2 lc1 b4 b2 c1 st : lc4 <> "" ->
  (forall j st0 st, regs i st0 -> cols rows i j st0 st -> j + 4 <= n -> exists st', block b4 st = Some (st', Seq) /\ cols rows i (j + 4) st0 st' /\ gpr A st' BX = gpr A st BX) ->
  (forall j st0 st, regs i st0 -> cols rows i j st0 st -> j + 2 <= n -> exists st', block b2 st = Some (st', Seq) /\ cols rows i (j + 2) st0 st' /\ gpr A st' BX = gpr A st BX) ->
  let c2 := (lc2, TestQ (N 2) (FP "n") :: Je lc1 :: b2) :: c1 in let c4 := (lc4, b4 ++ DecQ (R BX) :: Jne lc4 :: []) :: c2 in
  from_label gemv_n64 lc4 = Some c4 -> from_label gemv_n64 lc2 = Some c2 -> from_label gemv_n64 lc1 = Some c1 ->
  regs i st -> (forall t, t < rows -> vec A st t = [zero A; zero A]) ->
  exists st' j, cols rows i j st st' /\ n - j = n mod 2 /\ reach ((lab, [MovQ (FP "n") (R BX); ShrQ (N 2) (R BX); Je lc2]) :: c4) st c1 st'.
Proof.
  intros Hl4 H4 H2 c2 c4 F4 F2 F1 Hr Hz.
  pose proof Hr as (HA & HDI & HSI & _ & _ & _ & _ & _ & _ & _ & _ & Hn & _).
  pose proof (bits_small n) as Bn. pose proof (Nat.mod_upper_bound n 2 ltac:(lia)) as U0. pose proof (Nat.mod_upper_bound (n / 2) 2 ltac:(lia)) as U1.
  assert (HS : Z.shiftr (args A st "n") 2 = Z.of_nat (n / 4)) by (rewrite Hn; exact (nat_shiftr n 2)).
  assert (Q4 : n = 4 * (n / 4) + 2 * ((n / 2) mod 2) + n mod 2).
  { pose proof (Nat.div_mod (n / 4) 2 ltac:(lia)) as X. pose proof (Nat.div_div n 4 2 ltac:(lia) ltac:(lia)) as Y. change (4 * 2) with 8 in Y. lia. }
  assert (C0 : forall st', same st st' -> gpr A st' SI = gpr A st SI -> gpr A st' DI = gpr A st DI -> (forall t, t < rows -> vec A st' t = vec A st t) -> cols rows i 0 st st').
  { intros st' S1 S2 S3 S4. split; [exact S1|]. split; [lia|]. split; [rewrite S2, HSI; lia|]. split; [rewrite S3, HDI, HA; do 2 f_equal; lia|].
    intros t Ht. rewrite S4, Hz by exact Ht. apply part_zero. }
  (* after the loop *)
  assert (T2 : forall st1 j, cols rows i j st st1 -> n - j = 2 * ((n / 2) mod 2) + n mod 2 -> exists st' j', cols rows i j' st st' /\ n - j' = n mod 2 /\ reach c2 st1 c1 st').
  { intros st1 j Hc Ej. pose proof Hc as ((_ & _ & _ & Ar & _) & Hj & _).
    set (st2 := set_zf A st1 (Z.of_nat (2 * ((n / 2) mod 2)) =? 0)%Z).
    assert (Hc2 : cols rows i j st st2) by exact Hc.
    assert (Rs : reach c2 st1 (("", Je lc1 :: b2) :: c1) st2).
    { unfold c2. eapply reach_step; [|apply reach_refl]. cbn [GemModel.step GemModel.get]. rewrite Ar, Hn, bit_2. reflexivity. }
    destruct ((n / 2) mod 2) as [|[|]] eqn:E; [| |lia].
    - exists st2, j. split; [exact Hc2|]. split; [lia|]. eapply reach_trans; [exact Rs|]. eapply reach_goto; [reflexivity|exact F1|apply reach_refl].
    - destruct (H2 j st st2 Hr Hc2) as (st3 & B3 & C3 & _); [lia|]. exists st3, (j + 2). split; [exact C3|]. split; [lia|].
      eapply reach_trans; [exact Rs|]. eapply reach_step; [reflexivity|]. rewrite <- (app_nil_r b2). eapply reach_block; [exact B3|]. apply reach_next, reach_refl. }
  set (st1 := set_zf A (set_gpr A (set_gpr A st BX (args A st "n")) BX (Z.of_nat (n / 4))) (Z.of_nat (n / 4) =? 0)%Z).
  assert (R1 : reach ((lab, [MovQ (FP "n") (R BX); ShrQ (N 2) (R BX); Je lc2]) :: c4) st (("", [Je lc2]) :: c4) st1).
  { eapply reach_step; [reflexivity|]. eapply reach_step; [|apply reach_refl]. cbn [GemModel.step]. unfold arith. cbn [GemModel.get put set_gpr gpr]. cbn [ireg_eqb number Nat.eqb]. rewrite HS. reflexivity. }
  assert (C1 : cols rows i 0 st st1) by (apply C0; [sm|reflexivity..]).
  destruct (n / 4) as [|q] eqn:E4.
  - destruct (T2 st1 0 C1 ltac:(lia)) as (st' & j' & C' & E' & R'). exists st', j'. split; [exact C'|]. split; [exact E'|].
    eapply reach_trans; [exact R1|]. eapply reach_goto; [reflexivity|exact F2|exact R'].
  - destruct (loop_dec A 8 2 equal farg gemv_n64 BX lc4 lc4 b4 [] c2
      (fun c s => exists j, cols rows i j st s /\ n - j = 4 * c + (2 * ((n / 2) mod 2) + n mod 2) /\ gpr A s BX = Z.of_nat c) F4) with (n := q) (st := st1) as (st' & (j & C' & E' & _) & R').
    + intros c s z (j & Cj & Ej & Gj). exists j. repeat split; auto; apply Cj.
    + intros c s (j & Cj & Ej & Gj). destruct (H4 j st s Hr Cj ltac:(lia)) as (s' & B' & C' & G'). exists s'. split; [exact B'|]. split; [congruence|].
      exists (j + 4). split; [|split; [lia|reflexivity]]. destruct C' as ((S1 & S2) & S3). split; [|exact S3]. split; [|exact S2].
      intros r Hq. rewrite <- S1 by exact Hq. cbn [In] in Hq. repeat destruct Hq as [<-|Hq]; reflexivity || destruct Hq.
    + exists 0. split; [exact C1|]. split; [lia|reflexivity].
    + destruct (T2 st' j C' ltac:(lia)) as (st2 & j2 & C2 & E2 & R2). exists st2, j2. split; [exact C2|]. split; [exact E2|].
      eapply reach_trans; [exact R1|]. eapply reach_step; [reflexivity|]. apply reach_next. eapply reach_trans; [exact R'|]. apply reach_next. exact R2.
Qed.

Lemma from_some l : existsb (String.eqb l) (map fst gemv_n64) = true -> from_label gemv_n64 l = Some (from l).
Proof.
  intros H. unfold from. destruct (from_label gemv_n64 l) as [c|] eqn:E; [reflexivity|exfalso]. revert H E. generalize gemv_n64. induction c as [|[k is] c IH]; [discriminate|].
  cbn [map fst existsb from_label]. rewrite (String.eqb_sym l k). destruct (String.eqb k l); [discriminate|]. exact IH.
Qed.
Lemma same_trans s0 s1 s2 : same s0 s1 -> same s1 s2 -> same s0 s2.
Proof. intros (G & V14 & V15 & Ar & Me) (G' & V14' & V15' & Ar' & Me'). split; [intros r Hr; now rewrite G', G|]. repeat split; congruence. Qed.
Ltac ex b next := let c := eval vm_compute in (snd (hd ("", []) (from b))) in change (from b) with ((b, c) :: from next).
Ltac s1 := eapply reach_step; [go; reflexivity|].

(** after a group of rows *)
Definition after (rows i : nat) (st0 st : state) : Prop :=
  (forall r, In r [AX; CX; R10; R12; R13] -> gpr A st r = gpr A st0 r) /\ gpr A st DX = (y + 8 * Z.of_nat (i + rows))%Z /\
  vec A st 14 = vec A st0 14 /\ vec A st 15 = vec A st0 15 /\ args A st = args A st0 /\ memok (i + rows) (mem A st).
(** the sums of all columns, before they are stored *)
Lemma last_column i j st0 st : regs i st0 -> cols 1 i j st0 st -> n - j = n mod 2 -> forall k u v, i <= k -> k < m -> part k j [u; v] ->
  (n mod 2 = 0 /\ dot_of A (bin A Add u v) (combine (row k) lx)) \/
  (n mod 2 = 1 /\ j + 1 = n /\ exists p q, mem A st (a + 8 * Z.of_nat (k * n + j))%Z = Some p /\ mem A st (x + 8 * Z.of_nat j)%Z = Some q /\
     dot_of A (bin A Add (bin A Add u v) (bin A Mul p q)) (combine (row k) lx)).
Proof.
  intros Hr ((_ & _ & _ & _ & Me) & Hj & _) E k u v Hk Hm P. pose proof Hr as (_ & _ & _ & _ & _ & _ & _ & _ & _ & _ & _ & _ & Mo). rewrite <- Me in Mo.
  pose proof (Nat.mod_upper_bound n 2 ltac:(lia)) as U. apply part_sum in P. destruct (n mod 2) as [|[|]] eqn:En; [left|right|lia].
  - split; [reflexivity|]. apply dot_all; [exact Hm|]. replace n with j by lia. exact P.
  - split; [reflexivity|]. split; [lia|]. destruct (one_a i _ k j Mo Hm ltac:(lia)) as (p & Rp & Ep). destruct (one_x i _ j Mo ltac:(lia)) as (q & Rq & Eq).
    exists p, q. split; [now apply Rp|]. split; [now apply Rq|]. apply dot_all; [exact Hm|]. replace n with (j + 1) by lia. apply dot_one_more; [exact P|exact Hm|lia|exact Ep|exact Eq].
Qed.
Lemma cols_one rows i j st0 st : 0 < rows -> cols rows i j st0 st -> cols 1 i j st0 st.
Proof. intros Hr (S & Hj & HS & HD & P). split; [exact S|]. split; [exact Hj|]. split; [exact HS|]. split; [exact HD|]. intros t Ht. apply P. lia. Qed.
Lemma same_args i st0 st rows j : regs i st0 -> cols rows i j st0 st -> args A st "n" = Z.of_nat n /\ args A st "m" = Z.of_nat m.
Proof. intros (_ & _ & _ & _ & _ & _ & _ & _ & _ & _ & Hm & Hn & _) ((_ & _ & _ & Ar & _) & _). rewrite Ar. now split. Qed.
Ltac one_read E := eapply reach_step; [go; unfold set_zf, set_flags; cbn [gpr vec mem args set_vec set_mem]; match goal with HS : gpr A _ SI = _ |- _ => try rewrite HS end; match goal with HD : gpr A _ DI = _ |- _ => try rewrite HD end;
  match goal with HD : gpr A _ R12 = _ |- _ => try rewrite HD end; match goal with HD : gpr A _ R13 = _ |- _ => try rewrite HD end;
  match type of E with _ ?b = _ => match goal with |- context [mem A _ ?c] => replace c with b by lia end end; rewrite E; reflexivity|].

Lemma r4c1_ok i j st0 st : regs i st0 -> i + 4 <= m -> cols 4 i j st0 st -> n - j = n mod 2 ->
  exists s d0 d1 d2 d3, reach (from "r4c1") st (from "r4end") s /\ same st0 s /\ vec A s 0 = [d0; d1] /\ vec A s 2 = [d2; d3] /\
    dot_of A d0 (combine (row i) lx) /\ dot_of A d1 (combine (row (i + 1)) lx) /\ dot_of A d2 (combine (row (i + 2)) lx) /\ dot_of A d3 (combine (row (i + 3)) lx).
Proof.
  intros Hr Hi H En. destruct (same_args _ _ _ _ _ Hr H) as [An _]. pose proof (last_column i j st0 st Hr (cols_one 4 _ _ _ _ ltac:(lia) H) En) as LC.
  start Hr H Mo G12 G13 HS HD P.
  pose proof (P 0 ltac:(lia)) as P0. rewrite Nat.add_0_r in P0. destruct (part_pair _ _ _ P0) as (u0 & v0 & E0). rewrite E0 in P0.
  pose proof (P 1 ltac:(lia)) as P1. destruct (part_pair _ _ _ P1) as (u1 & v1 & E1). rewrite E1 in P1.
  pose proof (P 2 ltac:(lia)) as P2. destruct (part_pair _ _ _ P2) as (u2 & v2 & E2). rewrite E2 in P2.
  pose proof (P 3 ltac:(lia)) as P3. destruct (part_pair _ _ _ P3) as (u3 & v3 & E3). rewrite E3 in P3.
  apply LC in P0; [|lia..]. apply LC in P1; [|lia..]. apply LC in P2; [|lia..]. apply LC in P3; [|lia..]. clear LC P.
  assert (Sm : same st0 st) by apply H.
  ex "r4c1" "r4end".
  destruct P0 as [[N0 P0]|(N0 & Ej & p0 & q0 & A0 & X0 & P0)].
  - destruct P1 as [[_ P1]|(N1 & _)]; [|lia]. destruct P2 as [[_ P2]|(N1 & _)]; [|lia]. destruct P3 as [[_ P3]|(N1 & _)]; [|lia].
    eexists _, _, _, _, _. split.
    + do 2 (eapply reach_step; [go; rewrite ?E0, ?E1, ?E2, ?E3; cbn [pairs app]; reflexivity|]).
      eapply reach_step; [cbn [GemModel.step GemModel.get args set_vec]; rewrite An, bit_1, N0; reflexivity|].
      eapply reach_goto; [reflexivity|apply from_some; reflexivity|]. apply reach_refl.
    + split; [exact Sm|]. split; [reflexivity|]. split; [reflexivity|]. now repeat split.
  - destruct P1 as [[N1 _]|(_ & _ & p1 & q1 & A1 & X1 & P1)]; [lia|]. destruct P2 as [[N1 _]|(_ & _ & p2 & q2 & A2 & X2 & P2)]; [lia|]. destruct P3 as [[N1 _]|(_ & _ & p3 & q3 & A3 & X3 & P3)]; [lia|].
    rewrite X0 in X1, X2, X3. injection X1 as <-. injection X2 as <-. injection X3 as <-.
    eexists _, _, _, _, _. split.
    + do 2 (eapply reach_step; [go; rewrite ?E0, ?E1, ?E2, ?E3; cbn [pairs app]; reflexivity|]).
      eapply reach_step; [cbn [GemModel.step GemModel.get args set_vec]; rewrite An, bit_1, N0; reflexivity|].
      eapply reach_step; [reflexivity|].
      one_read X0. one_read A0. one_read A1. one_read A2. one_read A3.
      do 6 (eapply reach_step; [go; cbn [firstn map2 lane_of nth repeat]; reflexivity|]). idtac.
      apply reach_next, reach_refl.
    + split; [eapply same_trans; [exact Sm|sm]|]. split; [reflexivity|]. split; [reflexivity|]. now repeat split.
Qed.

Lemma r2c1_ok i j st0 st : regs i st0 -> i + 2 <= m -> cols 2 i j st0 st -> n - j = n mod 2 ->
  exists s d0 d1, reach (from "r2c1") st (from "r2end") s /\ same st0 s /\ vec A s 0 = [d0; d1] /\
    dot_of A d0 (combine (row i) lx) /\ dot_of A d1 (combine (row (i + 1)) lx).
Proof.
  intros Hr Hi H En. destruct (same_args _ _ _ _ _ Hr H) as [An _]. pose proof (last_column i j st0 st Hr (cols_one 2 _ _ _ _ ltac:(lia) H) En) as LC.
  start Hr H Mo G12 G13 HS HD P.
  pose proof (P 0 ltac:(lia)) as P0. rewrite Nat.add_0_r in P0. destruct (part_pair _ _ _ P0) as (u0 & v0 & E0). rewrite E0 in P0.
  pose proof (P 1 ltac:(lia)) as P1. destruct (part_pair _ _ _ P1) as (u1 & v1 & E1). rewrite E1 in P1.
  apply LC in P0; [|lia..]. apply LC in P1; [|lia..]. clear LC P.
  assert (Sm : same st0 st) by apply H.
  ex "r2c1" "r2end".
  destruct P0 as [[N0 P0]|(N0 & Ej & p0 & q0 & A0 & X0 & P0)].
  - destruct P1 as [[_ P1]|(N1 & _)]; [|lia].
    eexists _, _, _. split.
    + eapply reach_step; [go; rewrite ?E0, ?E1; cbn [pairs app]; reflexivity|].
      eapply reach_step; [cbn [GemModel.step GemModel.get args set_vec]; rewrite An, bit_1, N0; reflexivity|].
      eapply reach_goto; [reflexivity|apply from_some; reflexivity|]. apply reach_refl.
    + split; [exact Sm|]. split; [reflexivity|]. now repeat split.
  - destruct P1 as [[N1 _]|(_ & _ & p1 & q1 & A1 & X1 & P1)]; [lia|].
    rewrite X0 in X1. injection X1 as <-.
    eexists _, _, _. split.
    + eapply reach_step; [go; rewrite ?E0, ?E1; cbn [pairs app]; reflexivity|].
      eapply reach_step; [cbn [GemModel.step GemModel.get args set_vec]; rewrite An, bit_1, N0; reflexivity|].
      eapply reach_step; [reflexivity|].
      one_read X0. one_read A0. one_read A1.
      do 4 (eapply reach_step; [go; cbn [firstn map2 lane_of nth repeat]; reflexivity|]).
      apply reach_next, reach_refl.
    + split; [eapply same_trans; [exact Sm|sm]|]. split; [reflexivity|]. now repeat split.
Qed.
Lemma r1c1_ok i j st0 st : regs i st0 -> i + 1 <= m -> cols 1 i j st0 st -> n - j = n mod 2 ->
  exists s u v, reach (from "r1c1") st (from "r1end") s /\ same st0 s /\ vec A s 0 = [u; v] /\ dot_of A (bin A Add u v) (combine (row i) lx).
Proof.
  intros Hr Hi H En. destruct (same_args _ _ _ _ _ Hr H) as [An _].
  start Hr H Mo G12 G13 HS HD P.
  pose proof (P 0 ltac:(lia)) as P0. rewrite Nat.add_0_r in P0. destruct (part_pair _ _ _ P0) as (u0 & v0 & E0). rewrite E0 in P0. clear P.
  assert (Sm : same st0 st) by apply H. assert (Hj : j <= n) by apply H.
  pose proof (Nat.mod_upper_bound n 2 ltac:(lia)) as U.
  ex "r1c1" "r1end".
  destruct (n mod 2) as [|[|]] eqn:N0; [| |lia].
  - eexists _, _, _. split.
    + eapply reach_step; [cbn [GemModel.step GemModel.get args set_vec]; rewrite An, bit_1, N0; reflexivity|].
      eapply reach_goto; [reflexivity|apply from_some; reflexivity|]. apply reach_refl.
    + split; [exact Sm|]. split; [exact E0|]. apply dot_all; [lia|]. replace n with j by lia. now apply part_sum.
  - destruct (one_a i _ i j Mo ltac:(lia) ltac:(lia)) as (p & Rp & Ep). destruct (one_x i _ j Mo ltac:(lia)) as (q & Rq & Eq).
    specialize (Rp _ eq_refl). specialize (Rq _ eq_refl).
    eexists _, _, _. split.
    + eapply reach_step; [cbn [GemModel.step GemModel.get args set_vec]; rewrite An, bit_1, N0; reflexivity|].
      eapply reach_step; [reflexivity|].
      one_read Rq. one_read Rp.
      eapply reach_step; [go; cbn [firstn map2 lane_of nth repeat skipn app Nat.sub]; reflexivity|].
      eapply reach_step; [go; rewrite ?E0; cbn [firstn map2 lane_of nth repeat skipn app Nat.sub]; reflexivity|].
      eapply reach_step; [reflexivity|].
      apply reach_next, reach_refl.
    + split; [eapply same_trans; [exact Sm|sm]|]. split; [reflexivity|]. apply dot_all; [lia|]. replace n with (j + 1) by lia.
      apply part_sum. apply part_one; [exact P0|lia|lia|exact Ep|exact Eq].
Qed.

(** storing the results *)
Ltac ends Hr Sm :=
  let G := fresh "G" in let Me := fresh "Me" in let Mo := fresh "Mo" in
  pose proof Hr as (_ & _ & _ & GD & G10 & _ & _ & V15 & V14 & _ & _ & _ & Mo); pose proof Sm as (G & Q14 & Q15 & _ & Me);
  rewrite <- Me in Mo; rewrite <- Q14 in V14; rewrite <- Q15 in V15;
  rewrite <- (G R10 ltac:(cbn; tauto)) in G10; rewrite <- (G DX ltac:(cbn; tauto)) in GD.
Lemma r4end_ok i st0 s d0 d1 d2 d3 : regs i st0 -> i + 4 <= m -> same st0 s -> vec A s 0 = [d0; d1] -> vec A s 2 = [d2; d3] ->
  dot_of A d0 (combine (row i) lx) -> dot_of A d1 (combine (row (i + 1)) lx) -> dot_of A d2 (combine (row (i + 2)) lx) -> dot_of A d3 (combine (row (i + 3)) lx) ->
  exists s', reach (from "r4end") s (from "r4inc") s' /\ after 4 i st0 s'.
Proof.
  intros Hr Hi Sm V0 V2 D0 D1 D2 D3. ends Hr Sm.
  destruct (memok_write i (mem A s) [d0; d1] (gpr A s DX) Mo) as (m1 & W1 & K1); [cbn [length]; lia| |exact GD|].
  { intros [|[|t]] v E; [injection E as <-; now rewrite Nat.add_0_r|injection E as <-; exact D1|now destruct t]. }
  destruct (memok_write (i + 2) m1 [d2; d3] (gpr A s DX + 16)%Z K1) as (m2 & W2 & K2); [cbn [length]; lia| |lia|].
  { intros [|[|t]] v E; [injection E as <-; now rewrite Nat.add_0_r|injection E as <-; rewrite <- Nat.add_assoc; exact D3|now destruct t]. }
  pose proof (read_y i (mem A s) i 2 (gpr A s DX) Mo ltac:(lia) ltac:(lia) GD) as R1.
  pose proof (read_y i (mem A s) (i + 2) 2 (gpr A s DX + 16)%Z Mo ltac:(lia) ltac:(lia) ltac:(lia)) as R2.
  cbn [repeat] in R1, R2. cbn [map] in W1, W2. unfold fin in W1, W2. ex "r4end" "r4st_inc".
  eexists. split.
  - eapply reach_step; [cbn [GemModel.step GemModel.get]; rewrite G10; reflexivity|]. eapply reach_step; [reflexivity|].
    eapply reach_step; [go; unfold set_flags; cbn [gpr vec mem args]; rewrite !Z.add_0_r, R1; reflexivity|].
    eapply reach_step; [go; rewrite !Z.add_0_r, R2; reflexivity|].
    do 4 (eapply reach_step; [go; rewrite ?V0, ?V2, ?V14, ?V15; cbn [firstn map2]; reflexivity|]).
    do 2 (eapply reach_step; [go; cbn [firstn map2]; reflexivity|]).
    eapply reach_step; [go; rewrite !Z.add_0_r, W1; reflexivity|].
    eapply reach_step; [go; rewrite !Z.add_0_r, W2; reflexivity|].
    s1. eapply reach_goto; [reflexivity|apply from_some; reflexivity|]. apply reach_refl.
  - split; [intros r Hq; rewrite <- (G r) by (cbn [In] in *; tauto); cbn [In] in Hq; repeat destruct Hq as [<-|Hq]; [reflexivity..|destruct Hq]|].
    split; [unfold arith; cbn [GemModel.get put set_zf set_flags set_gpr gpr ireg_eqb number Nat.eqb set_mem set_vec]; rewrite GD; lia|].
    destruct Sm as (_ & _ & _ & Ar & _). split; [exact Q14|]. split; [exact Q15|]. split; [exact Ar|]. replace (i + 4) with (i + 2 + 2) by lia. exact K2.
Qed.
Lemma r2end_ok i st0 s d0 d1 : regs i st0 -> i + 2 <= m -> same st0 s -> vec A s 0 = [d0; d1] ->
  dot_of A d0 (combine (row i) lx) -> dot_of A d1 (combine (row (i + 1)) lx) ->
  exists s', reach (from "r2end") s (from "r2inc") s' /\ after 2 i st0 s'.
Proof.
  intros Hr Hi Sm V0 D0 D1. ends Hr Sm.
  destruct (memok_write i (mem A s) [d0; d1] (gpr A s DX) Mo) as (m1 & W1 & K1); [cbn [length]; lia| |exact GD|].
  { intros [|[|t]] v E; [injection E as <-; now rewrite Nat.add_0_r|injection E as <-; exact D1|now destruct t]. }
  pose proof (read_y i (mem A s) i 2 (gpr A s DX) Mo ltac:(lia) ltac:(lia) GD) as R1.
  cbn [repeat] in R1. cbn [map] in W1. unfold fin in W1. ex "r2end" "r2st_inc".
  eexists. split.
  - eapply reach_step; [cbn [GemModel.step GemModel.get]; rewrite G10; reflexivity|]. eapply reach_step; [reflexivity|].
    eapply reach_step; [go; unfold set_flags; cbn [gpr vec mem args]; rewrite !Z.add_0_r, R1; reflexivity|].
    do 2 (eapply reach_step; [go; rewrite ?V0, ?V14, ?V15; cbn [firstn map2]; reflexivity|]).
    eapply reach_step; [go; cbn [firstn map2]; reflexivity|].
    eapply reach_step; [go; rewrite !Z.add_0_r, W1; reflexivity|].
    s1. eapply reach_goto; [reflexivity|apply from_some; reflexivity|]. apply reach_refl.
  - split; [intros r Hq; rewrite <- (G r) by (cbn [In] in *; tauto); cbn [In] in Hq; repeat destruct Hq as [<-|Hq]; [reflexivity..|destruct Hq]|].
    split; [unfold arith; cbn [GemModel.get put set_zf set_flags set_gpr gpr ireg_eqb number Nat.eqb set_mem set_vec]; rewrite GD; lia|].
    destruct Sm as (_ & _ & _ & Ar & _). split; [exact Q14|]. split; [exact Q15|]. split; [exact Ar|]. exact K1.
Qed.
Lemma r1end_ok i st0 s u v : regs i st0 -> i + 1 <= m -> same st0 s -> vec A s 0 = [u; v] -> dot_of A (bin A Add u v) (combine (row i) lx) ->
  exists s', reach (from "r1end") s (from "end") s' /\ memok (i + 1) (mem A s').
Proof.
  intros Hr Hi Sm V0 D0. ends Hr Sm.
  destruct (memok_write i (mem A s) [bin A Add u v] (gpr A s DX) Mo) as (m1 & W1 & K1); [cbn [length]; lia| |exact GD|].
  { intros [|t] w E; [injection E as <-; now rewrite Nat.add_0_r|now destruct t]. }
  assert (R1 : mem A s (gpr A s DX) = Some (zero A)) by (destruct Mo as (_ & _ & Zr); rewrite GD; apply Zr; lia).
  cbn [map] in W1. unfold fin in W1. ex "r1end" "end".
  eexists. split.
  - eapply reach_step; [go; rewrite V0; cbn [pairs app]; reflexivity|].
    eapply reach_step; [go; rewrite !Z.add_0_r, R1; reflexivity|].
    eapply reach_step; [go; rewrite ?V15; cbn [firstn map2 skipn app]; reflexivity|].
    eapply reach_step; [go; rewrite ?V14; cbn [firstn map2 skipn app]; reflexivity|].
    eapply reach_step; [go; cbn [firstn map2 skipn app]; reflexivity|].
    eapply reach_step; [go; cbn [firstn]; rewrite !Z.add_0_r, W1; reflexivity|].
    apply reach_next, reach_refl.
  - exact K1.
Qed.

(** ** Groups of rows *)
Lemma r4_ok i st : regs i st -> i + 4 <= m -> exists st', reach (from "r4") st (from "r4inc") st' /\ after 4 i st st'.
Proof.
  intros Hr Hi. ex "r4" "r4c4".
  set (s := set_vec A (set_vec A (set_vec A (set_vec A st 0 [zero A; zero A]) 1 [zero A; zero A]) 2 [zero A; zero A]) 3 [zero A; zero A]).
  assert (Hs : regs i s) by exact Hr.
  destruct (columns 4 i "" "r4c4" "r4c2" "r4c1" body4_4 body2_4 (from "r4c1") s) as (s1 & j & C1 & E1 & R1); try reflexivity; try exact Hs.
  - discriminate.
  - intros; now apply body4_4_ok.
  - intros; now apply body2_4_ok.
  - intros [|[|[|[|t]]]] Ht; [reflexivity..|lia].
  - destruct (r4c1_ok i j s s1 Hs Hi C1 E1) as (s2 & d0 & d1 & d2 & d3 & R2 & S2 & V0 & V2 & D0 & D1 & D2 & D3).
    destruct (r4end_ok i s s2 d0 d1 d2 d3 Hs Hi S2 V0 V2 D0 D1 D2 D3) as (s3 & R3 & A3).
    exists s3. split; [|exact A3]. do 4 (eapply reach_step; [reflexivity|]). eapply reach_trans; [exact R1|]. eapply reach_trans; [exact R2|exact R3].
Qed.
Lemma r2_ok i st : regs i st -> i + 2 <= m -> exists st', reach (("", skipn 2 (snd (hd ("", []) (from "r2")))) :: from "r2c4") st (from "r2inc") st' /\ after 2 i st st'.
Proof.
  intros Hr Hi. let c := eval vm_compute in (skipn 2 (snd (hd ("", []) (from "r2")))) in change (skipn 2 (snd (hd ("", []) (from "r2")))) with c.
  set (s := set_vec A (set_vec A st 0 [zero A; zero A]) 1 [zero A; zero A]).
  assert (Hs : regs i s) by exact Hr.
  destruct (columns 2 i "" "r2c4" "r2c2" "r2c1" body4_2 body2_2 (from "r2c1") s) as (s1 & j & C1 & E1 & R1); try reflexivity; try exact Hs.
  - discriminate.
  - intros; now apply body4_2_ok.
  - intros; now apply body2_2_ok.
  - intros [|[|t]] Ht; [reflexivity..|lia].
  - destruct (r2c1_ok i j s s1 Hs Hi C1 E1) as (s2 & d0 & d1 & R2 & S2 & V0 & D0 & D1).
    destruct (r2end_ok i s s2 d0 d1 Hs Hi S2 V0 D0 D1) as (s3 & R3 & A3).
    exists s3. split; [|exact A3]. do 2 (eapply reach_step; [reflexivity|]). eapply reach_trans; [exact R1|]. eapply reach_trans; [exact R2|exact R3].
Qed.
Lemma r1_ok i st : regs i st -> i + 1 <= m -> exists st', reach (("", skipn 2 (snd (hd ("", []) (from "r1")))) :: from "r1c4") st (from "end") st' /\ memok (i + 1) (mem A st').
Proof.
  intros Hr Hi. let c := eval vm_compute in (skipn 2 (snd (hd ("", []) (from "r1")))) in change (skipn 2 (snd (hd ("", []) (from "r1")))) with c.
  set (s := set_vec A st 0 [zero A; zero A]).
  assert (Hs : regs i s) by exact Hr.
  destruct (columns 1 i "" "r1c4" "r1c2" "r1c1" body4_1 body2_1 (from "r1c1") s) as (s1 & j & C1 & E1 & R1); try reflexivity; try exact Hs.
  - discriminate.
  - intros; now apply body4_1_ok.
  - intros; now apply body2_1_ok.
  - intros [|t] Ht; [reflexivity..|lia].
  - destruct (r1c1_ok i j s s1 Hs Hi C1 E1) as (s2 & u & v & R2 & S2 & V0 & D0).
    destruct (r1end_ok i s s2 u v Hs Hi S2 V0 D0) as (s3 & R3 & A3).
    exists s3. split; [|exact A3]. do 1 (eapply reach_step; [reflexivity|]). eapply reach_trans; [exact R1|]. eapply reach_trans; [exact R2|exact R3].
Qed.
(** moving on to the next group *)
Lemma regs_next rows i st0 st s : regs i st0 -> after rows i st0 st -> args A s = args A st -> mem A s = mem A st -> vec A s 14 = vec A st 14 -> vec A s 15 = vec A st 15 ->
  gpr A s SI = args A st "x_base" -> gpr A s AX = (gpr A st AX + 8 * Z.of_nat n * Z.of_nat rows)%Z -> gpr A s DI = gpr A s AX ->
  (forall r, In r [DX; R10; R12; R13] -> gpr A s r = gpr A st r) -> regs (i + rows) s.
Proof.
  intros (HA & HDI & HSI & HDX & H10 & H12 & H13 & V15 & V14 & Bx & Bm & Bn & Mo) (G & GD & Q14 & Q15 & Ar & Mo') E1 E2 E3 E4 ES EA ED EG.
  unfold regs. rewrite ED, EA, ES, E1, E2, E3, E4, Q14, Q15, Ar.
  rewrite (EG DX), (EG R10), (EG R12), (EG R13), (G AX), (G R10), (G R12), (G R13) by (cbn; tauto). rewrite HA.
  repeat split; try assumption; try lia; apply Mo'.
Qed.
Lemma r4s k : forall i st, regs i st -> gpr A st CX = Z.of_nat (S k) -> i + 4 * S k <= m -> exists st', regs (i + 4 * S k) st' /\ reach (from "r4") st (from "r2") st'.
Proof.
  induction k as [|k IH]; intros i st Hr HC Hi; destruct (r4_ok i st Hr ltac:(lia)) as (s1 & R1 & A1).
  - set (s2 := set_gpr A (set_gpr A (set_gpr A s1 SI (args A s1 "x_base")) AX (address A (set_gpr A s1 SI (args A s1 "x_base")) (At AX (Some (R12, 4%Z)) 0))) DI (address A (set_gpr A s1 SI (args A s1 "x_base")) (At AX (Some (R12, 4%Z)) 0))).
    assert (EC : gpr A s2 CX = Z.of_nat 1) by (destruct A1 as (G & _); rewrite <- HC, <- (G CX) by (cbn; tauto); reflexivity).
    exists (set_zf A (set_gpr A s2 CX 0) true). split.
    + eapply regs_next; [exact Hr|exact A1|reflexivity..| | |].
      * change (gpr A s1 AX + gpr A s1 R12 * 4 + 0 = gpr A s1 AX + 8 * Z.of_nat n * Z.of_nat 4)%Z. destruct A1 as (G & _). rewrite (G R12) by (cbn; tauto). destruct Hr as (_ & _ & _ & _ & _ & -> & _). lia.
      * reflexivity.
      * intros r Hq. cbn [In] in Hq. repeat destruct Hq as [<-|Hq]; reflexivity || destruct Hq.
    + eapply reach_trans; [exact R1|]. ex "r4inc" "r2". do 3 (eapply reach_step; [reflexivity|]). fold s2.
      eapply reach_step. { cbn [GemModel.step]. unfold arith. cbn [GemModel.get put]. match goal with |- context [gpr A ?s CX] => change (gpr A s CX) with (gpr A s2 CX) end. rewrite EC. reflexivity. }
      eapply reach_step; [reflexivity|]. apply reach_next, reach_refl.
  - set (s2 := set_gpr A (set_gpr A (set_gpr A s1 SI (args A s1 "x_base")) AX (address A (set_gpr A s1 SI (args A s1 "x_base")) (At AX (Some (R12, 4%Z)) 0))) DI (address A (set_gpr A s1 SI (args A s1 "x_base")) (At AX (Some (R12, 4%Z)) 0))).
    assert (EC : gpr A s2 CX = Z.of_nat (S (S k))) by (destruct A1 as (G & _); rewrite <- HC, <- (G CX) by (cbn; tauto); reflexivity).
    set (s3 := set_zf A (set_gpr A s2 CX (Z.of_nat (S k))) false).
    destruct (IH (i + 4) s3) as (s4 & H4 & R4).
    + eapply regs_next; [exact Hr|exact A1|reflexivity..| | |].
      * change (gpr A s1 AX + gpr A s1 R12 * 4 + 0 = gpr A s1 AX + 8 * Z.of_nat n * Z.of_nat 4)%Z. destruct A1 as (G & _). rewrite (G R12) by (cbn; tauto). destruct Hr as (_ & _ & _ & _ & _ & -> & _). lia.
      * reflexivity.
      * intros r Hq. cbn [In] in Hq. repeat destruct Hq as [<-|Hq]; reflexivity || destruct Hq.
    + reflexivity.
    + lia.
    + exists s4. split; [replace (i + 4 * S (S k)) with (i + 4 + 4 * S k) by lia; exact H4|].
      eapply reach_trans; [exact R1|]. ex "r4inc" "r2". do 3 (eapply reach_step; [reflexivity|]). fold s2.
      eapply reach_step. { cbn [GemModel.step]. unfold arith. cbn [GemModel.get put]. match goal with |- context [gpr A ?s CX] => change (gpr A s CX) with (gpr A s2 CX) end. rewrite EC.
        replace (Z.of_nat (S (S k)) - 1)%Z with (Z.of_nat (S k)) by lia. replace (Z.of_nat (S k) =? 0)%Z with false by (symmetry; apply Z.eqb_neq; lia). reflexivity. }
      eapply reach_goto; [reflexivity|apply from_some; reflexivity|exact R4].
Qed.
Lemma r2s i st : regs i st -> i + 2 * ((m / 2) mod 2) <= m -> exists st', regs (i + 2 * ((m / 2) mod 2)) st' /\ reach (from "r2") st (from "r1") st'.
Proof.
  intros Hr Hi. pose proof Hr as (_ & _ & _ & _ & _ & H12 & _ & _ & _ & _ & Hm & _). pose proof (Nat.mod_upper_bound (m / 2) 2 ltac:(lia)) as U.
  set (s := set_zf A st (Z.of_nat (2 * ((m / 2) mod 2)) =? 0)%Z). assert (Hs : regs i s) by exact Hr.
  assert (R0 : reach (from "r2") st (("", Je "r1" :: skipn 2 (snd (hd ("", []) (from "r2")))) :: from "r2c4") s).
  { change (from "r2") with (("r2", TestQ (N 2) (FP "m") :: Je "r1" :: skipn 2 (snd (hd ("", []) (from "r2")))) :: from "r2c4").
    eapply reach_step; [|apply reach_refl]. cbn [GemModel.step GemModel.get]. rewrite Hm, bit_2. reflexivity. }
  destruct ((m / 2) mod 2) as [|[|]] eqn:E; [| |lia].
  - exists s. split; [rewrite Nat.add_0_r; exact Hs|]. eapply reach_trans; [exact R0|]. eapply reach_goto; [reflexivity|apply from_some; reflexivity|apply reach_refl].
  - destruct (r2_ok i s Hs ltac:(lia)) as (s1 & R1 & A1). eexists. split; [|eapply reach_trans; [exact R0|]; eapply reach_step; [reflexivity|]; eapply reach_trans; [exact R1|]; ex "r2inc" "r1"; do 3 (eapply reach_step; [reflexivity|]); apply reach_next, reach_refl].
    eapply regs_next; [exact Hs|exact A1|reflexivity..| | |].
    + change (gpr A s1 AX + gpr A s1 R12 * 2 + 0 = gpr A s1 AX + 8 * Z.of_nat n * Z.of_nat 2)%Z. destruct A1 as (G & _). rewrite (G R12) by (cbn; tauto). change (gpr A s R12) with (gpr A st R12). rewrite H12. lia.
    + reflexivity.
    + intros r Hq. cbn [In] in Hq. repeat destruct Hq as [<-|Hq]; reflexivity || destruct Hq.
Qed.
Lemma r1s i st : regs i st -> i + m mod 2 = m -> exists st', memok m (mem A st') /\ reach (from "r1") st (from "end") st'.
Proof.
  intros Hr Hi. pose proof Hr as (_ & _ & _ & _ & _ & H12 & _ & _ & _ & _ & Hm & _ & Mo). pose proof (Nat.mod_upper_bound m 2 ltac:(lia)) as U.
  set (s := set_zf A st (Z.of_nat (m mod 2) =? 0)%Z). assert (Hs : regs i s) by exact Hr.
  assert (R0 : reach (from "r1") st (("", Je "end" :: skipn 2 (snd (hd ("", []) (from "r1")))) :: from "r1c4") s).
  { change (from "r1") with (("r1", TestQ (N 1) (FP "m") :: Je "end" :: skipn 2 (snd (hd ("", []) (from "r1")))) :: from "r1c4").
    eapply reach_step; [|apply reach_refl]. cbn [GemModel.step GemModel.get]. rewrite Hm, bit_1. reflexivity. }
  destruct (m mod 2) as [|[|]] eqn:E; [| |lia].
  - exists s. split; [replace m with i by lia; exact Mo|]. eapply reach_trans; [exact R0|]. eapply reach_goto; [reflexivity|apply from_some; reflexivity|apply reach_refl].
  - destruct (r1_ok i s Hs ltac:(lia)) as (s1 & R1 & A1). exists s1. split; [replace m with (i + 1) by lia; exact A1|].
    eapply reach_trans; [exact R0|]. eapply reach_step; [reflexivity|exact R1].
Qed.
(** from the cleared vector to the end *)
Lemma rows_ok st : regs 0 st -> gpr A st CX = Z.of_nat m -> args A st "incX" = 1%Z -> exists st', memok m (mem A st') /\ reach (from "gemv_start") st (from "end") st'.
Proof.
  intros Hr HC HI. pose proof (bits_small m) as B. pose proof (Nat.mod_upper_bound m 2 ltac:(lia)) as U0. pose proof (Nat.mod_upper_bound (m / 2) 2 ltac:(lia)) as U1.
  assert (Q4 : m = 4 * (m / 4) + 2 * ((m / 2) mod 2) + m mod 2).
  { pose proof (Nat.div_mod (m / 4) 2 ltac:(lia)) as X. pose proof (Nat.div_div m 4 2 ltac:(lia) ltac:(lia)) as Y. change (4 * 2) with 8 in Y. lia. }
  assert (HS : Z.shiftr (Z.of_nat m) 2 = Z.of_nat (m / 4)) by exact (nat_shiftr m 2).
  set (s := set_zf A (set_gpr A (set_flags A st true false) CX (Z.of_nat (m / 4))) (Z.of_nat (m / 4) =? 0)%Z). assert (Hs : regs 0 s) by exact Hr.
  assert (R0 : reach (from "gemv_start") st (("", [Je "r2"]) :: from "r4") s).
  { ex "gemv_start" "r4". eapply reach_step; [cbn [GemModel.step GemModel.get]; rewrite HI; reflexivity|]. eapply reach_step; [reflexivity|].
    eapply reach_step; [|apply reach_refl]. cbn [GemModel.step]. unfold arith. cbn [GemModel.get put set_flags gpr]. rewrite HC, HS. reflexivity. }
  assert (T : forall s, regs (4 * (m / 4)) s -> exists st', memok m (mem A st') /\ reach (from "r2") s (from "end") st').
  { intros s' H'. destruct (r2s _ s' H' ltac:(lia)) as (s1 & H1 & R1). destruct (r1s _ s1 H1 ltac:(lia)) as (s2 & H2 & R2). exists s2. split; [exact H2|].
    eapply reach_trans; [exact R1|exact R2]. }
  destruct (m / 4) as [|k] eqn:E.
  - destruct (T s Hs) as (s1 & H1 & R1). exists s1. split; [exact H1|]. eapply reach_trans; [exact R0|]. eapply reach_goto; [reflexivity|apply from_some; reflexivity|exact R1].
  - destruct (r4s k 0 s Hs eq_refl ltac:(lia)) as (s1 & H1 & R1). destruct (T s1 H1) as (s2 & H2 & R2). exists s2. split; [exact H2|].
    eapply reach_trans; [exact R0|]. eapply reach_step; [reflexivity|]. apply reach_next. eapply reach_trans; [exact R1|exact R2].
Qed.

(** ** Clearing the result *)
Definition cleared (i : nat) (mm : memory) : Prop :=
  (forall p, ~ within y m p -> mm p = m0 p) /\ (forall k, k < i -> mm (y + 8 * Z.of_nat k)%Z = Some (zero A)) /\ (forall k, k < m -> mm (y + 8 * Z.of_nat k)%Z <> None).
Lemma clear_write i mm e p : cleared i mm -> i + e <= m -> p = (y + 8 * Z.of_nat i)%Z -> exists mm', write mm p (repeat (zero A) e) = Some mm' /\ cleared (i + e) mm'.
Proof.
  intros (F & D & C) H ->. destruct (write_some A 8 mm (y + 8 * Z.of_nat i)%Z (repeat (zero A) e)) as [mm' W].
  { rewrite repeat_length. intros j Hj. replace (y + 8 * Z.of_nat i + 8 * Z.of_nat j)%Z with (y + 8 * Z.of_nat (i + j))%Z by lia. apply C. lia. }
  assert (In_ : forall k, i <= k -> k < i + e -> mm' (y + 8 * Z.of_nat k)%Z = Some (zero A)).
  { intros k Q1 Q2. replace (y + 8 * Z.of_nat k)%Z with (y + 8 * Z.of_nat i + 8 * Z.of_nat (k - i))%Z by lia. rewrite (write_get A 8 ltac:(lia) _ _ _ _ (k - i) W) by (rewrite repeat_length; lia).
    rewrite (nth_error_nth' _ (zero A)) by (rewrite repeat_length; lia). now rewrite nth_repeat. }
  assert (Out : forall k, k < i \/ i + e <= k -> mm' (y + 8 * Z.of_nat k)%Z = mm (y + 8 * Z.of_nat k)%Z).
  { intros k Q. rewrite (write_frame A 8 _ _ _ _ _ W); [reflexivity|]. rewrite repeat_length. intros j Hj E'. lia. }
  exists mm'. split; [exact W|]. split; [|split].
  - intros p Hp. rewrite (write_frame A 8 _ _ _ _ _ W); [now apply F|]. intros j Hj ->. apply Hp. rewrite repeat_length in Hj. exists (i + j). split; lia.
  - intros k Hk. destruct (Nat.lt_ge_cases k i) as [Q|Q]; [rewrite Out by lia; now apply D|now apply In_].
  - intros k Hk. destruct (Nat.lt_ge_cases k i) as [Q|Q]; [rewrite Out by lia; now apply C|]. destruct (Nat.lt_ge_cases k (i + e)) as [Q'|Q']; [now rewrite In_|rewrite Out by lia; now apply C].
Qed.
Lemma cleared_memok mm : cleared m mm -> memok 0 mm.
Proof. intros (F & D & C). split; [exact F|]. split; [lia|]. intros k _ Hk. now apply D. Qed.
Definition clr (i : nat) (st0 st : state) : Prop :=
  gpr A st DX = (y + 8 * Z.of_nat i)%Z /\ (forall r, In r [AX; SI; DI; R10; R12; R13] -> gpr A st r = gpr A st0 r) /\ vec A st = vec A st0 /\ args A st = args A st0 /\ cleared i (mem A st).
Definition zeros (st : state) : Prop := vec A st 0 = [zero A; zero A] /\ vec A st 1 = [zero A; zero A] /\ vec A st 2 = [zero A; zero A] /\ vec A st 3 = [zero A; zero A].
Ltac kept G := let r := fresh in let Hq := fresh in intros r Hq; rewrite <- (G r) by exact Hq; cbn [In] in Hq; repeat destruct Hq as [<-|Hq]; [reflexivity..|destruct Hq].

Definition clear8 : list instr := firstn 5 (snd (hd ("", []) (from "clear8"))).
Lemma clear8_ok i st0 st : clr i st0 st -> zeros st0 -> i + 8 <= m -> exists st', block clear8 st = Some (st', Seq) /\ clr (i + 8) st0 st' /\ gpr A st' CX = gpr A st CX.
Proof.
  intros (GD & G & Ve & Ar & C) (V0 & V1 & V2 & V3) H.
  destruct (clear_write i _ 2 (gpr A st DX) C ltac:(lia) GD) as (m1 & W1 & C1).
  destruct (clear_write (i + 2) _ 2 (gpr A st DX + 16)%Z C1 ltac:(lia) ltac:(lia)) as (m2 & W2 & C2).
  destruct (clear_write (i + 2 + 2) _ 2 (gpr A st DX + 32)%Z C2 ltac:(lia) ltac:(lia)) as (m3 & W3 & C3).
  destruct (clear_write (i + 2 + 2 + 2) _ 2 (gpr A st DX + 48)%Z C3 ltac:(lia) ltac:(lia)) as (m4 & W4 & C4).
  cbn [repeat] in W1, W2, W3, W4.
  let b := eval vm_compute in clear8 in change clear8 with b. eexists. split; [|split].
  - eapply block_cons; [go; rewrite !Z.add_0_r, Ve, V0, W1; reflexivity|].
    eapply block_cons; [go; rewrite !Z.add_0_r, Ve, V1, W2; reflexivity|].
    eapply block_cons; [go; rewrite !Z.add_0_r, Ve, V2, W3; reflexivity|].
    eapply block_cons; [go; rewrite !Z.add_0_r, Ve, V3, W4; reflexivity|].
    eapply block_cons; [reflexivity|]. reflexivity.
  - split; [|split; [kept G|split; [exact Ve|split; [exact Ar|]]]].
    + change (gpr A st DX + 64 = y + 8 * Z.of_nat (i + 8))%Z. lia.
    + replace (i + 8) with (i + 2 + 2 + 2 + 2) by lia. exact C4.
  - reflexivity.
Qed.
Lemma clear4_ok i st0 st : clr i st0 st -> zeros st0 -> args A st0 "m" = Z.of_nat m -> i + 4 * ((m / 4) mod 2) <= m ->
  exists st', clr (i + 4 * ((m / 4) mod 2)) st0 st' /\ reach (from "clear4") st (from "clear2") st'.
Proof.
  intros (GD & G & Ve & Ar & C) (V0 & V1 & V2 & V3) Hm H. pose proof (Nat.mod_upper_bound (m / 4) 2 ltac:(lia)) as U.
  destruct ((m / 4) mod 2) as [|[|]] eqn:E; [| |lia].
  - eexists. split; [|ex "clear4" "clear2"; eapply reach_step; [cbn [GemModel.step GemModel.get]; rewrite Ar, Hm, bit_4, E; reflexivity|];
      eapply reach_goto; [reflexivity|apply from_some; reflexivity|apply reach_refl]].
    rewrite Nat.add_0_r. split; [exact GD|]. split; [kept G|]. split; [exact Ve|]. split; [exact Ar|exact C].
  - destruct (clear_write i _ 2 (gpr A st DX) C ltac:(lia) GD) as (m1 & W1 & C1).
    destruct (clear_write (i + 2) _ 2 (gpr A st DX + 16)%Z C1 ltac:(lia) ltac:(lia)) as (m2 & W2 & C2).
    cbn [repeat] in W1, W2.
    eexists. split.
    2:{ ex "clear4" "clear2". eapply reach_step; [cbn [GemModel.step GemModel.get]; rewrite Ar, Hm, bit_4, E; reflexivity|]. eapply reach_step; [reflexivity|].
        eapply reach_step; [go; unfold set_zf, set_flags; cbn [gpr vec mem args]; rewrite !Z.add_0_r, Ve, V0, W1; reflexivity|].
        eapply reach_step; [go; rewrite !Z.add_0_r, V1, W2; reflexivity|].
        eapply reach_step; [reflexivity|]. apply reach_next, reach_refl. }
    split; [|split; [kept G|split; [reflexivity|split; [exact Ar|]]]].
    + change (gpr A st DX + 32 = y + 8 * Z.of_nat (i + 4))%Z. lia.
    + replace (i + 4 * 1) with (i + 2 + 2) by lia. exact C2.
Qed.
Lemma clear2_ok i st0 st : clr i st0 st -> zeros st0 -> args A st0 "m" = Z.of_nat m -> i + 2 * ((m / 2) mod 2) <= m ->
  exists st', clr (i + 2 * ((m / 2) mod 2)) st0 st' /\ reach (from "clear2") st (from "clear1") st'.
Proof.
  intros (GD & G & Ve & Ar & C) (V0 & V1 & V2 & V3) Hm H. pose proof (Nat.mod_upper_bound (m / 2) 2 ltac:(lia)) as U.
  destruct ((m / 2) mod 2) as [|[|]] eqn:E; [| |lia].
  - eexists. split; [|ex "clear2" "clear1"; eapply reach_step; [cbn [GemModel.step GemModel.get]; rewrite Ar, Hm, bit_2, E; reflexivity|];
      eapply reach_goto; [reflexivity|apply from_some; reflexivity|apply reach_refl]].
    rewrite Nat.add_0_r. split; [exact GD|]. split; [kept G|]. split; [exact Ve|]. split; [exact Ar|exact C].
  - destruct (clear_write i _ 2 (gpr A st DX) C ltac:(lia) GD) as (m1 & W1 & C1).
    cbn [repeat] in W1.
    eexists. split.
    2:{ ex "clear2" "clear1". eapply reach_step; [cbn [GemModel.step GemModel.get]; rewrite Ar, Hm, bit_2, E; reflexivity|]. eapply reach_step; [reflexivity|].
        eapply reach_step; [go; unfold set_zf, set_flags; cbn [gpr vec mem args]; rewrite !Z.add_0_r, Ve, V0, W1; reflexivity|].
        eapply reach_step; [reflexivity|]. apply reach_next, reach_refl. }
    split; [|split; [kept G|split; [reflexivity|split; [exact Ar|]]]].
    + change (gpr A st DX + 16 = y + 8 * Z.of_nat (i + 2))%Z. lia.
    + exact C1.
Qed.
Lemma clear1_ok i st0 st : clr i st0 st -> zeros st0 -> args A st0 "m" = Z.of_nat m -> i + m mod 2 = m ->
  exists st', (forall r, In r [AX; SI; DI; R10; R12; R13] -> gpr A st' r = gpr A st0 r) /\ vec A st' = vec A st0 /\ args A st' = args A st0 /\ cleared m (mem A st') /\ reach (from "clear1") st (from "prep_end") st'.
Proof.
  intros (GD & G & Ve & Ar & C) (V0 & V1 & V2 & V3) Hm H. pose proof (Nat.mod_upper_bound m 2 ltac:(lia)) as U.
  destruct (m mod 2) as [|[|]] eqn:E; [| |lia].
  - eexists. split; [|split; [|split; [|split; [|ex "clear1" "inc_clear"; eapply reach_step; [cbn [GemModel.step GemModel.get]; rewrite Ar, Hm, bit_1, E; reflexivity|];
      eapply reach_goto; [reflexivity|apply from_some; reflexivity|apply reach_refl]]]]].
    + kept G. + exact Ve. + exact Ar. + replace m with i by lia. exact C.
  - destruct (clear_write i _ 1 (gpr A st DX) C ltac:(lia) GD) as (m1 & W1 & C1).
    cbn [repeat] in W1.
    eexists. split; [|split; [|split; [|split]]].
    5:{ ex "clear1" "inc_clear". eapply reach_step; [cbn [GemModel.step GemModel.get]; rewrite Ar, Hm, bit_1, E; reflexivity|]. eapply reach_step; [reflexivity|].
        eapply reach_step; [go; unfold set_zf, set_flags; cbn [gpr vec mem args]; rewrite !Z.add_0_r, Ve, V0; cbn [firstn]; rewrite W1; reflexivity|].
        eapply reach_goto; [reflexivity|apply from_some; reflexivity|apply reach_refl]. }
    + kept G. + reflexivity. + exact Ar. + replace m with (i + 1) by lia. exact C1.
Qed.
(** from gemv_clear to gemv_start *)
Lemma clear_ok st : gpr A st DX = y -> gpr A st CX = Z.of_nat m -> args A st "incY" = 1%Z -> args A st "m" = Z.of_nat m -> args A st "y_base" = y -> cleared 0 (mem A st) ->
  exists st', reach (from "gemv_clear") st (from "gemv_start") st' /\ (forall r, In r [AX; SI; DI; R10; R12; R13] -> gpr A st' r = gpr A st r) /\ vec A st' 14 = vec A st 14 /\ vec A st' 15 = vec A st 15 /\
    args A st' = args A st /\ gpr A st' DX = y /\ gpr A st' CX = Z.of_nat m /\ memok 0 (mem A st').
Proof.
  intros HD HC HY Hm Hy C0. pose proof (bits_small m) as B.
  pose proof (Nat.mod_upper_bound m 2 ltac:(lia)) as U0. pose proof (Nat.mod_upper_bound (m / 2) 2 ltac:(lia)) as U1. pose proof (Nat.mod_upper_bound (m / 4) 2 ltac:(lia)) as U2.
  assert (HS : Z.shiftr (Z.of_nat m) 3 = Z.of_nat (m / 8)) by exact (nat_shiftr m 3).
  set (s0 := set_zf A (set_gpr A (set_flags A (set_vec A (set_vec A (set_vec A (set_vec A st 0 [zero A; zero A]) 1 [zero A; zero A]) 2 [zero A; zero A]) 3 [zero A; zero A]) true false) CX (Z.of_nat (m / 8))) (Z.of_nat (m / 8) =? 0)%Z).
  assert (R0 : reach (from "gemv_clear") st (("", [Je "clear4"]) :: from "clear8") s0).
  { ex "gemv_clear" "clear8". do 4 (eapply reach_step; [reflexivity|]). eapply reach_step; [cbn [GemModel.step GemModel.get args set_vec]; rewrite HY; reflexivity|]. eapply reach_step; [reflexivity|].
    eapply reach_step; [|apply reach_refl]. cbn [GemModel.step]. unfold arith. cbn [GemModel.get put set_flags gpr set_vec]. rewrite HC, HS. reflexivity. }
  assert (Z0 : zeros s0) by (repeat split; reflexivity).
  assert (K0 : clr 0 s0 s0) by (split; [change (gpr A st DX = y + 8 * 0)%Z; lia|]; split; [reflexivity|]; split; [reflexivity|]; split; [reflexivity|exact C0]).
  assert (T : exists s1, clr (8 * (m / 8)) s0 s1 /\ reach (("", [Je "clear4"]) :: from "clear8") s0 (from "clear4") s1).
  { destruct (m / 8) as [|k] eqn:E.
    - exists s0. split; [exact K0|]. eapply reach_goto; [reflexivity|apply from_some; reflexivity|apply reach_refl].
    - destruct (loop_dec A 8 2 equal farg gemv_n64 CX "clear8" "clear8" clear8 [] (from "clear4")
        (fun c s => clr (8 * (S k - c)) s0 s /\ c <= S k /\ gpr A s CX = Z.of_nat c) ltac:(reflexivity)) with (n := k) (st := s0) as (s1 & (K1 & _) & R1).
      + intros c s z Hc. exact Hc.
      + intros c s (Kc & Hc & Gc). destruct (clear8_ok _ s0 s Kc Z0 ltac:(lia)) as (s' & B' & K' & G'). exists s'. split; [exact B'|]. split; [congruence|].
        replace (8 * (S k - c)) with (8 * (S k - S c) + 8) by lia. split; [|split; [lia|reflexivity]].
        destruct K' as (D' & G2 & K'). split; [exact D'|]. split; [kept G2|exact K'].
      + split; [replace (8 * (S k - S k)) with 0 by lia; exact K0|split; [lia|reflexivity]].
      + exists s1. rewrite Nat.sub_0_r in K1. split; [exact K1|]. eapply reach_step; [reflexivity|]. apply reach_next. eapply reach_trans; [exact R1|]. apply reach_next, reach_refl. }
  destruct T as (s1 & K1 & R1).
  destruct (clear4_ok _ s0 s1 K1 Z0 Hm ltac:(lia)) as (s2 & K2 & R2).
  destruct (clear2_ok _ s0 s2 K2 Z0 Hm ltac:(lia)) as (s3 & K3 & R3).
  destruct (clear1_ok _ s0 s3 K3 Z0 Hm ltac:(lia)) as (s4 & G4 & V4 & A4 & K4 & R4).
  assert (G4' : forall r, In r [AX; SI; DI; R10; R12; R13] -> gpr A s4 r = gpr A st r).
  { intros r Hq. rewrite (G4 r Hq). cbn [In] in Hq. repeat destruct Hq as [<-|Hq]; [reflexivity..|destruct Hq]. }
  eexists. split.
  { eapply reach_trans; [exact R0|]. eapply reach_trans; [exact R1|]. eapply reach_trans; [exact R2|]. eapply reach_trans; [exact R3|]. eapply reach_trans; [exact R4|].
    ex "prep_end" "gemv_start". do 2 (eapply reach_step; [reflexivity|]). apply reach_next, reach_refl. }
  split; [kept G4'|]. split; [change (vec A s4 14 = vec A s0 14); now rewrite V4|]. split; [change (vec A s4 15 = vec A s0 15); now rewrite V4|].
  split; [exact A4|]. split; [change (args A s4 "y_base" = y); rewrite A4; exact Hy|]. split; [change (args A s4 "m" = Z.of_nat m); rewrite A4; exact Hm|].
  apply cleared_memok. exact K4.
Qed.
End Gemv.
